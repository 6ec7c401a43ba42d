(** C66: several state objects - copies are independent, assigned objects and views share. *)
From Verif Require Import ObjectsProofs4 ObjectsDensityProofs.
From Verif Require Import ObjectsSpec.

(** Programs in which every object is made by a constructor, copy() or get_state_vector_at(): the objects behave as separate values. *)
Theorem C66_separate_values L h r l : lanes_ok L -> (forall k, unit_draw (r k)) -> Forall separate_op l -> prog_ok l (VState (fun _ => None) r) ->
  runs (orun L l) (start h r) (fun o => exists v, vrun l (VState (fun _ => None) r) v /\ finishes o v).
Proof. exact (values_program L h r l). Qed.
Print Assumptions C66_separate_values.

Definition ex_program : list oop :=
  [ONew 0 (Single 2); OApply 0 false sparse_X; OCopy 1 0; OApply 1 false sparse_X; OVec 1 (SMultiply Ci); OAdd 0 Ci 1; OLoad 1 0;
   ONew 2 (Batch 3 2); OSetAll 2 1; OGetAt 3 2 1; OSetAt 2 0 3; OBat 2 (BoMultiply C0); OVec 0 (SBasis 9)].
Ltac next :=
  let V := fresh "V" in let E := fresh "E" in intros V E; inversion E; subst; clear E;
  repeat match goal with
         | H : v_env _ _ = Some _ |- _ => cbn in H; first [discriminate H|injection H; clear H; intros; subst]
         | H : _ = VDone _ |- _ => cbn in H; first [discriminate H|injection H; clear H; intros; subst]
         end.
Example ex_program_ok r : Forall separate_op ex_program /\ prog_ok ex_program (VState (fun _ => None) r).
Proof.
  split; [repeat constructor|]. assert (Hty : call_typed sparse_X) by exact ex_gate_ok. assert (Hm : exists g, make false sparse_X = Ok g) by (exists ex_sparse; reflexivity).
  assert (Hs : shape_ok (Single 2)) by (split; vm_compute; congruence). assert (Hb : shape_ok (Batch 3 2)) by (split; vm_compute; congruence).
  unfold ex_program.
  refine (conj Hs _). next. refine (conj _ _). { eexists. split; [reflexivity|]. split; [exact Hty|]. split; [exact Hm|]. repeat constructor. }
  next. refine (conj _ _). { eexists. reflexivity. }
  next. refine (conj _ _). { eexists. split; [reflexivity|]. split; [exact Hty|]. split; [exact Hm|]. repeat constructor. }
  next. refine (conj _ _). { eexists. eexists. split; [reflexivity|]. split; exact I. }
  next. refine (conj _ _). { left. eexists. eexists. eexists. eexists. split; [reflexivity|]. split; [reflexivity|]. vm_compute. congruence. }
  next. refine (conj _ _). { left. split; (eexists; eexists; reflexivity). }
  next. refine (conj Hb _).
  next. refine (conj _ _). { split; [eexists; eexists; eexists; reflexivity|eexists; eexists; reflexivity]. }
  next. refine (conj _ _). { eexists. eexists. eexists. reflexivity. }
  next. refine (conj _ _). { split; [eexists; eexists; eexists; reflexivity|eexists; eexists; reflexivity]. }
  next. refine (conj _ _). { eexists. eexists. eexists. split; [reflexivity|]. split; [exact I|discriminate]. }
  next. refine (conj _ _). { eexists. eexists. split; [reflexivity|]. split; exact I. }
  next; exact I.
Qed.

(** An operation leaves every object as it was that has no amplitude in common with the object it writes - whatever else shares. *)
Theorem C66_frame L op st r z : sound st -> ostep L op st r -> ~ In z (rebinds op ++ writes op) ->
  (forall x ox oz, In x (writes op) -> st_env st x = Some ox -> st_env st z = Some oz -> apart ox oz) -> after r (fun st' => sound st' /\ unchanged st st' z).
Proof. exact (frame L op st r z). Qed.
Print Assumptions C66_frame.
(** a copy has the amplitudes of the original and shares them with no object *)
Theorem C66_copy L x y st r : sound st -> x <> y -> ostep L (OCopy x y) st r ->
  after r (fun st' => sound st' /\ closed (eq x) st' /\ amplitudes st' x = amplitudes st y /\ unchanged st st' y).
Proof. exact (copied L x y st r). Qed.
Print Assumptions C66_copy.
(** A program that names members of a group of objects only changes nothing outside of it, when nothing is shared across. *)
Theorem C66_confined L G l st r : sound st -> closed G st -> Forall (within G) l -> orun L l st r ->
  after r (fun st' => sound st' /\ closed G st' /\ forall z, ~ G z -> unchanged st st' z).
Proof. exact (confined L G l st r). Qed.
Print Assumptions C66_confined.
(** Object 0 has the second name 1; 2 is a batch, 3 a view of its element 1; 4 is a separate object. *)
Definition ex_store (h : nat -> state) (r : nat -> R) : store :=
  Store h 3 (fun x => match x with
                      | 0 | 1 => Some (Obj (Single 2) 0 0)
                      | 2 => Some (Obj (Batch 3 2) 1 0)
                      | 3 => Some (Obj (Single 2) 1 4)
                      | 4 => Some (Obj (Single 2) 2 0)
                      | _ => None
                      end)%nat r.
Example ex_store_sound h r : sound (ex_store h r) /\ closed (fun x => In x [2; 3]%nat) (ex_store h r) /\
  Forall (within (fun x => In x [2; 3]%nat)) [OAdd 3 Ci 0; OSetAt 2 0 1; OView 3 2 0; OApply 3 false sparse_X].
Proof.
  assert (Hi : forall x : nat, (x <= 4)%nat -> x = 0%nat \/ x = 1%nat \/ x = 2%nat \/ x = 3%nat \/ x = 4%nat) by (intros; lia).
  split; [|split].
  - intros x o Hx. cbn in *. destruct x as [|[|[|[|[|x]]]]]; try discriminate Hx; injection Hx as <-; cbn; lia.
  - intros x y ox oy Hx Hy Ex Ey. cbn in Hx. destruct Hx as [<-|[<-|[]]]; cbn in Ex; injection Ex as <-; cbn in Ey, Hy;
      (destruct y as [|[|[|[|[|y]]]]]; try discriminate Ey; try (exfalso; apply Hy; tauto); injection Ey as <-; cbn; lia).
  - repeat constructor; cbn; tauto.
Qed.

(** After x = y both names see the same amplitudes, and so does the batch through a view of one of its elements, as long as no
    gate computes into a new buffer.  Missing: gates of three or more targets and sparse matrices (refuted below). *)
Theorem C66_assigned_partial L x y l st r : x <> y -> st_env st y <> None -> Forall op_stays l -> Forall (fun op => ~ In x (rebinds op) /\ ~ In y (rebinds op)) l ->
  orun L (OAssign x y :: l) st r -> after r (fun st' => amplitudes st' x = amplitudes st' y).
Proof. exact (assigned L x y l st r). Qed.
Print Assumptions C66_assigned_partial.
Theorem C66_viewed_partial L x s b l st r o B n : x <> s -> st_env st s = Some o -> o_shape o = Batch B n -> b < B -> Forall op_stays l -> Forall (fun op => ~ In x (rebinds op) /\ ~ In s (rebinds op)) l ->
  orun L (OView x s b :: l) st r -> after r (fun st' => exists row all, amplitudes st' x = Some row /\ amplitudes st' s = Some all /\
    length row = N.to_nat (2 ^ n) /\ forall i, i < 2 ^ n -> nth_error row (N.to_nat i) = nth_error all (N.to_nat (b * 2 ^ n + i))).
Proof. exact (viewed L x s b l st r o B n). Qed.
Print Assumptions C66_viewed_partial.
Example ex_staying h r : st_env (ex_store h r) 0%nat <> None /\ Forall op_stays [OApply 0 false (Call1 GX 0 [1] [1]); OVec 1 (SMultiply Ci); OAdd 3 Ci 5; OLoad 5 3] /\
  Forall (fun op => ~ In 5%nat (rebinds op) /\ ~ In 0%nat (rebinds op)) [OApply 0 false (Call1 GX 0 [1] [1]); OVec 1 (SMultiply Ci); OAdd 3 Ci 5; OLoad 5 3].
Proof.
  split; [discriminate|]. split; [|repeat constructor; cbn; tauto]. repeat constructor. intros g Hg. cbn in Hg. injection Hg as <-. reflexivity.
Qed.

(** A gate that computes into a new buffer detaches its state: the gate's effect is seen through no other name. *)
Theorem C66_detached L x vf k g st o : lanes_ok L -> sound st -> st_env st x = Some o -> shape_ok (o_shape o) -> call_typed k -> make vf k = Ok g -> Forall (fun q => q < qubits (o_shape o)) (call_operands k) ->
  stays g = false -> runs (ostep L (OApply x vf k)) st (done (fun _ st' => sound st' /\
    amplitudes st' x = Some (map (acted k (content st o)) (seqN (size (o_shape o)))) /\ forall z, z <> x -> unchanged st st' z)).
Proof. exact (buffered_unseen L x vf k g st o). Qed.
Print Assumptions C66_detached.
(** so that sharing is not kept: a second name and a view *)
Theorem C66_assigned_refuted L h r : lanes_ok L -> (forall k, unit_draw (r k)) ->
  runs (orun L [ONew 0 (Single 1); OAssign 1 0; OApply 0 false sparse_X]) (start h r) (done (fun _ st' => amplitudes st' 0 = Some [C0; C1] /\ amplitudes st' 1 = Some [C1; C0])).
Proof. exact (assigned_refuted L h r). Qed.
Print Assumptions C66_assigned_refuted.
Theorem C66_viewed_refuted L h r : lanes_ok L -> (forall k, unit_draw (r k)) ->
  runs (orun L [ONew 0 (Batch 1 1); OView 1 0 0; OApply 1 false sparse_X]) (start h r) (done (fun _ st' => amplitudes st' 1 = Some [C0; C1] /\ amplitudes st' 0 = Some [C1; C0])).
Proof. exact (viewed_refuted L h r). Qed.
Print Assumptions C66_viewed_refuted.
(** set_state_vector with a view of an element of the batch itself is a data race *)
Theorem C66_self_view_refuted L st s y os oy B n b : st_env st s = Some os -> o_shape os = Batch B n -> st_env st y = Some oy -> oy = Obj (Single n) (o_buf os) (o_off os + b * 2 ^ n) -> b < B -> 2 <= B ->
  ostep L (OSetAll s y) st HUndefined.
Proof. exact (self_view_race L st s y os oy B n b). Qed.
Print Assumptions C66_self_view_refuted.
Example ex_self_view L h r : ostep L (OSetAll 2 3) (ex_store h r) HUndefined.
Proof. eapply (C66_self_view_refuted L (ex_store h r) 2 3 _ _ 3 2 1); reflexivity || (vm_compute; congruence). Qed.
(** Two names of one density matrix have each a flag: after a change through the first that is not hermitian the second still reports what it did. *)
Theorem C66_density_flag_refuted n w v : 0 < n -> v <> Cconj (dp_raw w (1, 0)) ->
  runs (on_first (set_coherence_at n 0 1 v)) w (done (fun _ w' =>
    ~ hermitian (2 ^ n) (fun i j => dp_raw w' (i, j)) /\ dp_first w' = false /\ dp_second w' = dp_second w)).
Proof. exact (flag_refuted n w v). Qed.
Print Assumptions C66_density_flag_refuted.
Example ex_flag : Ci <> Cconj (dp_raw (DPair (fun _ => C0) true true) (1, 0)).
Proof. cbn. intros H. injection H as H1. lra. Qed.
