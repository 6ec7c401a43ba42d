(** Examples for the circuit theorems; rejected inverses. *)
From Verif Require Export CircuitProofs9.
From Coq Require Import ZifyBool ZifyN ZifyNat Lra.

Lemma mapR_throws {A B} (f : A -> res B) l : Forall (fun x => f x <> UB) l -> Exists (fun x => f x = Throw) l -> Circuit.mapR f l = Throw.
Proof.
  induction 1 as [|x l Hx HF IH]; intros HE; inversion HE as [? ? E|? ? E]; subst; cbn [Circuit.mapR].
  - now rewrite E.
  - destruct (f x); [cbn [bindR]; now rewrite (IH E)|reflexivity|congruence].
Qed.
Theorem inverse_rejected c : Forall (fun i => factory_made i \/ not_invertible i) (c_gates c) -> Exists not_invertible (c_gates c) -> circuit_inverse c = Throw.
Proof.
  intros HF HE. assert (Hn : forall i, not_invertible i -> item_inverse i = Throw).
  { intros [[[t g]|q b r|]|] H; cbn [not_invertible] in H; try contradiction; [|reflexivity]. destruct H as (vf & k & Hty & Hm & Hh).
    pose proof (inverse_available vf k g Hty Hm) as Ha. rewrite Hh in Ha. cbn [item_inverse c_inverse]. now rewrite Ha. }
  unfold circuit_inverse. rewrite mapR_throws; [reflexivity| |].
  - apply Forall_rev. eapply Forall_impl; [|exact HF]. intros i [Hi|Hi]; [|rewrite (Hn i Hi); discriminate].
    destruct (item_inverse_spec 0 i eq_refl Hi) as (i' & _ & _ & -> & _). discriminate.
  - apply Exists_rev. eapply Exists_impl; [|exact HE]. exact Hn.
Qed.
Theorem history_inverse l : let c := build l in Forall factory_made (c_gates c) -> exists c', circuit_inverse c = Ok c' /\
  c_conds c' = rev (c_conds c) /\ length (c_gates c') = length (c_gates c) /\
  forall n L ps w, n < 64 -> lanes_ok L -> required_n_qubits c <= n -> (forall key, In key (keys c) -> ps key <> None) ->
  (forall f, In (Some f) (c_conds c) -> exists b, f (w_reg w) = Ok b) -> (forall k, unit_draw (w_rand w k)) ->
  runs (circuit_update n L ps c;~ circuit_update n L ps c') w (done (fun _ w' =>
    (forall x, x < 2 ^ n -> w_amp w' x = w_amp w x) /\ w_reg w' = w_reg w /\ forall i, w_rand w' i = w_rand w i)).
Proof.
  intros c HF. destruct (inverse_exists c HF) as (c' & E & H1 & H2). exists c'. split; [exact E|]. split; [exact H1|]. split; [exact H2|].
  intros. eapply inverse_undoes; try eassumption. destruct (build_spec l) as [E1 E2]. unfold c. rewrite E1, E2, !map_length. reflexivity.
Qed.

(** H(0); measure qubit 0 into bit 0; X(1) if the bit is set; RX(1) by theta *)
Definition ex_H : egate := EStd GH (GBase 1 0 0).
Definition ex_X : egate := EStd GX (GBase 2 0 0).
Definition ex_RX : pgate := PRot true RotX (GBase 2 0 0) 1.
Definition ex_calls : list cop := [OGate (CElem (true, ex_H)); OGate (CMeas 1 0 false);
  OCircuit [OCondGate (CElem (true, ex_X)) (bit_cond 0 true)]; OParam ex_RX "theta"].
Definition ex_program : program := [(SFixed (act_of (Call1 GH 0 [] [])), None); (SFixed (Meas 0 0 false), None);
  (SFixed (act_of (Call1 GX 1 [] [])), Some (bit_cond 0 true)); (SKeyed "theta" (fun v => act_of (pcall_at (PCallRot RotX 1 1 [] []) v)), None)].
Lemma ex_built : circuit_is (build ex_calls) ex_program.
Proof.
  apply build_program. cbn [ex_calls flat_map says app ex_program]. apply Forall2_cons; [|apply Forall2_cons; [|apply Forall2_cons; [|apply Forall2_cons; [|apply Forall2_nil]]]]; (split; [|reflexivity]); cbn [fst snd].
  - apply represents_gate. exact (noise1_stands GH 0 eq_refl).
  - apply represents_gate. now apply stands_measure.
  - apply represents_gate. exact (noise1_stands GX 1 eq_refl).
  - apply represents_param. apply (pstands_factory true); [exact I|reflexivity].
Qed.
Lemma ex_kept : norm_kept 2 (fun _ => Some 1%R) ex_program.
Proof.
  unfold norm_kept, ex_program. assert (Hb : cond_defined (Some (bit_cond 0 true))).
  { intros r. cbn [holds]. unfold bit_cond, reg_read. destruct r as [|b r]; discriminate. }
  assert (Hc : cond_defined None) by (intros r; discriminate).
  repeat apply Forall_cons; [| | | |apply Forall_nil]; (split; [assumption|]); cbn [fst snd item_gate]; intros g [= <-].
  - apply (unitary_act_keeps 2 true _ ex_H); try reflexivity; try exact I. repeat constructor.
  - reflexivity.
  - apply (unitary_act_keeps 2 true _ ex_X); try reflexivity; try exact I. repeat constructor.
  - apply (unitary_act_keeps 2 true _ (pgate_at ex_RX 1)); try reflexivity; try exact I. repeat constructor.
Qed.
Definition ex_zero : state := fun x => if x =? 0 then C1 else C0.
Lemma ex_zero_norm : sqnorm 2 ex_zero = 1%R.
Proof. unfold sqnorm, Rsuml. cbn. unfold Cnorm2, Re, Im, C0, C1. simpl. ring. Qed.
Lemma circuit_example : circuit_is (build ex_calls) ex_program /\
  forall us r, Forall unit_draw us -> ~ run_program watch_all 2 (fun _ => Some 1%R) ex_program us (SState ex_zero r) SOutside.
Proof. split; [apply ex_built|]. intros us r Hu. apply program_inside; [apply ex_kept|exact Hu|apply ex_zero_norm]. Qed.
Lemma inverse_example' : Forall factory_made (c_gates (build [OGate (CElem (true, ex_H)); OCondGate (CElem (true, ex_X)) (bit_cond 0 true); OParam ex_RX "theta"])).
Proof.
  repeat apply Forall_cons; [| | |apply Forall_nil]; cbn [factory_made].
  - exists true, (Call1 GH 0 [] []). repeat split.
  - exists true, (Call1 GX 1 [] []). repeat split.
  - exists true, (PCallRot RotX 1 1 [] []). repeat split.
Qed.
Lemma probabilistic_example : exists g inner dist gs, make_probabilistic dist gs = Ok g /\ gs = [inner; CElem (true, ex_X)] /\ inner = CProb true [1 / 4; 3 / 4]%R [CElem (true, ex_H); noise_I] /\
  acceptable dist gs /\ g = CProb true [1 / 2 * (1 / 4); 1 / 2 * (3 / 4); 1 / 2]%R [CElem (true, ex_H); noise_I; CElem (true, ex_X)].
Proof.
  assert (Hi : stands (CProb true [1 / 4; 3 / 4]%R [CElem (true, ex_H); noise_I]) (Choice (combine [1 / 4; 3 / 4]%R [act_of (Call1 GH 0 [] []); act_of CallI]))).
  { apply stands_choice; [|reflexivity|].
    - split; [discriminate|]. split; [repeat (apply Forall_cons; [lra|]); apply Forall_nil|]. unfold Rsuml. simpl. replace (_ - 1)%R with 0%R by field. rewrite Rabs_R0. lra.
    - constructor; [exact (noise1_stands GH 0 eq_refl)|]. constructor; [apply noise_I_stands|constructor]. }
  assert (Ha : acceptable [1 / 2; 1 / 2]%R [CProb true [1 / 4; 3 / 4]%R [CElem (true, ex_H); noise_I]; CElem (true, ex_X)]).
  { split; [discriminate|]. split; [reflexivity|]. split; [repeat (apply Forall_cons; [lra|]); apply Forall_nil|]. split; [reflexivity|].
    unfold Rsuml. simpl. replace (_ - 1)%R with 0%R by field. rewrite Rabs_R0. lra. }
  destruct (factory_accepts [1 / 2; 1 / 2]%R [CProb true [1 / 4; 3 / 4]%R [CElem (true, ex_H); noise_I]; CElem (true, ex_X)] [_; _]
    ltac:(constructor; [exact Hi|constructor; [exact (noise1_stands GX 1 eq_refl)|constructor]])) as [H _].
  destruct (H Ha) as (g & s & E & _). exists g. eexists _, _, _. split; [exact E|]. split; [reflexivity|]. split; [reflexivity|]. split; [exact Ha|].
  unfold make_probabilistic, probabilistic_impl in E. inv_bind E. injection E as <-. destruct (_ =? 0)%nat; [discriminate|]. destruct (negb _); [discriminate|]. destruct (negb _); [discriminate|].
  inv_bind E0. destruct (sum_is_one _); [|discriminate]. injection E0 as <-. cbn in E. injection E as <-. reflexivity.
Qed.
