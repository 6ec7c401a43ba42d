(** The gates that take part in merging. *)
From Verif Require Export OptimizeProofs2.
From Coq Require Import ZifyBool ZifyN ZifyNat Permutation Lra FunctionalExtensionality.

(** ** Gate objects act on their operands only *)
Lemma sem_acts_on g : gate_wf g -> acts_on (bits (base_operands (g_base g))) (gate_sem g).
Proof.
  intros [(Hd & Hcv & Ht & Hc) _]. exists (bits (g_t (g_base g))), (ctrls (g_c (g_base g)) (g_cv (g_base g))), (m_at (get_matrix g)).
  split; [apply bits_NoDup|]. split; [|reflexivity]. intros i Hi. apply in_bits. unfold base_operands. rewrite N.lor_spec, orb_true_iff.
  apply in_app_or in Hi. destruct Hi as [Hi|Hi]; [left; now apply in_bits|right]. unfold ctrls in Hi. rewrite map_map in Hi. cbn [fst] in Hi. rewrite map_id in Hi. now apply in_bits.
Qed.
Lemma acts_local n g s : n < 64 -> acts g s -> Forall (fun q => q < n) (operands s) -> exists qs, s = Act qs (gate_sem g) /\ acts_on qs (gate_sem g) /\
  gate_fits n g /\ forall i, In i qs <-> N.testbit (base_operands (g_base g)) i = true.
Proof.
  intros Hn Ha HF. destruct (acts_spec g s Ha) as (qs & f & -> & Hw & Hops & Hsem). cbn [operands] in HF. destruct (Hsem n Hn HF) as [Hfit Heq].
  assert (f = gate_sem g) as -> by (apply functional_extensionality; intros psi; apply functional_extensionality; apply Heq).
  exists qs. split; [reflexivity|]. split; [|split; [assumption|intros i; symmetry; apply Hops]].
  eapply acts_on_incl; [now apply sem_acts_on|]. intros i Hi. apply Hops. now apply in_bits.
Qed.
Lemma local_choice d ss : Forall local ss -> local (Choice (combine d ss)).
Proof. intros H. cbn [local]. revert d. induction H as [|s ss Hs H IH]; intros [|x d]; cbn [combine fold_right snd]; auto. Qed.
Lemma choice_below n d ss : length d = length ss -> Forall (fun q => q < n) (operands (Choice (combine d ss))) -> Forall (fun s => Forall (fun q => q < n) (operands s)) ss.
Proof.
  cbn [operands]. revert d. induction ss as [|s ss IH]; intros [|x d] Hl HF; try discriminate; constructor.
  - cbn [combine flat_map snd] in HF. apply Forall_app in HF. tauto.
  - apply (IH d); [now injection Hl|]. cbn [combine flat_map snd] in HF. apply Forall_app in HF. tauto.
Qed.
Lemma stands_local n g s : n < 64 -> stands g s -> Forall (fun q => q < n) (operands s) -> local s.
Proof.
  intros Hn. revert s. induction g as [[t e]|t b r|t dist gs IH] using cgate_ind'; intros s Hs HF; inversion Hs as [? ? ? Ha|? ? ? ? Hm|? ? ? ss Hd Hl H2]; subst; try exact I.
  - destruct (acts_local n e s Hn Ha HF) as (qs & -> & H & _). exact H.
  - pose proof (Forall2_len _ _ _ H2) as Hl2. apply choice_below in HF; [|congruence]. apply local_choice. clear -IH H2 HF. induction H2 as [|g s gs ss Hgs H2 IH2]; [constructor|].
    inversion IH; subst. inversion HF; subst. constructor; auto.
Qed.
Lemma pstands_local n g : n < 64 -> forall s v, pstands (inr g) s -> Forall (fun q => q < n) (operands (s v)) -> local (s v).
Proof.
  intros Hn. induction g as [t k b c|t b p c|t d gs IH] using pgate_ind'; intros s v H HF.
  - destruct (acts_local n _ _ Hn (pacts_at _ _ v H I) HF) as (qs & E & Ho & _). rewrite E. exact Ho.
  - destruct (acts_local n _ _ Hn (pacts_at _ _ v H I) HF) as (qs & E & Ho & _). rewrite E. exact Ho.
  - apply pstands_choice_inv in H. destruct H as (ss & Hd & Hl & H2 & ->). pose proof (Forall2_len _ _ _ H2) as Hl2.
    apply choice_below in HF; [|rewrite map_length; congruence]. apply local_choice. clear -Hn IH H2 HF. induction H2 as [|g s gs ss Hgs H2 IH2]; [constructor|].
    cbn [map] in *. inversion IH; subst. inversion HF; subst. constructor; [|auto]. destruct g as [g|g]; [|apply H1; assumption].
    inversion Hgs; subst. now apply (stands_local n g).
Qed.

(** ** Where a merged gate comes from *)
Lemma create_shape vf t cs vs k g : create vf t cs vs k = Ok g -> exists b, g = k b.
Proof. unfold create. intros H. inv_bind H. destruct v as [[? ?] ?]. inv_bind H. injection H as <-. eauto. Qed.
Definition kind_of (k : call) (g : egate) : Prop :=
  match k, g with
  | CallI, EI | CallGlobalPhase _ _ _, EGlobalPhase _ _ | CallSwap _ _ _ _, ESwap _ | CallEcr _ _ _ _, EEcr _ _ _ | CallPermutation _, EPermutation _ _ _
  | CallPauli _ _ _, EPauli _ _ | CallPauliRotation _ _ _ _, EPauliRotation _ _ _ | CallDense _ _ _ _ _, EDense _ _ _ | CallSparse _ _ _ _, ESparse _ _ => True
  | Call1 k _ _ _, EStd k' _ => k' = k
  | CallCX _ _, EStd k' _ | CallCCX _ _ _, EStd k' _ => k' = GX
  | CallCZ _ _, EStd k' _ => k' = GZ
  | _, _ => False
  end.
Lemma make_kind vf k g : make vf k = Ok g -> kind_of k g.
Proof.
  intros H. destruct k; cbn [make] in H.
  all: repeat match type of H with
       | create _ _ _ _ _ = Ok _ => apply create_shape in H; destruct H as [? ->]; first [exact I|reflexivity]
       | Ok _ = Ok _ => injection H as <-; first [exact I|reflexivity]
       | Throw = Ok _ => discriminate H
       | UB = Ok _ => discriminate H
       | (if ?c then _ else _) = _ => destruct c
       | bindR ?e _ = Ok _ => inv_bind H
       | (match ?v with _ => _ end) = Ok _ => destruct v as [[? ?] ?]
       | make_permutation_impl _ = Ok _ => unfold make_permutation_impl in H
       | _ => cbv zeta in H
       end.
Qed.
Definition result_call (k : call) : Prop :=
  match k with
  | CallI | CallGlobalPhase _ _ _ | CallPauli _ _ _ | CallDense _ _ _ _ _ => True
  | Call1 k _ _ _ => match k with GRZ _ => False | _ => True end
  | _ => False
  end.
Definition from_call (vf : bool) (r : res (tgate * R)) : Prop := forall g ph, r = Ok (g, ph) -> exists k, result_call k /\ make vf k = Ok (snd g) /\ fst g = true.
Definition from_calls (vf : bool) (c : option (res (tgate * R))) : Prop := forall r, c = Some r -> from_call vf r.
Lemma returning_call vf k ph : result_call k -> from_call vf (returning vf k ph).
Proof. intros Hk g ph' H. unfold returning in H. inv_bind H. injection H as <- _. now exists k. Qed.
Lemma from_or vf a b : from_calls vf a -> from_calls vf b -> from_calls vf (or_else a b).
Proof. intros Ha Hb r. unfold or_else. destruct a as [r'|]; [apply Ha|apply Hb]. Qed.
Lemma dense_call vf g1 g2 : from_call vf (merge_gate_dense_matrix vf g1 g2).
Proof. intros g ph H. unfold merge_gate_dense_matrix in H. repeat (inv_bind H). injection H as <- _. eexists. split; cycle 1; [split; [eassumption|reflexivity]|exact I]. Qed.
Ltac call_cases := repeat match goal with
  | |- from_calls _ None => intros ? ?; discriminate
  | |- from_calls _ (Some (returning _ _ _)) => intros r [= <-]; apply returning_call; exact I
  | |- from_calls _ (Some (return1 _ _ _ _)) => intros r [= <-]; apply returning_call; exact I
  | |- context [match ?x with _ => _ end] => destruct x
  end.
Lemma oct_gate_call m k : oct_phase_gate m = Some (Some k) -> match k with GRZ _ => False | _ => True end.
Proof. unfold oct_phase_gate. intros H. repeat match type of H with match ?x with _ => _ end = _ => destruct x end; try discriminate; injection H as <-; exact I. Qed.
Lemma quad_rx_call m k : quad_rx_gate m = Some (Some k) -> match k with GRZ _ => False | _ => True end.
Proof. unfold quad_rx_gate. intros H. repeat match type of H with match ?x with _ => _ end = _ => destruct x end; try discriminate; injection H as <-; exact I. Qed.
Lemma quad_ry_call m k : quad_ry_gate m = Some (Some k) -> match k with GRZ _ => False | _ => True end.
Proof. unfold quad_ry_gate. intros H. repeat match type of H with match ?x with _ => _ end = _ => destruct x end; try discriminate; injection H as <-; exact I. Qed.
Lemma table_call vf g1 g2 f tbl m : (forall x k, tbl x = Some (Some k) -> match k with GRZ _ => False | _ => True end) -> from_calls vf (merge_table vf g1 g2 f tbl m).
Proof.
  intros Ht r H. unfold merge_table in H. destruct (f _); [|discriminate]. destruct (f _); [|discriminate]. destruct (_ =? _); [|discriminate].
  destruct (tbl _) as [k|] eqn:E; [|discriminate]. injection H as <-. destruct k as [k|]; apply returning_call; [|exact I]. now apply (Ht _ k E).
Qed.
Lemma rotations_call vf g1 g2 view K : (forall a, match K a with GRZ _ => False | _ => True end) -> from_calls vf (merge_rotations vf g1 g2 view K).
Proof.
  intros HK r H. unfold merge_rotations in H. destruct (view _) as [[a1 p1]|]; [|discriminate]. destruct (view _) as [[a2 p2]|]; [|discriminate]. destruct (_ =? _); [|discriminate].
  destruct (_ || _); [|discriminate]. injection H as <-. apply returning_call. apply HK.
Qed.
Lemma paulis_call vf g1 g2 : from_calls vf (merge_paulis vf g1 g2).
Proof.
  intros r H. unfold merge_paulis in H. destruct (pauli_view _ _) as [p1|]; [|discriminate]. destruct (pauli_view _ _) as [p2|]; [|discriminate]. injection H as <-.
  intros g ph H. inv_bind H. inv_bind H. revert g ph H. apply returning_call. exact I.
Qed.
Lemma merge_origin vf g1 g2 g ph : merge_gate vf g1 g2 = Ok (g, ph) -> g = g1 \/ g = g2 \/ exists k, result_call k /\ make vf k = Ok (snd g) /\ fst g = true.
Proof.
  unfold merge_gate. destruct (_ || _); [discriminate|].
  assert (Hgen : forall c1 c2 cv1 cv2, from_call vf (if negb ((c1 =? c2) && (cv1 =? cv2)) then merge_gate_dense_matrix vf (snd g1) (snd g2) else
    match or_else (merge_phases vf g1 g2)
             (or_else (merge_paulis1 vf g1 g2)
             (or_else (merge_paulis vf g1 g2)
             (or_else (merge_table vf g1 g2 get_oct_phase oct_phase_gate 8)
             (or_else (merge_rotations vf g1 g2 rz_view GU1)
             (or_else (merge_table vf g1 g2 get_quad_rx quad_rx_gate 4)
             (or_else (merge_rotations vf g1 g2 rx_view GRX)
             (or_else (merge_table vf g1 g2 get_quad_ry quad_ry_gate 4)
             (or_else (merge_rotations vf g1 g2 ry_view GRY)
                      (merge_swaps vf g1 g2))))))))) with
        | Some r => r
        | None => merge_gate_dense_matrix vf (snd g1) (snd g2)
        end)).
  { intros c1 c2 cv1 cv2. destruct (negb _); [apply dense_call|].
    match goal with |- from_call vf (match ?c with _ => _ end) => assert (Hc : from_calls vf c); [|destruct c; [now apply Hc|apply dense_call]] end.
    repeat apply from_or; try (apply table_call; first [exact oct_gate_call|exact quad_rx_call|exact quad_ry_call]); try (apply rotations_call; intros; exact I); try apply paulis_call.
    - unfold merge_phases. call_cases.
    - unfold merge_paulis1. call_cases.
    - unfold merge_swaps. call_cases. }
  intros H.
  destruct (seen_type g1) as [[]|]; try (injection H as <- _; tauto);
    destruct (seen_type g2) as [[]|]; try (injection H as <- _; tauto);
    repeat match type of H with (if g_c ?b =? 0 then _ else _) = _ => destruct (g_c b =? 0); try (injection H as <- _; tauto) end;
    right; right; exact (Hgen _ _ _ _ _ _ H).
Qed.
