(** Calls in sequence, and examples. *)
From Verif Require Export DensityProofs7.
From Coq Require Import ZifyBool ZifyN ZifyNat Permutation.

Lemma becomes_then {T} n p w M h (k : unit -> host dmw T) Q : becomes n p w M h ->
  (forall w1, mat_eq (2 ^ n) (rho w1) M -> d_herm w1 = h -> runs (k tt) w1 Q) -> runs (hbind p k) w Q.
Proof.
  intros H1 H2. eapply (runs_bind_done p k w (fun t w1 => mat_eq (2 ^ n) (rho w1) M /\ d_herm w1 = h)); [exact H1|].
  intros [] w1 [A B]. now apply H2.
Qed.
(** C34 *)
Lemma update_trace vf k g n w : dm_supported k = true -> make vf k = Ok g -> call_unitary k -> Forall (fun q => q < n) (call_operands k) -> n < 32 ->
  exists t, yields (get_trace n) w t /\ runs (dm_update n g;~ get_trace n) w (done (fun t' _ => t' = t)).
Proof.
  intros Hs H Hu HF Hn. eexists. split; [apply trace_ok|]. eapply becomes_then; [now apply (dm_update_call vf k)|].
  intros w1 E _. eapply runs_weaken; [apply trace_ok|]. intros o ->. cbn [done]. rewrite (trace_ext _ _ _ E). apply sandwich_trace.
  apply (call_full_unitary vf k g); auto. lia.
Qed.
Lemma update_hermitian vf k g n w : dm_supported k = true -> make vf k = Ok g -> Forall (fun q => q < n) (call_operands k) -> n < 32 ->
  hermitian (2 ^ n) (rho w) -> runs (dm_update n g) w (done (fun _ w' => hermitian (2 ^ n) (rho w') /\ d_herm w' = d_herm w)).
Proof.
  intros Hs H HF Hn Hh. eapply runs_weaken; [now apply (dm_update_call vf k)|]. intros [t w1|w1|]; cbn; auto. intros [E F]. split; [|exact F].
  assert (G : hermitian (2 ^ n) (sandwich (2 ^ n) (full_matrix k) (rho w))) by now apply sandwich_hermitian.
  intros i j Hi Hj. rewrite (E i j Hi Hj), <- (G i j Hi Hj). unfold mat_adj. now rewrite (E j i Hj Hi).
Qed.
Lemma psd_ext n A B : mat_eq (2 ^ n) A B -> psd n A -> psd n B.
Proof.
  intros E H phi. specialize (H phi). replace (inner n phi (mat_vec (2 ^ n) B phi)) with (inner n phi (mat_vec (2 ^ n) A phi)); [exact H|].
  apply Csum_ext. intros i Hi. f_equal. apply mat_vec_ext; auto.
Qed.
Lemma update_psd vf k g n w : dm_supported k = true -> make vf k = Ok g -> Forall (fun q => q < n) (call_operands k) -> n < 32 ->
  psd n (rho w) -> runs (dm_update n g) w (done (fun _ w' => psd n (rho w'))).
Proof.
  intros Hs H HF Hn Hh. eapply runs_weaken; [now apply (dm_update_call vf k)|]. intros [t w1|w1|]; cbn; auto. intros [E F].
  eapply psd_ext; [apply mat_eq_sym; exact E|]. now apply sandwich_positive.
Qed.
Lemma hermitian_ext d A B : mat_eq d A B -> hermitian d A -> hermitian d B.
Proof. intros E H i j Hi Hj. unfold mat_adj. rewrite <- (E j i Hj Hi), <- (E i j Hi Hj). exact (H i j Hi Hj). Qed.
Lemma update_purity vf k g n w : dm_supported k = true -> make vf k = Ok g -> call_unitary k -> Forall (fun q => q < n) (call_operands k) -> n < 32 ->
  d_herm w = true -> hermitian (2 ^ n) (rho w) ->
  exists p, yields (get_purity n) w p /\ runs (dm_update n g;~ get_purity n) w (done (fun p' _ => p' = p)).
Proof.
  intros Hs H Hu HF Hn Hf Hh. eexists. split; [now apply purity_ok|]. eapply becomes_then; [now apply (dm_update_call vf k)|].
  intros w1 E F. eapply runs_weaken; [apply purity_ok; congruence|]. intros o ->. cbn [done]. apply RtoC_inj.
  assert (Hs1 : hermitian (2 ^ n) (rho w1)) by (eapply hermitian_ext; [apply mat_eq_sym; exact E|now apply sandwich_hermitian]).
  rewrite (purity_value n (rho w1) Hs1), (purity_value n (rho w) Hh).
  assert (HU : mat_eq (2 ^ n) (mat_mul (2 ^ n) (mat_adj (full_matrix k)) (full_matrix k)) mat_id) by (apply (call_full_unitary vf k g); auto; lia).
  rewrite (trace_ext _ _ (mat_mul (2 ^ n) (sandwich (2 ^ n) (full_matrix k) (rho w)) (sandwich (2 ^ n) (full_matrix k) (rho w)))) by now apply mat_mul_ext.
  rewrite (trace_ext _ _ _ (sandwich_mul _ _ _ _ HU)). now apply sandwich_trace.
Qed.
(** C36 *)
Lemma load_state_ok n psi w : becomes n (dm_load_state n n psi) w (pure psi) true.
Proof. unfold dm_load_state. rewrite N.eqb_refl. cbn [negb]. apply herm_dfor. Qed.
Lemma same_answers n psi : n < 64 -> forall sv w, (forall x, x < 2 ^ n -> w_amp sv x = psi x) ->
  runs (dm_load_state n n psi) w (done (fun _ d =>
    (forall i j, i < 2 ^ n -> j < 2 ^ n -> yields (get_coherence_at n i j) d (psi i * Cconj (psi j))%C) /\
    (forall q p, q < n -> returns (get_zero_probability n q) sv p -> yields (dm_get_zero_probability n q) d p) /\
    (forall vs p, N.of_nat (length vs) = n -> Forall (fun v => v <= 2) vs -> returns (get_marginal_probability n vs) sv p -> yields (dm_get_marginal_probability n vs) d p) /\
    (forall p, returns (get_computational_basis_entropy n) sv p -> yields (dm_get_entropy n) d p) /\
    (forall p, returns (get_squared_norm n) sv p -> yields (get_trace n) d (RtoC p) /\ yields (get_purity n) d (p * p)%R) /\
    (forall count rounds, dm_sampling n d count rounds = Ok (sampling n psi count rounds)))).
Proof.
  intros Hn sv w Hsv. eapply runs_weaken; [apply load_state_ok|]. intros [t d|d|]; cbn [done]; auto. intros [E F].
  assert (Hret : forall T (p : host world T) a b, returns p sv a -> returns p sv b -> a = b).
  { intros T p a b [H1 (o & Ho)] [H2 _]. pose proof (H1 o Ho) as A. pose proof (H2 o Ho) as B. rewrite A in B. now injection B. }
  assert (Hprob : forall P, prob n P (w_amp sv) = diag_prob n P (rho d)).
  { intros P. rewrite (pure_probability n psi d E). apply Rsuml_ext. intros x Hx. apply filter_In in Hx as [Hx _]. apply in_seqN in Hx. now rewrite Hsv. }
  split; [|split; [|split; [|split; [|split]]]].
  - intros i j Hi Hj. pose proof (E i j Hi Hj) as Eij. unfold pure in Eij. rewrite <- Eij. now apply get_coherence_ok.
  - intros q p Hq Hp. rewrite (Hret _ _ _ _ Hp (zero_probability_ok n q sv Hn Hq)), Hprob. now apply dm_zero_probability_ok.
  - intros vs p Hl HF Hp. rewrite (Hret _ _ _ _ Hp (marginal_ok n vs sv Hn Hl HF)), Hprob. now apply dm_marginal_ok.
  - intros p Hp. rewrite (Hret _ _ _ _ Hp (entropy_ok n sv)).
    rewrite (Rsuml_ext_seqN _ (fun x => if Rlt_dec 0 (Cnorm2 (psi x)) then (- Cnorm2 (psi x) * log2 (Cnorm2 (psi x)))%R else 0%R) (2 ^ n)) by (intros x Hx; now rewrite Hsv).
    now apply pure_entropy.
  - intros p Hp. rewrite (Hret _ _ _ _ Hp (squared_norm_ok n sv)).
    assert (Es : sqnorm n (w_amp sv) = sqnorm n psi) by (apply Rsuml_ext_seqN; intros x Hx; now rewrite Hsv). rewrite Es. split.
    + rewrite <- (pure_trace n psi d E). apply trace_ok.
    + now apply pure_purity.
  - intros count rounds. now apply pure_sampling.
Qed.
Lemma evolve_then_convert vf k g n L psi r w : dm_supported k = true -> make vf k = Ok g -> Forall (fun q => q < n) (call_operands k) -> n < 32 -> lanes_ok L ->
  result n 1 L g psi r -> becomes n (dm_load_state n n psi;~ dm_update n g) w (pure r) true.
Proof.
  intros Hs H HF Hn HL Hr. eapply becomes_then; [apply load_state_ok|]. intros w1 E F. rewrite <- F.
  eapply becomes_ext; [|now apply (dm_update_call vf k)].
  assert (Hty : call_typed k) by now apply supported_typed.
  eapply mat_eq_trans; [apply sandwich_ext; [apply mat_eq_refl|exact E]|]. eapply mat_eq_trans.
  - apply sandwich_pure. now apply (call_wf_ops vf k g).
  - assert (Hp : forall x, x < 2 ^ n -> r x = apply_mat (call_targets k) (call_controls k) (call_matrix k) psi x).
    { intros x Hx. eapply updating_result; [|exact Hr|lia]. apply (updating_call vf); auto. split; [lia|]. split; [|exact HL]. rewrite N.mul_1_l. apply N.pow_le_mono_r; lia. }
    intros i j Hi Hj. unfold pure. now rewrite !Hp.
Qed.

Lemma normalized_one n w : trace (2 ^ n) (rho w) <> C0 -> runs (dm_normalize n;~ get_trace n) w (done (fun t _ => t = C1)).
Proof.
  intros H. eapply becomes_then; [now apply normalize_ok|]. intros w1 E _. eapply runs_weaken; [apply trace_ok|]. intros o ->. cbn [done].
  rewrite (trace_ext _ _ _ E). now apply normalized_trace.
Qed.

(** ** Examples *)
Lemma density_example : exists g, make true (CallCX 0 1) = Ok g /\ dm_supported (CallCX 0 1) = true /\ call_unitary (CallCX 0 1) /\
  Forall (fun q => q < 2) (call_operands (CallCX 0 1)) /\
  exists w, hermitian (2 ^ 2) (rho w) /\ psd 2 (rho w) /\ d_herm w = true /\ trace (2 ^ 2) (rho w) = C1.
Proof.
  eexists. split; [reflexivity|]. split; [reflexivity|]. split; [exact I|]. split; [repeat constructor|].
  exists (DM (fun a => pure (basis 1) (fst a) (snd a)) true). split; [apply pure_hermitian|]. split; [apply pure_psd|]. split; [reflexivity|].
  unfold trace. change (2 ^ 2) with 4. rewrite Csum_4. unfold rho, pure, basis. cbn [d_raw fst snd]. cbn. Csolve.
Qed.
Lemma partial_trace_example : NoDup [2; 0] /\ Forall (fun q => q < 3) [2; 0] /\
  rest_of 3 [2; 0] = [1] /\ joint 3 [2; 0] 1 1 = 6 /\
  (forall (A B : matrix) i j z z', i < 2 -> j < 2 -> z < 4 -> z' < 4 ->
     let M x y := (A (gather [1] x) (gather [1] y) * B (gather [2; 0] x) (gather [2; 0] y))%C in
     M (joint 3 [2; 0] i z) (joint 3 [2; 0] j z') = (A i j * B z z')%C).
Proof.
  assert (Hnd : NoDup [2; 0]) by (repeat constructor; cbn; intuition discriminate).
  split; [exact Hnd|]. split; [repeat constructor|]. split; [reflexivity|]. split; [reflexivity|].
  intros A B i j z z' Hi Hj Hz Hz' M. unfold M. change [1] with (rest_of 3 [2; 0]).
  rewrite !joint_rest by assumption. now rewrite !joint_traced.
Qed.
Lemma history_example : exists g, make true (Call1 GH 0 [] []) = Ok g /\
  dops_ok 2 [DBasis 2; DGate true (Call1 GH 0 [] []); DMultiply (2, 0)%R; DSetPair 0 1 Ci; DBasis 4] (fun _ _ => C0) /\
  all_honest 2 [DBasis 2; DGate true (Call1 GH 0 [] []); DMultiply (2, 0)%R; DSetPair 0 1 Ci; DBasis 4] (fun _ _ => C0) /\
  snd (matrix_ops 2 [DBasis 2; DGate true (Call1 GH 0 [] []); DMultiply (2, 0)%R; DSetPair 0 1 Ci; DBasis 4] (fun _ _ => C0) false) = true.
Proof.
  eexists. split; [reflexivity|]. split; [|split].
  - cbn [dops_ok dop_ok]. repeat (split; [exact I|intros A' _]) || idtac.
    split; [split; [exact I|eexists; reflexivity]|]. intros A1 _. repeat (split; [exact I|intros ? _]). exact I.
  - cbn [all_honest honest]. do 3 (split; [exact I|intros ? _]). split; [discriminate|]. intros ? _. split; [exact I|]. intros ? _. exact I.
  - cbn [matrix_ops matrix_op]. reflexivity.
Qed.
Lemma normalize_example : exists w, trace (2 ^ 1) (rho w) <> C0 /\ trace (2 ^ 1) (rho w) <> C1.
Proof.
  exists (DM (fun a => if fst a =? snd a then C1 else C0) true). unfold trace. change (2 ^ 1) with 2. rewrite Csum_2.
  change (rho _ 0 0) with C1. change (rho _ 1 1) with C1. unfold Cadd, C1, C0. cbn [fst snd].
  split; intros H; injection H; intros; lra.
Qed.
Lemma sampling_example : exists w, d_herm w = true /\ (forall x, x < 2 ^ 1 -> (0 <= fst (rho w x x))%R) /\
  (forall i : N, 0 <= (fun _ => 1 / 2)%R i < diag_prob 1 (fun _ => true) (rho w))%R.
Proof.
  exists (DM (fun a => if (fst a =? 1) && (snd a =? 1) then C1 else C0) true). split; [reflexivity|]. split.
  - intros x _. unfold rho. cbn [d_raw fst snd]. destruct (_ && _); cbn; lra.
  - intros i. unfold diag_prob. change (2 ^ 1) with 2. change (filter _ (seqN 2)) with [0; 1]. cbn [Rsuml fold_right].
    change (rho _ 0 0) with C0. change (rho _ 1 1) with C1. unfold C0, C1. cbn [fst]. lra.
Qed.
