(** The claims about rounding (C62). *)
From Flocq Require Core.
From Verif Require Export FloatProofs7.
From Verif Require Import FloatProofs6.
From Coq Require Import Lra Lia.
Open Scope R_scope.

Lemma gate_rounded u eta A vf k g n B L psi : accurate u eta A -> call_typed k -> make vf k = Ok g -> rounded_call u A k ->
  Forall (fun q => (q < n)%N) (call_operands k) -> sizes_ok n B L ->
  (exists phi, f_updating A n B L g psi phi) /\
  forall r b, f_result A n B L g psi r -> (b < B)%N ->
  distance n (batch n b r) (apply_mat (call_targets k) (call_controls k) (call_matrix k) (batch n b psi)) <= weight k * unit_error u eta n (vnorm n (batch n b psi)).
Proof.
  intros HA Hty Hm Hr HF Hs. destruct (call_close u eta A vf k g n B L psi HA Hty Hm Hr HF Hs) as (phi & Hphi & Hd).
  split; [exists phi; exact Hphi|]. intros r b Hres Hb. rewrite (distance_ext n (batch n b r) (batch n b phi) _ _ ltac:(intros x Hx; unfold batch; eapply f_result_updating; [exact Hphi|exact Hres|nia]) (fun x Hx => eq_refl)). now apply Hd.
Qed.
Lemma gate_reproducible u eta A vf k g n B L psi r r' : accurate u eta A -> call_typed k -> make vf k = Ok g -> rounded_call u A k ->
  Forall (fun q => (q < n)%N) (call_operands k) -> sizes_ok n B L ->
  f_result A n B L g psi r -> f_result A n B L g psi r' -> forall a, (a < B * 2 ^ n)%N -> r a = r' a.
Proof.
  intros HA Hty Hm Hr HF Hs H1 H2 a Ha. destruct (call_close u eta A vf k g n B L psi HA Hty Hm Hr HF Hs) as (phi & Hphi & _).
  now rewrite (f_result_updating _ _ _ _ _ _ _ _ Hphi H1 a Ha), (f_result_updating _ _ _ _ _ _ _ _ Hphi H2 a Ha).
Qed.
Lemma moves_same A vf k g n D L : make vf k = Ok g -> moves_only k -> f_update_plan A n D L g = update_plan n D L g.
Proof.
  intros H Hk. destruct k; cbn [make moves_only] in *; try contradiction.
  - injection H as <-. reflexivity.
  - destruct k; try contradiction. inv_bind H. apply create_ok in H; destruct H as (? & ? & ? & _ & _ & _ & _ & ->). reflexivity.
  - apply create_ok in H; destruct H as (? & ? & ? & _ & _ & _ & _ & ->). reflexivity.
  - apply create_ok in H; destruct H as (? & ? & ? & _ & _ & _ & _ & ->). reflexivity.
  - inv_bind H. apply create_ok in H; destruct H as (? & ? & ? & _ & _ & _ & _ & ->). reflexivity.
  - destruct (64 <=? _)%N; [discriminate|]. inv_bind H. destruct (negb _); [discriminate|]. unfold make_permutation_impl in H.
    inv_bind H. destruct (64 <=? _)%N; [discriminate|]. destruct (negb _); [discriminate|]. inv_bind H. injection H as <-. reflexivity.
Qed.
Lemma moves_exact A vf k g n B L psi : call_typed k -> make vf k = Ok g -> moves_only k ->
  Forall (fun q => (q < n)%N) (call_operands k) -> sizes_ok n B L ->
  f_updating A n B L g psi (apply_mat (call_targets k) (call_controls k) (call_matrix k) psi).
Proof.
  intros Hty Hm Hk HF (Hn & HB & HL). destruct (call_correct vf k g n B L psi Hty Hm HF Hn HB HL) as (p & Hp & Hu).
  exists p. split; [|exact Hu]. rewrite (moves_same A vf k g n _ L Hm Hk). exact Hp.
Qed.

Lemma distance_self n a : distance n a a = 0.
Proof. unfold distance. rewrite (vnorm_ext n _ (fun _ => C0)) by (intros; ring). apply vnorm_zero. Qed.
Lemma exact_ext ks : forall a b, (forall x, a x = b x) -> forall x, exact_after ks a x = exact_after ks b x.
Proof. induction ks as [|k ks IH]; intros a b H x; [apply H|]. cbn. apply IH. intros y. now apply apply_mat_ext. Qed.
Lemma circuit_rounded u eta A n B L ks gs psi : accurate u eta A -> sizes_ok n B L -> Forall2 (call_ok u A n) ks gs ->
  total_weight ks * u <= 1 ->
  (exists rho, f_run A n B L gs psi rho) /\
  forall rho b, f_run A n B L gs psi rho -> (b < B)%N ->
  distance n (batch n b rho) (exact_after ks (batch n b psi)) <= 3 * total_weight ks * unit_error u eta n (vnorm n (batch n b psi)).
Proof.
  intros HA Hs HF Hm. split; [exact (runs_exist u eta A n B L HA Hs ks gs HF psi)|]. intros rho b Hrun Hb.
  pose proof (run_close_gen u eta A n B L HA Hs ks gs HF psi rho Hrun b (batch n b psi) Hb) as H. rewrite distance_self, Rplus_0_l in H.
  eapply Rle_trans; [exact H|]. rewrite Rmult_assoc. apply Rmult_le_compat_r.
  - apply Rmult_le_pos; [apply total_nonneg|]. pose proof (u_range u eta A HA). pose proof (eta_range u eta A HA). apply unit_error_nonneg; [lra|lra|apply vnorm_nonneg].
  - pose proof (u_range u eta A HA). apply spoil_3; [lra|exact Hm].
Qed.
Lemma exact_norm u A n : (n < 64)%N -> forall ks gs, Forall2 (call_ok u A n) ks gs -> forall e, vnorm n (exact_after ks e) = vnorm n e.
Proof.
  intros Hn ks gs HF. induction HF as [|k g ks gs Hk HF IH]; intros e; [reflexivity|]. cbn. unfold exact_after in IH. rewrite IH. exact (act_keeps u A n k g e Hn Hk).
Qed.
Lemma circuit_norm u eta A n B L ks gs psi rho b : accurate u eta A -> sizes_ok n B L -> Forall2 (call_ok u A n) ks gs ->
  total_weight ks * u <= 1 -> f_run A n B L gs psi rho -> (b < B)%N ->
  Rabs (vnorm n (batch n b rho) - vnorm n (batch n b psi)) <= 3 * total_weight ks * unit_error u eta n (vnorm n (batch n b psi)).
Proof.
  intros HA Hs HF Hm Hrun Hb. destruct (circuit_rounded u eta A n B L ks gs psi HA Hs HF Hm) as [_ H]. specialize (H rho b Hrun Hb).
  pose proof Hs as (Hn & _). pose proof (exact_norm u A n Hn ks gs HF (batch n b psi)) as E.
  pose proof (vnorm_distance n (batch n b rho) (exact_after ks (batch n b psi))) as H1.
  pose proof (vnorm_distance n (exact_after ks (batch n b psi)) (batch n b rho)) as H2.
  assert (E2 : distance n (exact_after ks (batch n b psi)) (batch n b rho) = distance n (batch n b rho) (exact_after ks (batch n b psi))).
  { unfold distance. rewrite (vnorm_ext n (fun x => exact_after ks (batch n b psi) x - batch n b rho x)%C (fun x => RtoC (-1) * (batch n b rho x - exact_after ks (batch n b psi) x))%C) by (intros; c_eq; ring).
    rewrite vnorm_real. rewrite Rabs_left by lra. ring. }
  apply Rabs_le. lra.
Qed.

(** * Double precision *)
Lemma unit_53 : unit_of 53 = / 9007199254740992.
Proof. unfold unit_of. rewrite <- bpow_powerRZ. reflexivity. Qed.
Lemma tiny_1074 : 0 <= tiny_of (-1074) <= / 2 ^ 100.
Proof.
  rewrite tiny_bpow. pose proof (Core.Raux.bpow_gt_0 Core.Zaux.radix2 (-1074)) as H1. split; [lra|].
  assert (H2 : Core.Raux.bpow Core.Zaux.radix2 (-1074) <= Core.Raux.bpow Core.Zaux.radix2 (-100)) by (apply Core.Raux.bpow_le; lia).
  replace (/ 2 ^ 100) with (Core.Raux.bpow Core.Zaux.radix2 (-100)); [lra|].
  change (/ IZR (Z.pow_pos 2 100) = / 2 ^ 100). f_equal. rewrite pow_IZR. reflexivity.
Qed.
Lemma root_bound n : (n < 64)%N -> sqrt (2 ^ N.to_nat n) <= 2 ^ 32.
Proof.
  intros Hn. rewrite <- (sqrt_square (2 ^ 32)) by (apply pow_le; lra). apply sqrt_le_1_alt. rewrite <- pow_add. apply Rle_pow; [lra|lia].
Qed.
Lemma ten15 : 10 ^ 15 = 1000000000000000. Proof. rewrite pow_IZR. apply f_equal. reflexivity. Qed.
Lemma two68 : 2 ^ 68 = 295147905179352825856. Proof. rewrite pow_IZR. apply f_equal. reflexivity. Qed.
Lemma double_unit n : (n < 64)%N -> unit_error (unit_of 53) (tiny_of (-1074)) n 1 <= / (9 * 10 ^ 15).
Proof.
  intros Hn. unfold unit_error. rewrite unit_53. pose proof tiny_1074 as Ht. pose proof (root_bound n Hn) as Hr. pose proof (sqrt_pos (2 ^ N.to_nat n)) as H0.
  assert (tiny_of (-1074) * sqrt (2 ^ N.to_nat n) <= / 2 ^ 100 * 2 ^ 32) by (apply Rmult_le_compat; lra).
  assert (E : / 2 ^ 100 * 2 ^ 32 = / 2 ^ 68). { replace (2 ^ 100) with (2 ^ 68 * 2 ^ 32) by (rewrite <- pow_add; reflexivity). field. }
  rewrite E in *. rewrite two68 in *. rewrite ten15. lra.
Qed.
Lemma double_rounded A n B L ks gs psi : binary 53 (-1074) A -> sizes_ok n B L -> Forall2 (call_ok (unit_of 53) A n) ks gs -> total_weight ks <= 3 * 10 ^ 15 ->
  (exists rho, f_run A n B L gs psi rho) /\
  forall rho b, f_run A n B L gs psi rho -> (b < B)%N -> vnorm n (batch n b psi) = 1 ->
  distance n (batch n b rho) (exact_after ks (batch n b psi)) <= total_weight ks / (3 * 10 ^ 15).
Proof.
  intros HA Hs HF Hm. apply binary_accurate in HA; [|lia|lia]. pose proof Hs as (Hn & _).
  assert (Hm' : total_weight ks * unit_of 53 <= 1).
  { rewrite unit_53. rewrite ten15 in Hm. lra. }
  destruct (circuit_rounded _ _ A n B L ks gs psi HA Hs HF Hm') as [H1 H2]. split; [exact H1|]. intros rho b Hrun Hb Hone.
  specialize (H2 rho b Hrun Hb). rewrite Hone in H2. eapply Rle_trans; [exact H2|].
  rewrite (Rmult_comm 3), Rmult_assoc. unfold Rdiv. apply Rmult_le_compat_l; [apply total_nonneg|].
  pose proof (double_unit n Hn) as HU. eapply Rle_trans; [apply Rmult_le_compat_l; [lra|exact HU]|]. apply Req_le. field.
Qed.

(** * Examples *)
Lemma accurate_example : accurate (unit_of 53) (tiny_of (-1074)) (correctly_rounded 53 (-1074)) /\ accurate (unit_of 8) (tiny_of (-133)) (correctly_rounded 8 (-133)).
Proof. split; (apply binary_accurate; [lia|lia|apply correctly_rounded_binary; lia]). Qed.
Lemma one_in : nearest 53 (-1074) 1 = 1.
Proof.
  unfold nearest. apply Core.Generic_fmt.round_generic; [apply Core.Generic_fmt.valid_rnd_N|].
  apply Core.FLT.generic_format_FLT. apply (Core.FLT.FLT_spec _ _ _ _ (Core.Defs.Float Core.Zaux.radix2 1 0)); cbn; [unfold Core.Defs.F2R; cbn; ring|lia|lia].
Qed.
Definition flip8 : matrix := fun i j => if (i =? 7 - j)%N then Ci else C0.
Definition example_calls : list call :=
  [Call1 GH 0 [] []; CallCX 0 1; Call1 (GRX 1) 1 [0%N] []; CallEcr 1 0 [] [];
   CallDense [1%N; 0%N] (DMat 4 4 (fun i j => if (i =? 3 - j)%N then Ci else C0)) [] [] true;
   CallPauli (Pauli C1 3 6) [] []; CallPauliRotation (Pauli C1 1 4) 1 [1%N] [];
   CallDense [2%N; 0%N; 1%N] (DMat 8 8 flip8) [] [] true; CallSparse [2%N] (Csr 2 [0%N; 1%N; 2%N] [1%N; 0%N] [Ci; C1]) [0%N] [0%N]].
Lemma antidiagonal_unitary : unitary 4 (fun i j => if (i =? 3 - j)%N then Ci else C0).
Proof.
  assert (K : forall i, (i < 4)%N -> i = 0%N \/ i = 1%N \/ i = 2%N \/ i = 3%N) by (intros; lia).
  split; intros i j Hi Hj; destruct (K i Hi) as [->|[->|[->| ->]]], (K j Hj) as [->|[->|[->| ->]]];
    (cbv [mat_mul mat_adj mat_id Csum seqN map N.to_nat Pos.to_nat Pos.iter_op seq]; cbn; c_eq; ring).
Qed.
Lemma flip8_unitary : unitary 8 flip8.
Proof.
  assert (Z : forall i j, (i < 8)%N -> (j < 8)%N -> j <> (7 - i)%N -> flip8 i j = C0).
  { intros i j Hi Hj Hne. unfold flip8. destruct (N.eqb_spec i (7 - j)); [lia|reflexivity]. }
  assert (O : forall i, (i < 8)%N -> flip8 i (7 - i)%N = Ci /\ flip8 (7 - i)%N i = Ci).
  { intros i Hi. unfold flip8. rewrite !(proj2 (N.eqb_eq _ _)) by lia. auto. }
  split; intros i j Hi Hj; unfold mat_mul, mat_adj, mat_id; (rewrite (Csum_single _ _ (7 - i)%N);
    [|lia|intros k Hk Hne]).
  - rewrite (proj2 (O i Hi)). destruct (N.eqb_spec i j) as [<-|Hne]; [rewrite (proj2 (O i Hi)); c_eq; ring|].
    rewrite (Z (7 - i)%N j) by lia. ring.
  - rewrite (Z k i) by lia. c_eq; ring.
  - rewrite (proj1 (O i Hi)). destruct (N.eqb_spec i j) as [<-|Hne]; [rewrite (proj1 (O i Hi)); c_eq; ring|].
    rewrite (Z j (7 - i)%N) by lia. c_eq; ring.
  - rewrite (Z i k) by lia. ring.
Qed.
Lemma circuit_example : exists gs, Forall2 (call_ok (unit_of 53) (correctly_rounded 53 (-1074)) 3) example_calls gs /\ sizes_ok 3 3 4 /\ total_weight example_calls <= 10000.
Proof.
  eexists. split; [|split].
  - unfold example_calls. repeat (apply Forall2_cons || apply Forall2_nil).
    + split; [exact I|split; [exists true; vm_compute; reflexivity|]]. repeat split; repeat constructor.
    + split; [exact I|split; [exists true; vm_compute; reflexivity|]]. repeat split; repeat constructor.
    + split; [exact I|split; [exists true; vm_compute; reflexivity|]]. split; [exact I|]. split; [apply one_in|]. repeat constructor.
    + split; [exact I|split; [exists true; vm_compute; reflexivity|]]. repeat split; repeat constructor.
    + split; [exact I|split; [exists true; vm_compute; reflexivity|]]. split; [exact antidiagonal_unitary|]. split; [|repeat constructor].
      split; [left; cbn; lia|]. intros i j _ _. cbn [m_at]. destruct (i =? 3 - j)%N; unfold Cnorm2; cbn; lra.
    + split; [split; reflexivity|split; [exists true; vm_compute; reflexivity|]]. split; [cbn; c_eq; ring|]. split; [|repeat constructor].
      unfold rounded_call, Cnorm2; cbn; lra.
    + split; [split; reflexivity|split; [exists true; vm_compute; reflexivity|]]. split; [reflexivity|]. split; [|repeat constructor].
      split; [apply one_in|]. split; [apply one_in|reflexivity].
    + split; [exact I|split; [exists true; vm_compute; reflexivity|]]. split; [exact flip8_unitary|]. split; [|repeat constructor].
      split; [right; cbn [length]; rewrite unit_53; lra|]. intros i j _ _. cbn [m_at]. unfold flip8. destruct (i =? 7 - j)%N; unfold Cnorm2; cbn; lra.
    + assert (K : forall i, (i < 2)%N -> i = 0%N \/ i = 1%N) by (intros; lia).
      split; [|split; [exists true; vm_compute; reflexivity|]].
      { split; [|reflexivity]. intros r Hr. cbn [csr_rows] in Hr. destruct (K r Hr) as [-> | ->]; cbn; (split; [repeat constructor; intros []|repeat constructor]). }
      split; [|split; [|repeat constructor]].
      { cbn. split; intros i j Hi Hj; destruct (K i Hi) as [-> | ->], (K j Hj) as [-> | ->];
          (cbv [mat_mul mat_adj mat_id Csum seqN map N.to_nat Pos.to_nat Pos.iter_op seq csr_sum csr_entries Csuml]; cbn; c_eq; ring). }
      split; [cbn [length]; rewrite unit_53; lra|]. intros i j Hi Hj. cbn [csr_rows] in Hi, Hj. destruct (K i Hi) as [-> | ->], (K j Hj) as [-> | ->];
        (match goal with |- Cnorm2 ?x <= 1 => let p := (cbv [csr_sum csr_entries Csuml]; cbn; c_eq; cbn; ring) in first [replace x with C0 by p|replace x with C1 by p|replace x with Ci by p] end; unfold Cnorm2; cbn; lra).
  - split; [lia|]. split; [vm_compute; discriminate|]. right. exists 2%N. split; [lia|reflexivity].
  - unfold total_weight, example_calls, Rsuml. cbn. rewrite Rmult_1_r, Rabs_R1. lra.
Qed.
Lemma double_example : binary 53 (-1074) (correctly_rounded 53 (-1074)).
Proof. apply correctly_rounded_binary; lia. Qed.
