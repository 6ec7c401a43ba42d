(** Rounded numbers: what the property theorems need beside the bounds. *)
From Verif Require Export FloatProofs17.
From Verif Require Import StateProofs StateProofs2 FloatProofs7.
From Coq Require Import Permutation Lra ZifyBool ZifyN ZifyNat.
Open Scope R_scope.

Lemma binary_odd prec emin A : binary prec emin A -> odd_rounding A.
Proof. intros [E _] x. rewrite E. apply nearest_odd. Qed.
Lemma binary_rounds prec emin A rounds : (8 <= prec)%Z -> binary prec emin A -> (forall draw i, In draw rounds -> unit_draw (draw i)) -> rounds_ok A rounds.
Proof. intros Hp [E _] H draw i Hd. specialize (H draw i Hd). split; [assumption|]. rewrite E. apply nearest_sign; [lia|apply H]. Qed.

(** Kokkos::Serial *)
Lemma nat_lt_pow2 n : (N.to_nat n < N.to_nat (2 ^ n))%nat.
Proof. pose proof (N.pow_gt_lin_r 2 n ltac:(lia)). lia. Qed.
Lemma in_order_shallow n t : reduction_of (seqN (2 ^ n)) t -> in_order t -> shallow (N.to_nat (2 ^ n)) t.
Proof. intros Ht [k ->]. unfold shallow. cbn [tree_height]. unfold reduction_of in Ht. cbn [leaves] in Ht. apply Permutation_length in Ht. rewrite !length_seqN in *. lia. Qed.
Lemma serial_norm u eta A n w : accurate u eta A -> 3 / 2 * INR (N.to_nat (2 ^ n)) * u <= 1 ->
  returns_about (f_get_squared_norm A in_order n) w (sqnorm n (w_amp w)) (sum_error u eta n (N.to_nat (2 ^ n)) 9 (sqnorm n (w_amp w))).
Proof.
  intros HA Hu. destruct (squared_norm_about u eta A HA n (N.to_nat (2 ^ n)) (conj (nat_lt_pow2 n) Hu) w) as [H _]. split.
  - intros o (t & Ht & Hs & E). apply H. exists t. split; [assumption|]. split; [now apply in_order_shallow|assumption].
  - eexists. exists (RLeaf (seqN (2 ^ n))). split; [apply reduction_exists|]. split; [now exists (2 ^ n)%N|reflexivity].
Qed.

(** F32, 26 qubits *)
Lemma binary_24 : binary 24 (-149) (correctly_rounded 24 (-149)). Proof. apply correctly_rounded_binary; lia. Qed.
Lemma binary_8 : binary 8 (-133) (correctly_rounded 8 (-133)). Proof. apply correctly_rounded_binary; lia. Qed.
Lemma pow_m2 : powerRZ 2 (24 - Z.of_N (2 * 13)) = / 4. Proof. change (24 - Z.of_N (2 * 13))%Z with (-2)%Z. rewrite <- FloatProofs7.bpow_powerRZ. reflexivity. Qed.
Lemma pow_p2 : powerRZ 2 (Z.of_N (2 * 13) - 24) = 4. Proof. change (Z.of_N (2 * 13) - 24)%Z with 2%Z. rewrite <- FloatProofs7.bpow_powerRZ. reflexivity. Qed.
Lemma norm_refuted : exists A w, binary 24 (-149) A /\ sqnorm 26 (w_amp w) = 1 /\ returns (f_get_squared_norm A in_order 26) w (/ 4).
Proof.
  exists (correctly_rounded 24 (-149)), (World (uniform 13) None [] (fun _ => 0)). refine (conj binary_24 (conj (uniform_norm 13) _)).
  rewrite <- pow_m2. apply (stall_norm 24 (-149) _ 13); try reflexivity; cbn; lia.
Qed.
Lemma normalize_refuted : exists A w, binary 24 (-149) A /\ sqnorm 26 (w_amp w) = 1 /\ runs (f_normalize A in_order 26) w (done (fun _ w' => sqnorm 26 (w_amp w') = 4)).
Proof.
  exists (correctly_rounded 24 (-149)), (World (uniform 13) None [] (fun _ => 0)). refine (conj binary_24 (conj (uniform_norm 13) _)).
  rewrite <- pow_p2. apply (stall_normalize 24 (-149) _ 13) with (k := 12%Z); try reflexivity; cbn; lia.
Qed.
Lemma sampling_refuted : exists A psi, binary 24 (-149) A /\ sqnorm 26 psi = 1 /\ (forall x, psi x = uniform 13 x) /\
  forall count rounds l, (forall draw i, In draw rounds -> unit_draw (draw i)) -> f_sampling A 26 [seqN (2 ^ 26)] psi count rounds = Some l -> forall x, In x l -> (x < 2 ^ 24)%N.
Proof.
  exists (correctly_rounded 24 (-149)), (uniform 13). refine (conj binary_24 (conj (uniform_norm 13) (conj (fun _ => eq_refl) _))).
  intros count rounds l Hr E x Hx. assert (K : (Z.of_N x < 2 ^ 24)%Z); [|apply N2Z.inj_lt; exact K].
  apply (stall_sampling 24 (-149) (correctly_rounded 24 (-149)) 13 eq_refl) with (count := count) (rounds := rounds) (l := l); try assumption; [lia|cbn; lia|].
  apply (binary_rounds 24 (-149)); [lia|apply binary_24|exact Hr].
Qed.
Lemma zero_refuted : exists A, binary 8 (-133) A /\ sqnorm 3 bad_state = 1 /\ bad_state 3%N = C0 /\ chunks_ok (2 ^ 3) 5 bad_chunks /\
  f_sampling A 3 bad_chunks bad_state 1 [fun _ => / 4] = Some [3%N].
Proof.
  exists (correctly_rounded 8 (-133)). refine (conj binary_8 (conj bad_norm (conj eq_refl (conj _ _)))); [split; [reflexivity|]; repeat constructor; cbn; lia|].
  apply bad_sampling. reflexivity.
Qed.

(** examples *)
Lemma unit_24 : unit_of 24 = / 16777216. Proof. unfold unit_of. rewrite <- FloatProofs7.bpow_powerRZ. reflexivity. Qed.
Lemma tiny_149 : 0 <= tiny_of (-149) <= / 2 ^ 100.
Proof.
  rewrite tiny_bpow. pose proof (Core.Raux.bpow_gt_0 Core.Zaux.radix2 (-149)) as H1. split; [lra|].
  assert (H2 : Core.Raux.bpow Core.Zaux.radix2 (-149) <= Core.Raux.bpow Core.Zaux.radix2 (-100)) by (apply Core.Raux.bpow_le; lia).
  replace (/ 2 ^ 100) with (Core.Raux.bpow Core.Zaux.radix2 (-100)); [lra|].
  change (/ IZR (Z.pow_pos 2 100) = / 2 ^ 100). f_equal. rewrite pow_IZR. reflexivity.
Qed.
Lemma height_example : height_ok (unit_of 24) 30 31.
Proof. split; [cbn; lia|]. rewrite unit_24. change (INR 31) with (INR 31). rewrite INR_IZR_INZ. cbn [Z.of_nat Pos.of_succ_nat Pos.succ]. lra. Qed.
Lemma normalize_example : sum_error (unit_of 24) (tiny_of (-149)) 30 31 9 1 <= 1 / 4.
Proof.
  unfold sum_error. rewrite unit_24, INR_IZR_INZ. cbn [Z.of_nat Pos.of_succ_nat Pos.succ]. pose proof tiny_149 as T. change (N.to_nat 30) with 30%nat.
  assert (E : / 2 ^ 100 * 2 ^ 30 <= / 1000). { assert (H : / 2 ^ 100 * 2 ^ 30 = / 2 ^ 70) by (replace 100%nat with (70 + 30)%nat by reflexivity; rewrite pow_add; field; split; apply pow_nonzero; lra).
    rewrite H. apply Rinv_le_contravar; [lra|]. replace 70%nat with (10 + 60)%nat by reflexivity. rewrite pow_add. assert (1 <= 2 ^ 60) by (apply pow_R1_Rle; lra). assert (2 ^ 10 = 1024) by lra. nra. }
  assert (tiny_of (-149) * 2 ^ 30 <= / 2 ^ 100 * 2 ^ 30) by (apply Rmult_le_compat_r; [apply pow_le; lra|apply T]). lra.
Qed.
Lemma chunks_example : chunks_ok (2 ^ 3) 5 bad_chunks /\ 3 / 2 * INR (length bad_chunks + 2 * 5) * unit_of 8 <= 1.
Proof.
  split; [split; [reflexivity|]; repeat constructor; cbn; lia|]. unfold unit_of. rewrite <- FloatProofs7.bpow_powerRZ. replace (Core.Raux.bpow Core.Zaux.radix2 8) with 256 by (cbn; lra).
  rewrite INR_IZR_INZ. cbn [length bad_chunks Nat.add Nat.mul Z.of_nat Pos.of_succ_nat Pos.succ]. lra.
Qed.
Lemma numbers_example : accurate (unit_of 24) (tiny_of (-149)) (correctly_rounded 24 (-149)) /\ odd_rounding (correctly_rounded 24 (-149)).
Proof. split; [apply binary_accurate; [lia|lia|apply binary_24]|apply (binary_odd 24 (-149)), binary_24]. Qed.
Lemma rounds_example draw : (forall i, unit_draw (draw i)) -> rounds_ok (correctly_rounded 24 (-149)) [draw].
Proof. intros H. apply (binary_rounds 24 (-149)); [lia|apply binary_24|]. intros d i [<-|[]]. apply H. Qed.
