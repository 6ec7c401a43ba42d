(** Rounded expectation values. *)
From Verif Require Export FloatProofs14.
From Verif Require Import StateProofs GroundProofs4 GroundProofs9 FloatProofs10 RotationProofs OperatorProofs.
From Coq Require Import Permutation Lra ZifyBool ZifyN ZifyNat.
Open Scope R_scope.

Lemma RtoC_inj a b : RtoC a = RtoC b -> a = b. Proof. intros H. now apply (f_equal fst) in H. Qed.
Lemma Rsuml_Csum (f : N -> R) k : RtoC (Rsuml f (seqN k)) = Csum k (fun i => RtoC (f i)).
Proof. apply RtoC_Rsuml. Qed.
Lemma pair_sum_R n bf (f : N -> R) : (n <= 63)%N -> bf <> 0%N -> (bf < 2 ^ n)%N ->
  Rsuml f (seqN (2 ^ n)) = Rsuml (fun i => let b0 := insert_zero_to_basis_index i (bit_width bf - 1) in f b0 + f (N.lxor b0 bf)) (seqN (N.shiftr (2 ^ n) 1)).
Proof.
  intros Hn H0 Hlt. apply RtoC_inj. rewrite !Rsuml_Csum, (pair_sum n bf) by assumption. apply Csum_ext. intros i _. cbv zeta. now rewrite RtoC_add.
Qed.
Lemma even_sum_R n (f : N -> R) : (0 < n)%N -> (n <= 63)%N ->
  Rsuml f (seqN (2 ^ n)) = Rsuml (fun i => f (shl64 i 1) + f (N.lor (shl64 i 1) 1)) (seqN (N.shiftr (2 ^ n) 1)).
Proof.
  intros H0 Hn. apply RtoC_inj. rewrite !Rsuml_Csum, (even_sum n) by assumption. apply Csum_ext. intros i _. now rewrite RtoC_add.
Qed.
Lemma half_le n : (N.shiftr (2 ^ n) 1 <= 2 ^ n)%N.
Proof. rewrite N.shiftr_div_pow2. apply N.div_le_upper_bound; [cbn; lia|]. cbn. lia. Qed.
Lemma half_R n : (0 < n)%N -> 2 * INR (N.to_nat (N.shiftr (2 ^ n) 1)) = 2 ^ N.to_nat n.
Proof.
  intros H. rewrite two_pow. replace (2 ^ n)%N with (2 * N.shiftr (2 ^ n) 1)%N at 2.
  - rewrite N2Nat.inj_mul, mult_INR. reflexivity.
  - rewrite N.shiftr_div_pow2. change (2 ^ 1)%N with 2%N. replace n with (1 + (n - 1))%N by lia. rewrite N.pow_add_r. change (2 ^ 1)%N with 2%N.
    rewrite (N.mul_comm 2 (2 ^ _)), N.div_mul; lia.
Qed.
Lemma flipR_near x a b e : Rabs (a - b) <= e -> Rabs (flipR x a - flipR x b) <= e.
Proof. intros H. unfold flipR. destruct (parity x); [|assumption]. replace (- a - - b) with (- (a - b)) by ring. now rewrite Rabs_Ropp. Qed.
Lemma flipR_abs x a : Rabs (flipR x a) = Rabs a.
Proof. unfold flipR. destruct (parity x); [apply Rabs_Ropp|reflexivity]. Qed.
Lemma Re_norm v : Re (Cconj v * v)%C = Cnorm2 v. Proof. unfold Re, Cnorm2. cbn. ring. Qed.
Lemma phase90_mod bf pf : Cmod (phase90 bf pf) = 1.
Proof.
  unfold phase90. destruct (mod4_cases (popcount (N.land bf pf))) as [E|[E|[E|E]]]; rewrite E; unfold Cmod, Cnorm2, PHASE_90ROT; cbn; apply sqrt_lem_1; lra.
Qed.
Lemma Re_pair_abs v0 v1 ph : Cmod ph = 1 -> Rabs (Re (Cscale 2 (v0 * Cconj v1 * ph)%C)) <= 2 * (Cmod v0 * Cmod v1).
Proof.
  intros H. replace (Re (Cscale 2 (v0 * Cconj v1 * ph)%C)) with (2 * fst (v0 * Cconj v1 * ph)%C) by reflexivity. rewrite Rabs_mult, (Rabs_right 2) by lra.
  apply Rmult_le_compat_l; [lra|]. eapply Rle_trans; [apply Cmod_fst|]. rewrite !Cmod_mul, H, Cmod_conj. lra.
Qed.
Lemma two_mods v0 v1 : 2 * (Cmod v0 * Cmod v1) <= Cnorm2 v0 + Cnorm2 v1.
Proof. rewrite <- !Cmod_sq. pose proof (Rle_0_sqr (Cmod v0 - Cmod v1)) as H. unfold Rsqr in H. lra. Qed.
Lemma Rsuml_affine {T} a b (f : T -> R) l : Rsuml (fun i => a * f i + b) l = a * Rsuml f l + b * INR (length l).
Proof. induction l as [|x l IH]; [cbn; ring|]. cbn [length]. rewrite S_INR. unfold Rsuml in *. cbn [fold_right]. rewrite IH. ring. Qed.

Section Expect.
  Variables (u eta : R) (A : arith).
  Hypothesis HA : accurate u eta A.
  Let Hu := u_range u eta A HA.
  Let He := eta_range u eta A HA.
  Variable n : N.
  Hypothesis Hn : (n <= 63)%N.

  Lemma diag_err place v : Rabs (f_diag A place v - Cnorm2 v) <= 3 * u * Cnorm2 v + 4 * eta.
  Proof.
    unfold f_diag, f_mul. cbn [fst snd Cconj].
    replace (Cnorm2 v) with (Rminus (fst v * fst v) (- snd v * snd v)) at 1 by (unfold Cnorm2; ring).
    eapply Rle_trans; [apply (two_products_err u eta A HA Rminus); [apply minus_lip|apply minus_abs]|].
    right. unfold Cnorm2. rewrite Rabs_Ropp. rewrite <- !Rabs_mult. rewrite !Rabs_right by nra. ring.
  Qed.
  Lemma pair_err place v0 v1 ph : Cmod ph = 1 ->
    Rabs (f_pair A place v0 v1 ph - Re (Cscale 2 (v0 * Cconj v1 * ph)%C)) <= 24 * u * (Cmod v0 * Cmod v1) + 32 * eta.
  Proof.
    intros Hph. unfold f_pair, f_times. cbn [fst]. set (z1 := f_mul A place v0 (Cconj v1)). set (z2 := f_mul A (place + 1) z1 ph).
    set (P := Cmod v0 * Cmod v1). assert (HP : 0 <= P) by (apply Rmult_le_pos; apply Cmod_nonneg).
    assert (E1 : Cmod (z1 - v0 * Cconj v1)%C <= 5 * u * P + 6 * eta).
    { eapply Rle_trans; [apply (f_mul_err u eta A HA)|]. rewrite Cmod_conj. apply Rle_refl. }
    pose proof (Cmod_near _ _ _ E1) as N1. rewrite Cmod_mul, Cmod_conj in N1. fold P in N1.
    assert (E2 : Cmod (z2 - v0 * Cconj v1 * ph)%C <= 41 / 4 * u * P + 25 / 2 * eta).
    { eapply Rle_trans; [apply (Cmod_tri3 _ (z1 * ph)%C)|]. replace (z1 * ph - v0 * Cconj v1 * ph)%C with ((z1 - v0 * Cconj v1) * ph)%C by ring.
      rewrite Cmod_mul, Hph, Rmult_1_r. pose proof (f_mul_err u eta A HA (place + 1) z1 ph) as F. rewrite Hph, Rmult_1_r in F. fold z2 in F.
      assert (u * Cmod z1 <= u * (P + (5 * u * P + 6 * eta))) by (apply Rmult_le_compat_l; lra).
      assert (0 <= u * P) by (apply Rmult_le_pos; lra). assert (u * (u * P) <= / 256 * (u * P)) by (apply Rmult_le_compat_r; lra).
      assert (u * eta <= / 256 * eta) by (apply Rmult_le_compat_r; lra). lra. }
    assert (E3 : Rabs (fst z2 * 2 - Re (Cscale 2 (v0 * Cconj v1 * ph)%C)) <= 41 / 2 * u * P + 25 * eta).
    { replace (fst z2 * 2 - Re (Cscale 2 (v0 * Cconj v1 * ph)%C)) with (2 * fst (z2 - v0 * Cconj v1 * ph)%C) by (unfold Re; cbn; ring).
      rewrite Rabs_mult, (Rabs_right 2) by lra. pose proof (Cmod_fst (z2 - v0 * Cconj v1 * ph)%C). lra. }
    pose proof (rnd_err u eta A HA _ _ _ E3) as E4. pose proof (Re_pair_abs v0 v1 ph Hph) as E5. fold P in E5.
    eapply Rle_trans; [exact E4|]. set (Y := Rabs (Re _)) in *.
    assert (0 <= u * P) by (apply Rmult_le_pos; lra). assert (u * (u * P) <= / 256 * (u * P)) by (apply Rmult_le_compat_r; lra).
    assert (u * eta <= / 256 * eta) by (apply Rmult_le_compat_r; lra). assert (u * Y <= u * (2 * P)) by (apply Rmult_le_compat_l; lra). lra.
  Qed.
  Lemma times_err c r r' e : Rabs (r - r') <= e -> Cmod (f_times A c r - c * RtoC r')%C <= Cmod c * (e + 3 / 2 * u * (Rabs r' + e)) + 3 / 2 * eta.
  Proof.
    intros H. assert (Hr : Rabs r <= Rabs r' + e). { replace r with (r' + (r - r')) by ring. pose proof (Rabs_triang r' (r - r')). lra. }
    pose proof (Cmod_nonneg c) as Hc. eapply Rle_trans; [apply (Cmod_tri3 _ (c * RtoC r)%C)|].
    replace (c * RtoC r - c * RtoC r')%C with (c * RtoC (r - r'))%C by (unfold RtoC; c_eq; cbn; ring). rewrite Cmod_mul, Cmod_real.
    assert (H1 : Cmod (f_times A c r - c * RtoC r)%C <= 3 / 2 * (u * (Cmod c * Rabs r) + eta)).
    { assert (0 <= u * (Cmod c * Rabs r)) by (apply Rmult_le_pos; [lra|apply Rmult_le_pos; [lra|apply Rabs_pos]]).
      apply Cmod_box; [lra| |]; unfold f_times; cbn.
      - replace (fst c * r - snd c * 0) with (fst c * r) by ring.
        eapply Rle_trans; [apply (acc_rnd _ _ _ HA)|]. rewrite Rabs_mult. pose proof (Cmod_fst c).
        assert (Rabs (fst c) * Rabs r <= Cmod c * Rabs r) by (apply Rmult_le_compat_r; [apply Rabs_pos|assumption]).
        assert (u * (Rabs (fst c) * Rabs r) <= u * (Cmod c * Rabs r)) by (apply Rmult_le_compat_l; lra). lra.
      - replace (fst c * 0 + snd c * r) with (snd c * r) by ring.
        eapply Rle_trans; [apply (acc_rnd _ _ _ HA)|]. rewrite Rabs_mult. pose proof (Cmod_snd c).
        assert (Rabs (snd c) * Rabs r <= Cmod c * Rabs r) by (apply Rmult_le_compat_r; [apply Rabs_pos|assumption]).
        assert (u * (Rabs (snd c) * Rabs r) <= u * (Cmod c * Rabs r)) by (apply Rmult_le_compat_l; lra). lra. }
    assert (Cmod c * Rabs (r - r') <= Cmod c * e) by (apply Rmult_le_compat_l; lra).
    assert (u * (Cmod c * Rabs r) <= u * (Cmod c * (Rabs r' + e))) by (apply Rmult_le_compat_l; [lra|apply Rmult_le_compat_l; lra]). lra.
  Qed.
  Lemma diag_number place v : a_rnd A (f_diag A place v) = f_diag A place v.
  Proof. unfold f_diag, f_mul. cbn [fst]. unfold two_products. destruct (a_fuse A _ _ _ _ _); apply (acc_idem _ _ _ HA). Qed.
  Lemma flip_number x r : odd_rounding A -> a_rnd A r = r -> a_rnd A (flipR x r) = flipR x r.
  Proof. intros Ho H. unfold flipR. destruct (parity x); [|assumption]. now rewrite Ho, H. Qed.

  (** one Pauli operator *)
  Lemma pauli_expectation_about p psi t h : odd_rounding A -> pauli_fits n p -> reduction_of (expect_iters p (2 ^ n)) t -> (tree_height t <= h)%nat -> 3 / 2 * INR h * u <= 1 ->
    exists v, f_pauli_expectation A (2 ^ n) p psi t = Some v /\
      Cmod (v - inner n psi (pauli_act p psi))%C <= expect_error u eta n h (Cmod (p_coef p)) 1 (sqnorm n psi).
  Proof.
    intros Ho Hfit Ht Hh Hb. pose proof (pauli_expectation_correct p n Hn Hfit psi (RLeaf (expect_iters p (2 ^ n))) (reduction_exists _)) as HE.
    set (S := sqnorm n psi). assert (HS : 0 <= S) by apply sqnorm_nonneg.
    assert (K : exists x y s, (forall i, a_rnd A (x i) = x i) /\
      (forall i, In i (expect_iters p (2 ^ n)) -> rrun (fun a => a <? 2 ^ n)%N psi (if (p_bf p =? 0)%N then expect_diag p i else expect_pair p i) = Some (y i)) /\
      (forall i, In i (expect_iters p (2 ^ n)) -> rrun (fun a => a <? 2 ^ n)%N psi (if (p_bf p =? 0)%N then f_expect_diag A p i else f_expect_pair A p i) = Some (x i) /\
         Rabs (x i - y i) <= 12 * u * s i + 32 * eta) /\
      (forall i, Rabs (y i) <= s i) /\ Rsuml s (expect_iters p (2 ^ n)) = S /\ INR (length (expect_iters p (2 ^ n))) <= 2 ^ N.to_nat n).
    { destruct Hfit as [Hbf Hpf]. unfold expect_iters. destruct (N.eqb_spec (p_bf p) 0) as [E|E].
      - exists (fun i => flipR (N.land i (p_pf p)) (f_diag A 0 (psi i))), (fun i => flipR (N.land i (p_pf p)) (Re (Cconj (psi i) * psi i)%C)), (fun i => Cnorm2 (psi i)).
        split; [|split; [|split; [|split; [|split]]]].
        + intros i. apply flip_number; [exact Ho|apply diag_number].
        + intros i Hi. apply in_seqN in Hi. cbn. now rewrite ltb_true.
        + intros i Hi. apply in_seqN in Hi. cbn [f_expect_diag rrun]. rewrite ltb_true by assumption. split; [reflexivity|]. apply flipR_near. rewrite Re_norm.
          eapply Rle_trans; [apply diag_err|]. pose proof (Cnorm2_nonneg (psi i)). assert (0 <= u * Cnorm2 (psi i)) by (apply Rmult_le_pos; lra). lra.
        + intros i. rewrite flipR_abs, Re_norm, Rabs_right; [lra|apply Rle_ge, Cnorm2_nonneg].
        + reflexivity.
        + rewrite length_seqN, two_pow. lra.
      - exists (fun i => let b0 := insert_zero_to_basis_index i (bit_width (p_bf p) - 1) in
            flipR (N.land b0 (p_pf p)) (f_pair A 0 (psi b0) (psi (N.lxor b0 (p_bf p))) (phase90 (p_bf p) (p_pf p)))),
          (fun i => let b0 := insert_zero_to_basis_index i (bit_width (p_bf p) - 1) in
            flipR (N.land b0 (p_pf p)) (Re (Cscale 2 (psi b0 * Cconj (psi (N.lxor b0 (p_bf p))) * phase90 (p_bf p) (p_pf p))%C))),
          (fun i => let b0 := insert_zero_to_basis_index i (bit_width (p_bf p) - 1) in Cnorm2 (psi b0) + Cnorm2 (psi (N.lxor b0 (p_bf p)))).
        cbv zeta. split; [|split; [|split; [|split; [|split]]]].
        + intros i. apply flip_number; [exact Ho|]. unfold f_pair, f_times. cbn [fst]. apply (acc_idem _ _ _ HA).
        + intros i Hi. apply in_seqN in Hi. destruct (pair_idx_lt n (p_bf p) i Hn E Hbf Hi) as [H1 H2]. cbn. now rewrite !ltb_true.
        + intros i Hi. apply in_seqN in Hi. destruct (pair_idx_lt n (p_bf p) i Hn E Hbf Hi) as [H1 H2]. cbn [f_expect_pair rrun]. rewrite !ltb_true by assumption.
          split; [reflexivity|]. apply flipR_near. eapply Rle_trans; [apply pair_err; apply phase90_mod|].
          set (b0 := insert_zero_to_basis_index _ _). pose proof (two_mods (psi b0) (psi (N.lxor b0 (p_bf p)))) as H3.
          apply (Rmult_le_compat_l u) in H3; [|lra]. lra.
        + intros i. rewrite flipR_abs. eapply Rle_trans; [apply Re_pair_abs, phase90_mod|]. apply two_mods.
        + unfold S, sqnorm. symmetry. apply (pair_sum_R n (p_bf p) (fun x => Cnorm2 (psi x))); assumption.
        + rewrite length_seqN, two_pow. apply le_INR. pose proof (half_le n). lia. }
    destruct K as (x & y & s & Hx & Hy & Hxy & Hys & Hs & Hlen).
    destruct (rsum_close u eta A HA _ x y (fun i => 12 * u * s i + 32 * eta) (expect_iters p (2 ^ n)) t h Ht Hh Hb Hx Hxy) as (r & Er & Nr & Br).
    unfold f_pauli_expectation. rewrite Er. cbn [option_map]. eexists. split; [reflexivity|].
    unfold pauli_expectation in HE. destruct (rreduce_correct _ y _ _ (reduction_exists (expect_iters p (2 ^ n))) Hy) as (v & Hv & Ev).
    rewrite Hv in HE. cbn [option_map] in HE. injection HE as HE.
    assert (Ey : v = Rsuml y (expect_iters p (2 ^ n))). { apply RtoC_inj. rewrite Ev. symmetry. apply RtoC_Rsuml. }
    rewrite Ey in HE. rewrite <- HE. set (r' := Rsuml y (expect_iters p (2 ^ n))) in *.
    rewrite Rsuml_affine, Hs in Br. assert (Hy' : Rsuml (fun i => Rabs (y i)) (expect_iters p (2 ^ n)) <= S) by (rewrite <- Hs; apply Rsuml_le; intros; apply Hys).
    assert (Hr' : Rabs r' <= S). { eapply Rle_trans; [|exact Hy']. unfold r'. generalize (expect_iters p (2 ^ n)). intros l. unfold Rsuml. induction l as [|i l IH]; cbn; [rewrite Rabs_R0; lra|]. eapply Rle_trans; [apply Rabs_triang|]. lra. }
    set (M := 2 ^ N.to_nat n) in *. assert (HM : 1 <= M) by (apply pow_R1_Rle; lra). pose proof (pos_INR h) as Hh0.
    set (e := (9 / 2 * INR h + 36) * u * S + 102 * eta * M).
    assert (Her : Rabs (r - r') <= e).
    { eapply Rle_trans; [exact Br|]. assert (eta * INR (length (expect_iters p (2 ^ n))) <= eta * M) by (apply Rmult_le_compat_l; lra).
      assert (INR h * u * Rsuml (fun i => Rabs (y i)) (expect_iters p (2 ^ n)) <= INR h * u * S) by (apply Rmult_le_compat_l; [apply Rmult_le_pos; lra|assumption]). unfold e. lra. }
    eapply Rle_trans; [apply (times_err _ _ _ e Her)|]. unfold expect_error. fold M. cbn [INR]. pose proof (Cmod_nonneg (p_coef p)) as Hc. set (c := Cmod (p_coef p)) in *.
    assert (HuS : 0 <= u * S) by (apply Rmult_le_pos; lra). assert (HeM : eta <= eta * M) by (rewrite <- (Rmult_1_r eta) at 1; apply Rmult_le_compat_l; lra).
    assert (Hin : e + 3 / 2 * u * (Rabs r' + e) <= (5 * INR h + 43) * u * S + 103 * eta * M).
    { assert (H1 : u * Rabs r' <= u * S) by (apply Rmult_le_compat_l; lra).
      assert (H2 : u * e <= 16 / 5 * (u * S) + 102 / 256 * (eta * M)).
      { unfold e. assert (3 / 2 * INR h * u * (u * S) <= 1 * (u * S)) by (apply Rmult_le_compat_r; lra). assert (u * (u * S) <= / 256 * (u * S)) by (apply Rmult_le_compat_r; lra).
        assert (u * (eta * M) <= / 256 * (eta * M)) by (apply Rmult_le_compat_r; lra). lra. }
      assert (0 <= INR h * (u * S)) by (apply Rmult_le_pos; lra). unfold e in *. lra. }
    apply (Rmult_le_compat_l c) in Hin; [|lra]. assert (0 <= c * (eta * M)) by (apply Rmult_le_pos; lra). lra.
  Qed.

  (** operators: one contribution *)
  Lemma term_times_err c r r' s : Rabs (r - r') <= 12 * u * s + 32 * eta -> Rabs r' <= s ->
    Cmod (f_times A c r - c * RtoC r')%C <= Cmod c * (14 * u * s + 34 * eta) + 2 * eta.
  Proof.
    intros H Hr. eapply Rle_trans; [apply (times_err _ _ _ _ H)|]. pose proof (Cmod_nonneg c) as Hc. assert (Hs : 0 <= s) by (pose proof (Rabs_pos r'); lra).
    assert (0 <= u * s) by (apply Rmult_le_pos; lra). assert (u * (u * s) <= / 256 * (u * s)) by (apply Rmult_le_compat_r; lra).
    assert (u * eta <= / 256 * eta) by (apply Rmult_le_compat_r; lra). assert (u * Rabs r' <= u * s) by (apply Rmult_le_compat_l; lra).
    assert (Hin : 12 * u * s + 32 * eta + 3 / 2 * u * (Rabs r' + (12 * u * s + 32 * eta)) <= 14 * u * s + 34 * eta) by lra.
    apply (Rmult_le_compat_l (Cmod c)) in Hin; [|lra]. lra.
  Qed.
  Lemma times_number c r : f_entry A (f_times A c r) = f_times A c r.
  Proof. unfold f_entry, f_times. cbn [fst snd]. now rewrite !(acc_idem _ _ _ HA). Qed.
  Definition weight_at (p : pauli) (psi : N -> C) (i : N) : R :=
    if (p_bf p =? 0)%N then Cnorm2 (psi (shl64 i 1)) + Cnorm2 (psi (N.lor (shl64 i 1) 1))
    else let b0 := insert_zero_to_basis_index i (bit_width (p_bf p) - 1) in Cnorm2 (psi b0) + Cnorm2 (psi (N.lxor b0 (p_bf p))).
  Lemma weight_sum p psi : (0 < n)%N -> pauli_fits n p -> Rsuml (weight_at p psi) (seqN (N.shiftr (2 ^ n) 1)) = sqnorm n psi.
  Proof.
    intros H0 [Hbf _]. unfold weight_at, sqnorm. destruct (N.eqb_spec (p_bf p) 0) as [E|E].
    - symmetry. apply (even_sum_R n (fun x => Cnorm2 (psi x))); assumption.
    - symmetry. apply (pair_sum_R n (p_bf p) (fun x => Cnorm2 (psi x))); assumption.
  Qed.
  Lemma contribution o b i psi : (0 < n)%N -> pauli_fits n (term o b) -> (i < N.shiftr (2 ^ n) 1)%N ->
    exists x y, rrun (fun a => a <? 2 ^ n)%N psi (f_op_expect_body A o (b, i)) = Some x /\ rrun (fun a => a <? 2 ^ n)%N psi (op_expect_body o (b, i)) = Some y /\
      f_entry A x = x /\
      Cmod (x - y)%C <= Cmod (p_coef (term o b)) * (14 * u * weight_at (term o b) psi i + 34 * eta) + 2 * eta /\
      Cmod y <= Cmod (p_coef (term o b)) * weight_at (term o b) psi i.
  Proof.
    intros H0 [Hbf Hpf] Hi. unfold f_op_expect_body, op_expect_body, weight_at. cbn [fst snd]. destruct (N.eqb_spec (p_bf (term o b)) 0) as [E|E].
    - destruct (even_idx_lt n i H0 Hn Hi) as [H1 H2]. cbn [rrun]. rewrite !ltb_true by assumption. do 2 eexists. split; [reflexivity|]. split; [reflexivity|]. split; [apply times_number|].
      set (v1 := psi (shl64 i 1)). set (v2 := psi (N.lor (shl64 i 1) 1)). set (k1 := N.land (shl64 i 1) _). set (k2 := N.land (N.lor (shl64 i 1) 1) _).
      pose proof (Cnorm2_nonneg v1) as P1. pose proof (Cnorm2_nonneg v2) as P2.
      assert (Hr : Rabs (flipR k1 (Re (Cconj v1 * v1)%C) + flipR k2 (Re (Cconj v2 * v2)%C)) <= Cnorm2 v1 + Cnorm2 v2).
      { eapply Rle_trans; [apply Rabs_triang|]. rewrite !flipR_abs, !Re_norm, !Rabs_right by lra. lra. }
      split.
      + apply term_times_err; [|exact Hr]. unfold f_plus.
        pose proof (flipR_near k1 _ _ _ (diag_err 0 v1)) as D1. pose proof (flipR_near k2 _ _ _ (diag_err 1 v2)) as D2. rewrite !Re_norm in *.
        set (d1 := flipR k1 (f_diag A 0 v1)) in *. set (d2 := flipR k2 (f_diag A 1 v2)) in *. set (y1 := flipR k1 (Cnorm2 v1)) in *. set (y2 := flipR k2 (Cnorm2 v2)) in *.
        assert (D : Rabs (d1 + d2 - (y1 + y2)) <= 3 * u * (Cnorm2 v1 + Cnorm2 v2) + 8 * eta).
        { replace (d1 + d2 - (y1 + y2)) with ((d1 - y1) + (d2 - y2)) by ring. eapply Rle_trans; [apply Rabs_triang|]. lra. }
        eapply Rle_trans; [apply (rnd_err u eta A HA _ _ _ D)|]. set (s := Cnorm2 v1 + Cnorm2 v2) in *. assert (0 <= s) by (unfold s; lra).
        assert (0 <= u * s) by (apply Rmult_le_pos; lra). assert (u * (u * s) <= / 256 * (u * s)) by (apply Rmult_le_compat_r; lra).
        assert (u * eta <= / 256 * eta) by (apply Rmult_le_compat_r; lra). assert (u * Rabs (y1 + y2) <= u * s) by (apply Rmult_le_compat_l; lra). lra.
      + rewrite Cmod_mul, Cmod_real. apply Rmult_le_compat_l; [apply Cmod_nonneg|exact Hr].
    - destruct (pair_idx_lt n (p_bf (term o b)) i Hn E Hbf Hi) as [H1 H2]. cbv zeta. cbn [rrun]. rewrite !ltb_true by assumption.
      do 2 eexists. split; [reflexivity|]. split; [reflexivity|]. split; [apply times_number|]. set (b0 := insert_zero_to_basis_index _ _). set (v0 := psi b0). set (v1 := psi (N.lxor b0 _)).
      set (ph := phase90 _ _). assert (Hph : Cmod ph = 1) by apply phase90_mod. pose proof (two_mods v0 v1) as T.
      assert (Hr : Rabs (flipR (N.land b0 (p_pf (term o b))) (Re (Cscale 2 (v0 * Cconj v1 * ph)%C))) <= Cnorm2 v0 + Cnorm2 v1).
      { rewrite flipR_abs. eapply Rle_trans; [apply Re_pair_abs; exact Hph|exact T]. }
      split.
      + apply term_times_err; [|exact Hr]. apply flipR_near. eapply Rle_trans; [apply pair_err; exact Hph|]. apply (Rmult_le_compat_l u) in T; [|lra]. lra.
      + rewrite Cmod_mul, Cmod_real. apply Rmult_le_compat_l; [apply Cmod_nonneg|exact Hr].
  Qed.
  Lemma Rsuml_terms (f : pauli -> R) (l : list pauli) d : Rsuml (fun i => f (nth (N.to_nat i) l d)) (seqN (N.of_nat (length l))) = Rsuml f l.
  Proof. clear. apply RtoC_inj. rewrite !RtoC_Rsuml. apply (Csuml_terms (fun p => RtoC (f p))). Qed.
  Lemma Rsuml_list_prod {T U} (f : T * U -> R) l1 l2 : Rsuml f (list_prod l1 l2) = Rsuml (fun a => Rsuml (fun b => f (a, b)) l2) l1.
  Proof. clear. induction l1 as [|a l1 IH]; [reflexivity|]. cbn [list_prod]. rewrite Rsuml_app, IH, Rsuml_map. reflexivity. Qed.

  Lemma op_expectation_about o psi t h : (0 < n)%N -> op_fits n o ->
    reduction_of (op_iters o (2 ^ n)) t -> (tree_height t <= h)%nat -> 3 / 2 * INR h * u <= 1 ->
    exists v, f_op_expectation A (2 ^ n) o psi t = Some v /\
      Cmod (v - inner n psi (op_act o psi))%C <= expect_error u eta n h (coef_weight (o_terms o)) (length (o_terms o)) (sqnorm n psi).
  Proof.
    intros H0 Hfit' Ht Hh Hb. assert (Hfit : forall p, In p (o_terms o) -> pauli_fits n p) by now apply Forall_forall.
    pose proof (op_expectation_correct o n Hn Hfit' psi (RLeaf (op_iters o (2 ^ n))) H0 (reduction_exists _)) as HE.
    set (it := op_iters o (2 ^ n)) in *.
    set (fx := fun i => rrun (fun a => a <? 2 ^ n)%N psi (f_op_expect_body A o i)). set (fy := fun i => rrun (fun a => a <? 2 ^ n)%N psi (op_expect_body o i)).
    set (x := fun i => match fx i with Some v => f_entry A v | None => C0 end). set (y := fun i => match fy i with Some v => v | None => C0 end).
    set (c := fun b => Cmod (p_coef (term o b))). set (s := fun i => weight_at (term o (fst i)) psi (snd i)).
    assert (Hit : forall i, In i it -> pauli_fits n (term o (fst i)) /\ (snd i < N.shiftr (2 ^ n) 1)%N).
    { intros [b i] Hi. unfold it, op_iters in Hi. apply in_prod_iff in Hi as [H1 H2]. apply in_seqN in H1, H2. cbn. split; [|assumption]. apply Hfit. unfold term. apply nth_In. lia. }
    assert (Hx : forall i, f_entry A (x i) = x i).
    { intros i. unfold x. destruct (fx i) as [v|]; unfold f_entry, C0; cbn [fst snd]; [now rewrite !(acc_idem _ _ _ HA)|now rewrite !(acc_zero _ _ _ HA)]. }
    assert (Hxy : forall i, In i it -> (fx i = Some (x i) /\ Cmod (x i - y i)%C <= c (fst i) * (14 * u * s i + 34 * eta) + 2 * eta) /\ fy i = Some (y i) /\ Cmod (y i) <= c (fst i) * s i).
    { intros [b i] Hi. destruct (Hit _ Hi) as [F1 F2]. destruct (contribution o b i psi H0 F1 F2) as (vx & vy & E1 & E2 & E3 & E4 & E5).
      unfold x, y. change (fx (b, i)) with (rrun (fun a => a <? 2 ^ n)%N psi (f_op_expect_body A o (b, i))). change (fy (b, i)) with (rrun (fun a => a <? 2 ^ n)%N psi (op_expect_body o (b, i))).
      rewrite E1, E2, E3. auto. }
    destruct (csum_close u eta A HA fx x y (fun i => c (fst i) * (14 * u * s i + 34 * eta) + 2 * eta) it t h Ht Hh Hb Hx) as (v & Ev & _ & Bv).
    { intros i Hi. apply (Hxy i Hi). }
    exists v. split; [exact Ev|].
    assert (Ey : Csuml y it = inner n psi (op_act o psi)).
    { unfold op_expectation in HE. rewrite (creduce_correct _ y it _ (reduction_exists _)) in HE; [now injection HE|]. intros i Hi. apply (Hxy i Hi). }
    rewrite Ey in Bv. eapply Rle_trans; [exact Bv|].
    set (W := coef_weight (o_terms o)). set (T := INR (length (o_terms o))). set (S := sqnorm n psi). set (M := 2 ^ N.to_nat n).
    assert (HW : 0 <= W) by (apply Rsuml_nonneg; intros; apply sqrt_pos). assert (HT : 0 <= T) by apply pos_INR. assert (HS : 0 <= S) by apply sqnorm_nonneg.
    assert (HM : 1 <= M) by (apply pow_R1_Rle; lra).
    assert (Sum : forall a d, Rsuml (fun i => c (fst i) * (a * s i + d)) it = W * (a * S + d * (M / 2))).
    { intros a d. unfold it, op_iters. rewrite Rsuml_list_prod. unfold W, coef_weight. rewrite <- (Rsuml_terms (fun p => sqrt (Cnorm2 (p_coef p))) (o_terms o) no_pauli).
      rewrite (Rmult_comm (Rsuml _ _)), <- Rsuml_scale. apply Rsuml_ext. intros b Hb'. apply in_seqN in Hb'. unfold s. cbn [fst snd]. fold (term o b).
      rewrite (Rsuml_scale (c b) (fun i => a * weight_at (term o b) psi i + d)). rewrite Rsuml_affine, weight_sum, length_seqN by (try assumption; apply Hfit; unfold term; apply nth_In; lia).
      fold S. unfold M. rewrite <- (half_R n H0). unfold c. rewrite Rmult_comm. f_equal. field. }
    assert (Len : INR (length it) = T * (M / 2)).
    { unfold it, op_iters. rewrite prod_length, !length_seqN, mult_INR, Nnat.Nat2N.id. unfold T, M. rewrite <- (half_R n H0). field. }
    assert (S1 : Rsuml (fun i => c (fst i) * (14 * u * s i + 34 * eta) + 2 * eta) it = W * (14 * u * S + 34 * eta * (M / 2)) + 2 * eta * (T * (M / 2))).
    { rewrite <- Len, <- Sum. rewrite <- (Rmult_1_l (Rsuml (fun i => c (fst i) * _) it)), <- Rsuml_affine. apply Rsuml_ext. intros; ring. }
    assert (S2 : Rsuml (fun i => Cmod (y i)) it <= W * S).
    { replace (W * S) with (W * (1 * S + 0 * (M / 2))) by ring. rewrite <- Sum. apply Rsuml_le. intros i Hi. eapply Rle_trans; [apply (Hxy i Hi)|]. right. ring. }
    rewrite S1, Len. unfold expect_error. fold W T S M. pose proof (pos_INR h) as Hh0.
    assert (INR h * u * Rsuml (fun i => Cmod (y i)) it <= INR h * u * (W * S)) by (apply Rmult_le_compat_l; [apply Rmult_le_pos; lra|assumption]).
    assert (0 <= W * S) by (apply Rmult_le_pos; lra). assert (0 <= u * (W * S)) by (apply Rmult_le_pos; lra). assert (0 <= INR h * (u * (W * S))) by (apply Rmult_le_pos; lra).
    assert (0 <= eta * M) by (apply Rmult_le_pos; lra). assert (0 <= W * (eta * M)) by (apply Rmult_le_pos; lra). assert (0 <= T * (eta * M)) by (apply Rmult_le_pos; lra). lra.
  Qed.
End Expect.
