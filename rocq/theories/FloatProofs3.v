(** The coefficients in the kernels are close to the exact ones. *)
From Verif Require Export FloatProofs2.
From Coq Require Import Lra ZifyBool ZifyN ZifyNat.
Open Scope R_scope.

Definition near_entry (u : R) (z' z : C) : Prop := Cmod z <= 1 /\ Cmod (z' - z)%C <= 60 * u.
Section Coefficients.
  Variables (u eta : R) (A : arith).
  Hypothesis HA : accurate u eta A.
  Let Hu := u_range u eta A HA.
  Let He := eta_range u eta A HA.
  Notation near := (near_entry u).

  Lemma mul_near x x' y y' a b : Cmod x <= 1 -> Cmod y <= 1 -> Cmod (x' - x)%C <= a -> Cmod (y' - y)%C <= b ->
    Cmod (x' * y' - x * y)%C <= a * (1 + b) + b.
  Proof.
    intros Hx Hy Ha Hb. replace (x' * y' - x * y)%C with ((x' - x) * y' + x * (y' - y))%C by ring.
    eapply Rle_trans; [apply Cmod_tri|]. rewrite !Cmod_mul. pose proof (Cmod_near _ _ _ Hb) as Hn.
    pose proof (Cmod_nonneg (x' - x)%C). pose proof (Cmod_nonneg (y' - y)%C). pose proof (Cmod_nonneg x). pose proof (Cmod_nonneg y').
    assert (Cmod (x' - x)%C * Cmod y' <= a * (1 + b)) by (apply Rmult_le_compat; lra).
    assert (Cmod x * Cmod (y' - y)%C <= 1 * b) by (apply Rmult_le_compat; lra). lra.
  Qed.
  Lemma prod_near place x x' y y' a b : Cmod x <= 1 -> Cmod y <= 1 -> Cmod (x' - x)%C <= a -> Cmod (y' - y)%C <= b ->
    Cmod (f_mul A place x' y' - x * y)%C <= 5 * u * (1 + (a * (1 + b) + b)) + 6 * u + (a * (1 + b) + b).
  Proof.
    intros Hx Hy Ha Hb. pose proof (mul_near x x' y y' a b Hx Hy Ha Hb) as H1.
    pose proof (f_mul_err u eta A HA place x' y') as H2. pose proof (Cmod_tri3 (f_mul A place x' y') (x' * y')%C (x * y)%C) as H3.
    pose proof (Cmod_near _ _ _ H1) as H4. rewrite !Cmod_mul in H4.
    assert (Cmod x * Cmod y <= 1 * 1) by (apply Rmult_le_compat; try apply Cmod_nonneg; lra).
    assert (5 * u * (Cmod x' * Cmod y') <= 5 * u * (1 + (a * (1 + b) + b))) by (apply Rmult_le_compat_l; lra). lra.
  Qed.
  Lemma abs1 x y e : Rabs (x - y) <= e -> Rabs y <= 1 -> Rabs x <= 1 + e.
  Proof. intros H Hy. replace x with ((x - y) + y) by ring. pose proof (Rabs_triang (x - y) y). lra. Qed.
  Lemma cos1 x : Rabs (cos x) <= 1. Proof. apply Rabs_le, COS_bound. Qed.
  Lemma sin1 x : Rabs (sin x) <= 1. Proof. apply Rabs_le, SIN_bound. Qed.

  Lemma cos_near h x e : Rabs (h - x) <= e -> Rabs (a_cos A h - cos x) <= 2 * u + e.
  Proof.
    intros H. replace (a_cos A h - cos x) with ((a_cos A h - cos h) + (cos h - cos x)) by ring.
    pose proof (Rabs_triang (a_cos A h - cos h) (cos h - cos x)). pose proof (acc_cos _ _ _ HA h). pose proof (lip_cos h x). lra.
  Qed.
  Lemma sin_near h x e : Rabs (h - x) <= e -> Rabs (a_sin A h - sin x) <= 2 * u + e.
  Proof.
    intros H. replace (a_sin A h - sin x) with ((a_sin A h - sin h) + (sin h - sin x)) by ring.
    pose proof (Rabs_triang (a_sin A h - sin h) (sin h - sin x)). pose proof (acc_sin _ _ _ HA h). pose proof (lip_sin h x). lra.
  Qed.
  Lemma half_near x : a_rnd A x = x -> Rabs (f_half A x - x / 2) <= u.
  Proof. intros H. pose proof (acc_half _ _ _ HA x H). unfold f_half. lra. Qed.
  Lemma half_pi2 : Rabs (f_half A (a_pi2 A) - PI / 2 / 2) <= 3 * u.
  Proof.
    destruct (acc_pi2 _ _ _ HA) as [H1 H2]. pose proof (acc_half _ _ _ HA _ H1) as H3. unfold f_half.
    replace (a_rnd A (a_pi2 A / 2) - PI / 2 / 2) with ((a_rnd A (a_pi2 A / 2) - a_pi2 A / 2) + (a_pi2 A - PI / 2) * / 2) by field.
    eapply Rle_trans; [apply Rabs_triang|]. rewrite (Rabs_mult _ (/ 2)), (Rabs_right (/ 2)) by lra. lra.
  Qed.
  Lemma real_near r r' e : Rabs (r' - r) <= e -> Cmod (RtoC r' - RtoC r)%C <= e.
  Proof. intros H. replace (RtoC r' - RtoC r)%C with (RtoC (r' - r)) by (c_eq; ring). now rewrite Cmod_real. Qed.
  Lemma imag_near r r' e : Rabs (r' - r) <= e -> Cmod (((0, r') : C) - (0, r))%C <= e.
  Proof.
    intros H. replace (((0, r') : C) - (0, r))%C with (RtoC (r' - r) * Ci)%C by (c_eq; ring). rewrite Cmod_mul, Cmod_real, Cmod_i. lra.
  Qed.
  Lemma box_near z z' e : 0 <= e -> Rabs (fst z' - fst z) <= e -> Rabs (snd z' - snd z) <= e -> Cmod (z' - z)%C <= 3 / 2 * e.
  Proof. intros H1 H2 H3. apply Cmod_box; assumption. Qed.

  Lemma rnd_near x y e : Rabs (x - y) <= e -> Rabs y <= 1 -> e <= 10 * u -> Rabs (a_rnd A x - y) <= e + 3 * u.
  Proof.
    intros H Hy He'. pose proof (rnd_err u eta A HA x y e H) as H1.
    assert (u * (Rabs y + e) <= u * (1 + 10 * / 256)) by (apply Rmult_le_compat_l; lra). lra.
  Qed.
  Lemma expi_near x : Cmod (f_expi A x - Cexpi x)%C <= 12 * u.
  Proof.
    assert (K : forall v w, Rabs (v - w) <= 2 * u -> Rabs w <= 1 -> Rabs (a_rnd A (a_exp0 A * v) - w) <= 8 * u).
    { intros v w Hv Hw. pose proof (acc_exp0 _ _ _ HA) as He0. pose proof (abs1 _ _ _ Hv Hw) as Hv1.
      replace (8 * u) with (5 * u + 3 * u) by ring. apply rnd_near; [|exact Hw|lra].
      replace (a_exp0 A * v - w) with ((a_exp0 A - 1) * v + (v - w)) by ring. eapply Rle_trans; [apply Rabs_triang|].
      rewrite Rabs_mult.
      assert (Rabs (a_exp0 A - 1) * Rabs v <= 2 * u * (1 + 2 * u)) by (apply Rmult_le_compat; try apply Rabs_pos; lra).
      assert (u * u <= / 256 * u) by (apply Rmult_le_compat_r; lra). lra. }
    pose proof (acc_cos _ _ _ HA x) as Hc. pose proof (acc_sin _ _ _ HA x) as Hs.
    replace (12 * u) with (3 / 2 * (8 * u)) by field.
    apply box_near; [lra| |]; cbn; apply K; [exact Hc|apply cos1|exact Hs|apply sin1].
  Qed.
  Lemma polar_near x : Cmod (f_polar1 A x - Cexpi x)%C <= 8 * u.
  Proof.
    assert (K : forall v w, Rabs (v - w) <= 2 * u -> Rabs w <= 1 -> Rabs (a_rnd A (1 * v) - w) <= 5 * u).
    { intros v w Hv Hw. rewrite Rmult_1_l. replace (5 * u) with (2 * u + 3 * u) by ring. apply rnd_near; [exact Hv|exact Hw|lra]. }
    pose proof (acc_cos _ _ _ HA x) as Hc. pose proof (acc_sin _ _ _ HA x) as Hs.
    eapply Rle_trans; [apply (box_near _ _ (5 * u)); [lra| |]|lra]; cbn; apply K; [exact Hc|apply cos1|exact Hs|apply sin1].
  Qed.
  Lemma entry_near z : Cmod z <= 1 -> near (f_entry A z) z.
  Proof.
    intros Hz. split; [exact Hz|]. pose proof (Cmod_fst z). pose proof (Cmod_snd z).
    eapply Rle_trans; [apply (box_near _ _ (3 * u)); [lra| |]|lra]; cbn;
      replace (3 * u) with (0 + 3 * u) by ring; (apply rnd_near; [rewrite Rminus_eq_0, Rabs_R0; lra|lra|lra]).
  Qed.
  Lemma same_near z : Cmod z <= 1 -> near z z.
  Proof. intros H. split; [exact H|]. replace (z - z)%C with C0 by ring. rewrite Cmod_0. lra. Qed.
  Lemma isq2_abs : Rabs INVERSE_SQRT2 <= 1.
  Proof.
    rewrite <- inv_sqrt2. pose proof (Rlt_sqrt2_0) as H. assert (H1 : 1 <= sqrt 2) by (rewrite <- sqrt_1 at 1; apply sqrt_le_1_alt; lra).
    rewrite Rabs_right by (left; apply Rinv_0_lt_compat; lra). rewrite <- Rinv_1. apply Rinv_le_contravar; lra.
  Qed.
  Lemma isq2_near : Rabs (a_isq2 A - INVERSE_SQRT2) <= 2 * u.
  Proof. rewrite <- inv_sqrt2. exact (acc_isq2 _ _ _ HA). Qed.
  Lemma real_entry r r' e : Rabs (r' - r) <= e -> e <= 60 * u -> Rabs r <= 1 -> near (RtoC r') (RtoC r).
  Proof. intros H He' Hr. split; [now rewrite Cmod_real|]. pose proof (real_near r r' e H). lra. Qed.
  Lemma neg_near z z' : near z' z -> near (- z')%C (- z)%C.
  Proof. intros [H1 H2]. split; [now rewrite Cmod_opp|]. replace (- z' - - z)%C with (- (z' - z))%C by ring. now rewrite Cmod_opp. Qed.
  Lemma imag_entry r r' e : Rabs (r' - r) <= e -> e <= 60 * u -> Rabs r <= 1 -> near (0, - r') (0, - r).
  Proof.
    intros H He' Hr. split.
    - replace ((0, - r) : C) with (- (RtoC r * Ci))%C by (c_eq; ring). rewrite Cmod_opp, Cmod_mul, Cmod_real, Cmod_i. lra.
    - eapply Rle_trans; [apply (imag_near (- r) (- r') e)|exact He']. replace (- r' - - r) with (- (r' - r)) by ring. now rewrite Rabs_Ropp.
  Qed.
  Lemma unit_entry (z z' : C) e : Cnorm2 z = 1 -> 0 <= e -> Rabs (fst z' - fst z) <= e -> Rabs (snd z' - snd z) <= e -> 3 / 2 * e <= 60 * u -> near z' z.
  Proof. intros H1 H2 H3 H4 H5. split; [unfold Cmod; rewrite H1, sqrt_1; lra|]. pose proof (box_near z z' e H2 H3 H4). lra. Qed.

  Lemma u2 : u * u <= / 256 * u. Proof. apply Rmult_le_compat_r; lra. Qed.
  Lemma ibmq_near theta theta' phi lambda : Rabs (f_half A theta' - theta / 2) <= 3 * u ->
    forall i j, near (f_IBMQ_matrix A theta' phi lambda i j) (get_IBMQ_matrix theta phi lambda i j).
  Proof.
    intros Hh. pose proof (cos_near _ _ _ Hh) as Hc. pose proof (sin_near _ _ _ Hh) as Hs.
    pose proof (expi_near phi) as H1. pose proof (expi_near lambda) as H2.
    assert (Hc' : Cmod (RtoC (a_cos A (f_half A theta')) - RtoC (cos (theta / 2)))%C <= 5 * u) by (apply real_near; lra).
    assert (Hs' : Cmod (RtoC (a_sin A (f_half A theta')) - RtoC (sin (theta / 2)))%C <= 5 * u) by (apply real_near; lra).
    assert (Mc : Cmod (RtoC (cos (theta / 2))) <= 1) by (rewrite Cmod_real; apply cos1).
    assert (Ms : Cmod (RtoC (sin (theta / 2))) <= 1) by (rewrite Cmod_real; apply sin1).
    assert (M1 : Cmod (Cexpi phi) <= 1) by (rewrite Cmod_expi; lra).
    assert (M2 : Cmod (Cexpi lambda) <= 1) by (rewrite Cmod_expi; lra).
    assert (M2' : Cmod (- Cexpi lambda)%C <= 1) by (rewrite Cmod_opp; exact M2).
    assert (H2' : Cmod (- f_expi A lambda - - Cexpi lambda)%C <= 12 * u).
    { replace (- f_expi A lambda - - Cexpi lambda)%C with (- (f_expi A lambda - Cexpi lambda))%C by ring. now rewrite Cmod_opp. }
    pose proof u2 as Huu. assert (Huuu : u * (u * u) <= / 256 * (/ 256 * u)) by (apply Rmult_le_compat; nra).
    assert (P : forall x y, Cmod x <= 1 -> Cmod y <= 1 -> Cmod (x * y)%C <= 1).
    { intros x y Hx Hy. rewrite Cmod_mul. pose proof (Cmod_nonneg x). pose proof (Cmod_nonneg y). nra. }
    assert (E1 : near (RtoC (a_cos A (f_half A theta'))) (RtoC (cos (theta / 2)))) by (split; [exact Mc|lra]).
    assert (E2 : near (f_mul A 10 (- f_expi A lambda) (RtoC (a_sin A (f_half A theta')))) (- Cexpi lambda * RtoC (sin (theta / 2)))%C).
    { split; [now apply P|]. eapply Rle_trans; [apply (prod_near 10 _ _ _ _ _ _ M2' Ms H2' Hs')|]. nra. }
    assert (E3 : near (f_mul A 11 (f_expi A phi) (RtoC (a_sin A (f_half A theta')))) (Cexpi phi * RtoC (sin (theta / 2)))%C).
    { split; [now apply P|]. eapply Rle_trans; [apply (prod_near 11 _ _ _ _ _ _ M1 Ms H1 Hs')|]. nra. }
    assert (E4 : near (f_mul A 13 (f_mul A 12 (f_expi A phi) (f_expi A lambda)) (RtoC (a_cos A (f_half A theta'))))
                   (Cexpi phi * Cexpi lambda * RtoC (cos (theta / 2)))%C).
    { split; [apply P; [now apply P|assumption]|].
      assert (H4 : Cmod (f_mul A 12 (f_expi A phi) (f_expi A lambda) - Cexpi phi * Cexpi lambda)%C <= 37 * u).
      { eapply Rle_trans; [apply (prod_near 12 _ _ _ _ _ _ M1 M2 H1 H2)|]. nra. }
      eapply Rle_trans; [apply (prod_near 13 _ _ _ _ _ _ (P _ _ M1 M2) Mc H4 Hc')|]. nra. }
    intros i j. unfold f_IBMQ_matrix, get_IBMQ_matrix, mat2. destruct i, j; assumption.
  Qed.
End Coefficients.
