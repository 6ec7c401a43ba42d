(** Products of the one-qubit matrices behind the special cases of merge_gate. *)
From Verif Require Export MergeProofs3.
From Coq Require Import ZifyBool ZifyN ZifyNat Lra.

Lemma Cexpi_2PI x : Cexpi (x + 2 * PI) = Cexpi x.
Proof. replace (x + 2 * PI)%R with (x + PI + PI)%R by lra. rewrite !Cexpi_PI'. ring. Qed.

(** ** Diagonal gates *)
Definition diag (g a : R) : matrix := fun i j => (Cexpi g * mat2 C1 C0 C0 (Cexpi a) i j)%C.
Lemma diag_mul g1 a1 g2 a2 : mat_eq 2 (mat_mul 2 (diag g2 a2) (diag g1 a1)) (diag (g1 + g2) (a1 + a2)).
Proof. mat2_cases; rewrite mat_mul_2; unfold diag, mat2; rewrite !Cexpi_add; ring. Qed.
Lemma diag_per g a : mat_eq 2 (diag g (a + 2 * PI)) (diag g a).
Proof. mat2_cases; unfold diag, mat2; rewrite ?Cexpi_2PI; reflexivity. Qed.
Lemma diag_ext g g' a a' : g = g' -> a = a' -> mat_eq 2 (diag g a) (diag g' a').
Proof. intros -> ->. apply mat_eq_refl. Qed.
Definition oct (o : N) : matrix := diag 0 (IZR (Z.of_N o) * PI / 4).
Lemma oct_0 : mat_eq 2 (oct 0) mat_id.
Proof. unfold oct. replace (IZR (Z.of_N 0) * PI / 4)%R with 0%R by (simpl; lra). mat2_cases; unfold diag, mat2, mat_id; simpl; rewrite ?Cexpi_0; ring. Qed.
Lemma oct_mul a b : mat_eq 2 (mat_mul 2 (oct b) (oct a)) (oct (a + b)).
Proof.
  unfold oct. eapply mat_eq_trans; [apply diag_mul|]. apply diag_ext; [lra|]. rewrite N2Z.inj_add, plus_IZR. lra.
Qed.
Lemma oct_8 a : mat_eq 2 (oct (a + 8)) (oct a).
Proof.
  unfold oct. eapply mat_eq_trans; [|apply diag_per]. apply diag_ext; [reflexivity|]. rewrite N2Z.inj_add, plus_IZR. change (Z.of_N 8) with 8%Z. lra.
Qed.
Lemma oct_mod a b : a < 8 -> b < 8 -> mat_eq 2 (oct (a + b)) (oct ((a + b) mod 8)).
Proof.
  intros Ha Hb. destruct (N.ltb_spec (a + b) 8).
  - rewrite N.mod_small by assumption. apply mat_eq_refl.
  - replace ((a + b) mod 8) with (a + b - 8).
    + replace (a + b) with (a + b - 8 + 8) at 1 by lia. apply oct_8.
    + symmetry. replace (a + b) with (a + b - 8 + 1 * 8) at 1 by lia. rewrite N.mod_add, N.mod_small by lia. reflexivity.
Qed.
Lemma oct_std k b o : get_oct_phase (Some (EStd k b)) = Some o -> o < 8 /\ mat_eq 2 (std1_textbook k) (oct o).
Proof.
  intros H. destruct k; try discriminate; injection H as <-; (split; [reflexivity|]); unfold oct, diag; mat2_cases; simpl; rewrite ?Cexpi_0; try ring.
  - transitivity (Cexpi PI); [rewrite Cexpi_PI; reflexivity|]. replace (4 * PI / 4)%R with PI by lra. ring.
  - replace (2 * PI / 4)%R with (PI / 2)%R by lra. ring.
  - replace (6 * PI / 4)%R with (- (PI / 2) + 2 * PI)%R by lra. rewrite Cexpi_2PI. ring.
  - replace (1 * PI / 4)%R with (PI / 4)%R by lra. ring.
  - replace (7 * PI / 4)%R with (- (PI / 4) + 2 * PI)%R by lra. rewrite Cexpi_2PI. ring.
Qed.
(** the table read backwards *)
Lemma oct_gate o k : o < 8 -> oct_phase_gate o = Some k ->
  match k with None => o = 0 | Some k => forall b, get_oct_phase (Some (EStd k b)) = Some o end.
Proof.
  intros Ho. assert (E : o = 0 \/ o = 1 \/ o = 2 \/ o = 3 \/ o = 4 \/ o = 5 \/ o = 6 \/ o = 7) by lia.
  destruct E as [->|[->|[->|[->|[->|[->|[->| ->]]]]]]]; intros H; try discriminate; injection H as <-; try reflexivity; intros; reflexivity.
Qed.
Lemma rz_std k b a g : rz_view (Some (EStd k b)) = Some (a, g) -> mat_eq 2 (std1_textbook k) (diag g a).
Proof.
  unfold rz_view. destruct (get_oct_phase (Some (EStd k b))) as [o|] eqn:Eo.
  - intros [= <- <-]. apply (oct_std k b o Eo).
  - destruct k; try discriminate; intros [= <- <-].
    + mat2_cases; unfold diag, std1_textbook, mat2, mat_id, pauli1; simpl.
      * transitivity (Cexpi (- angle / 2)); [|ring]. c_eq; replace (- angle / 2)%R with (- (angle / 2))%R by lra; rewrite ?cos_neg, ?sin_neg; ring.
      * ring.
      * ring.
      * rewrite <- Cexpi_add. replace (- angle / 2 + angle)%R with (angle / 2)%R by lra. c_eq; ring.
    + mat2_cases; unfold diag, std1_textbook, mat2; rewrite Cexpi_0; ring.
Qed.

(** ** Rotations around X and Y *)
Definition rot (P : matrix) (g a : R) : matrix :=
  fun i j => (Cexpi g * (RtoC (cos (a / 2)) * mat_id i j - Ci * RtoC (sin (a / 2)) * P i j))%C.
Lemma rot_ext P g g' a a' : g = g' -> a = a' -> mat_eq 2 (rot P g a) (rot P g' a').
Proof. intros -> ->. apply mat_eq_refl. Qed.
Section Rot.
  Variable P : matrix.
  Hypothesis PP : mat_eq 2 (mat_mul 2 P P) mat_id.
  Lemma rot_mul g1 a1 g2 a2 : mat_eq 2 (mat_mul 2 (rot P g2 a2) (rot P g1 a1)) (rot P (g1 + g2) (a1 + a2)).
  Proof.
    intros i j Hi Hj. pose proof (PP i j Hi Hj) as H. rewrite mat_mul_2 in *. unfold rot. rewrite Cexpi_add.
    replace ((a1 + a2) / 2)%R with (a1 / 2 + a2 / 2)%R by lra. rewrite cos_plus, sin_plus.
    assert (I0 : mat_id i j = (mat_id i 0 * mat_id 0 j + mat_id i 1 * mat_id 1 j)%C).
    { apply lt2_cases in Hi; apply lt2_cases in Hj; destruct Hi, Hj; subst; unfold mat_id; simpl; ring. }
    assert (I1 : P i j = (mat_id i 0 * P 0 j + mat_id i 1 * P 1 j)%C).
    { apply lt2_cases in Hi; apply lt2_cases in Hj; destruct Hi, Hj; subst; unfold mat_id; simpl; ring. }
    assert (I2 : P i j = (P i 0 * mat_id 0 j + P i 1 * mat_id 1 j)%C).
    { apply lt2_cases in Hi; apply lt2_cases in Hj; destruct Hi, Hj; subst; unfold mat_id; simpl; ring. }
    assert (Hii : (Ci * Ci = - C1)%C) by (c_eq; lra).
    set (c1 := cos (a1 / 2)). set (s1 := sin (a1 / 2)). set (c2 := cos (a2 / 2)). set (s2 := sin (a2 / 2)).
    assert (E1 : RtoC (c1 * c2 - s1 * s2) = (RtoC c1 * RtoC c2 - RtoC s1 * RtoC s2)%C) by (c_eq; lra).
    assert (E2 : RtoC (s1 * c2 + c1 * s2) = (RtoC s1 * RtoC c2 + RtoC c1 * RtoC s2)%C) by (c_eq; lra).
    rewrite E1, E2.
    transitivity (Cexpi g1 * Cexpi g2 * (RtoC c1 * RtoC c2 * (mat_id i 0 * mat_id 0 j + mat_id i 1 * mat_id 1 j)
      - Ci * RtoC c2 * RtoC s1 * (mat_id i 0 * P 0 j + mat_id i 1 * P 1 j) - Ci * RtoC s2 * RtoC c1 * (P i 0 * mat_id 0 j + P i 1 * mat_id 1 j)
      + Ci * Ci * RtoC s1 * RtoC s2 * (P i 0 * P 0 j + P i 1 * P 1 j)))%C; [ring|].
    rewrite <- I0, <- I1, <- I2, H, Hii. ring.
  Qed.
  Lemma rot_per g a : mat_eq 2 (rot P (g + PI) (a + 2 * PI)) (rot P g a).
  Proof.
    intros i j _ _. unfold rot. replace ((a + 2 * PI) / 2)%R with (a / 2 + PI)%R by lra. rewrite Cexpi_PI', neg_cos, neg_sin.
    assert (E : forall r, RtoC (- r) = (- RtoC r)%C) by (intros; c_eq; lra). rewrite !E. ring.
  Qed.
  Definition quad (q : N) : matrix := rot P (IZR (Z.of_N q) * PI / 4) (IZR (Z.of_N q) * PI / 2).
  Lemma quad_0 : mat_eq 2 (quad 0) mat_id.
  Proof.
    intros i j _ _. unfold quad, rot. simpl. replace (0 * PI / 4)%R with 0%R by lra. replace (0 * PI / 2 / 2)%R with 0%R by lra.
    rewrite Cexpi_0, cos_0, sin_0. change (RtoC 1) with C1. change (RtoC 0) with C0. ring.
  Qed.
  Lemma quad_mul a b : mat_eq 2 (mat_mul 2 (quad b) (quad a)) (quad (a + b)).
  Proof. unfold quad. eapply mat_eq_trans; [apply rot_mul|]. apply rot_ext; rewrite N2Z.inj_add, plus_IZR; lra. Qed.
  Lemma quad_4 a : mat_eq 2 (quad (a + 4)) (quad a).
  Proof. unfold quad. eapply mat_eq_trans; [|apply rot_per]. apply rot_ext; rewrite N2Z.inj_add, plus_IZR; change (Z.of_N 4) with 4%Z; lra. Qed.
  Lemma quad_mod a b : a < 4 -> b < 4 -> mat_eq 2 (quad (a + b)) (quad ((a + b) mod 4)).
  Proof.
    intros Ha Hb. destruct (N.ltb_spec (a + b) 4).
    - rewrite N.mod_small by assumption. apply mat_eq_refl.
    - replace ((a + b) mod 4) with (a + b - 4).
      + replace (a + b) with (a + b - 4 + 4) at 1 by lia. apply quad_4.
      + symmetry. replace (a + b) with (a + b - 4 + 1 * 4) at 1 by lia. rewrite N.mod_add, N.mod_small by lia. reflexivity.
  Qed.
  (** X or Y, and its two square roots *)
  Lemma quad_2 : mat_eq 2 P (quad 2).
  Proof.
    intros i j _ _. unfold quad, rot. change (Z.of_N 2) with 2%Z. replace (2 * PI / 4)%R with (PI / 2)%R by lra. replace (2 * PI / 2 / 2)%R with (PI / 2)%R by lra.
    rewrite cos_PI2, sin_PI2. unfold Cexpi. rewrite cos_PI2, sin_PI2. change (RtoC 1) with C1. change (RtoC 0) with C0. change (0%R, 1%R) with Ci.
    assert (Hii : (Ci * Ci = - C1)%C) by (c_eq; lra). transitivity (- (Ci * Ci) * P i j)%C; [rewrite Hii; ring|ring].
  Qed.
  Lemma quad_1 : mat_eq 2 (fun i j => (Cexpi (PI / 4) * (isq2 * (mat_id i j - Ci * P i j)))%C) (quad 1).
  Proof.
    intros i j _ _. unfold quad, rot. change (Z.of_N 1) with 1%Z. replace (1 * PI / 4)%R with (PI / 4)%R by lra. replace (1 * PI / 2 / 2)%R with (PI / 4)%R by lra.
    unfold isq2. rewrite cos_PI4, sin_PI4. replace (1 / sqrt 2)%R with (/ sqrt 2)%R by (unfold Rdiv; lra). ring.
  Qed.
  Lemma quad_3 : mat_eq 2 (fun i j => (Cexpi (- (PI / 4)) * (isq2 * (mat_id i j + Ci * P i j)))%C) (quad 3).
  Proof.
    intros i j _ _. unfold quad, rot. change (Z.of_N 3) with 3%Z. replace (3 * PI / 4)%R with (- (PI / 4) + PI)%R by lra. replace (3 * PI / 2 / 2)%R with (- (PI / 4) + PI)%R by lra.
    rewrite Cexpi_PI', neg_cos, neg_sin, cos_neg, sin_neg. unfold isq2. rewrite cos_PI4, sin_PI4. replace (1 / sqrt 2)%R with (/ sqrt 2)%R by (unfold Rdiv; lra).
    assert (E : forall r, RtoC (- r) = (- RtoC r)%C) by (intros; c_eq; lra). rewrite !E. ring.
  Qed.
End Rot.
Lemma PP1 : mat_eq 2 (mat_mul 2 (pauli1 1) (pauli1 1)) mat_id.
Proof. mat2_cases; rewrite mat_mul_2; unfold pauli1, mat_id; simpl; c_eq; lra. Qed.
Lemma PP2 : mat_eq 2 (mat_mul 2 (pauli1 2) (pauli1 2)) mat_id.
Proof. mat2_cases; rewrite mat_mul_2; unfold pauli1, mat_id; simpl; c_eq; lra. Qed.
Lemma quad_std_x k b q : get_quad_rx (Some (EStd k b)) = Some q -> q < 4 /\ mat_eq 2 (std1_textbook k) (quad (pauli1 1) q).
Proof. intros H. destruct k; try discriminate; injection H as <-; (split; [reflexivity|]); [apply quad_2|apply quad_1|apply quad_3]. Qed.
Lemma quad_std_y k b q : get_quad_ry (Some (EStd k b)) = Some q -> q < 4 /\ mat_eq 2 (std1_textbook k) (quad (pauli1 2) q).
Proof. intros H. destruct k; try discriminate; injection H as <-; (split; [reflexivity|]); [apply quad_2|apply quad_1|apply quad_3]. Qed.
Lemma quad_gate_x o k : o < 4 -> quad_rx_gate o = Some k ->
  match k with None => o = 0 | Some k => forall b, get_quad_rx (Some (EStd k b)) = Some o end.
Proof.
  intros Ho. assert (E : o = 0 \/ o = 1 \/ o = 2 \/ o = 3) by lia.
  destruct E as [->|[->|[->| ->]]]; intros H; try discriminate; injection H as <-; try reflexivity; intros; reflexivity.
Qed.
Lemma quad_gate_y o k : o < 4 -> quad_ry_gate o = Some k ->
  match k with None => o = 0 | Some k => forall b, get_quad_ry (Some (EStd k b)) = Some o end.
Proof.
  intros Ho. assert (E : o = 0 \/ o = 1 \/ o = 2 \/ o = 3) by lia.
  destruct E as [->|[->|[->| ->]]]; intros H; try discriminate; injection H as <-; try reflexivity; intros; reflexivity.
Qed.
(** a leftover phase of the X and Y families is zero or at least pi / 4 *)
Definition coarse (p : R) : Prop := (p = 0 \/ PI / 4 <= p)%R.
Lemma quad_phase q : coarse (IZR (Z.of_N q) * PI / 2 / 2).
Proof.
  destruct (N.eq_dec q 0) as [->|Hq]; [left; simpl; lra|]. right. assert (1 <= IZR (Z.of_N q))%R by (apply IZR_le; lia). pose proof PI_RGT_0. nra.
Qed.
Lemma rx_std k b a g : rx_view (Some (EStd k b)) = Some (a, g) -> coarse g /\ mat_eq 2 (std1_textbook k) (rot (pauli1 1) g a).
Proof.
  unfold rx_view. destruct (get_quad_rx (Some (EStd k b))) as [o|] eqn:Eo.
  - cbv zeta. intros [= <- <-]. split; [apply quad_phase|]. eapply mat_eq_trans; [apply (quad_std_x k b o Eo)|]. apply rot_ext; lra.
  - destruct k; try discriminate; intros [= <- <-]. split; [now left|]. intros i j _ _. unfold rot, std1_textbook. rewrite Cexpi_0. ring.
Qed.
Lemma ry_std k b a g : ry_view (Some (EStd k b)) = Some (a, g) -> coarse g /\ mat_eq 2 (std1_textbook k) (rot (pauli1 2) g a).
Proof.
  unfold ry_view. destruct (get_quad_ry (Some (EStd k b))) as [o|] eqn:Eo.
  - cbv zeta. intros [= <- <-]. split; [apply quad_phase|]. eapply mat_eq_trans; [apply (quad_std_y k b o Eo)|]. apply rot_ext; lra.
  - destruct k; try discriminate; intros [= <- <-]. split; [now left|]. intros i j _ _. unfold rot, std1_textbook. rewrite Cexpi_0. ring.
Qed.
Lemma eps_pos : (0 < eps)%R.
Proof. unfold eps. apply Rinv_0_lt_compat. apply pow_lt. lra. Qed.
Lemma eps_small : (eps < PI / 4)%R.
Proof.
  pose proof PI2_3_2. unfold eps. apply Rlt_trans with (/ 10)%R; [|lra]. apply Rinv_lt_contravar.
  - apply Rmult_lt_0_compat; [lra|]. apply pow_lt. lra.
  - replace 10%R with (10 ^ 1)%R at 1 by lra. apply Rlt_pow; [lra|lia].
Qed.
Lemma snap_bound p : (Rabs (p - snap p) < eps)%R.
Proof.
  unfold snap. destruct (Rlt_dec (Rabs p) eps); [now rewrite Rminus_0_r|]. rewrite Rminus_diag_eq by reflexivity. rewrite Rabs_R0. apply eps_pos.
Qed.
Lemma snap_coarse p q : coarse p -> coarse q -> (p + q - snap (p + q) = 0)%R.
Proof.
  intros Hp Hq. unfold snap. destruct (Rlt_dec (Rabs (p + q)) eps) as [H|H]; [|lra]. pose proof eps_small. pose proof PI_RGT_0.
  destruct Hp as [->|Hp], Hq as [->|Hq]; [lra| | |]; rewrite Rabs_right in H by lra; lra.
Qed.
Lemma snap_0 : snap 0 = 0%R.
Proof. unfold snap. destruct (Rlt_dec (Rabs 0) eps); reflexivity. Qed.
