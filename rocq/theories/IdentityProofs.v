From Verif Require Export IdentitySpec.
From Verif Require Import Spec GatesProofs GatesProofs2 GatesProofs5 GatesProofs8 GatesProofs9.
Require Import Lia Lra.
Local Open Scope N_scope.

(** * Products of 2x2 matrices *)
Definition product (l : list std1) : matrix :=
  match l with [] => mat_id | k :: r => fold_left (fun A k => mat_mul 2 (std1_textbook k) A) r (std1_textbook k) end.
Lemma mul2 A B i j : mat_mul 2 A B i j = (A i 0 * B 0 j + A i 1 * B 1 j)%C.
Proof. unfold mat_mul. rewrite Csum_2. reflexivity. Qed.
Lemma half_sum a b : (cos ((a + b) / 2) = cos (a / 2) * cos (b / 2) - sin (a / 2) * sin (b / 2) /\
  sin ((a + b) / 2) = sin (a / 2) * cos (b / 2) + cos (a / 2) * sin (b / 2))%R.
Proof. replace ((a + b) / 2)%R with (a / 2 + b / 2)%R by field. split; [apply cos_plus|apply sin_plus]. Qed.
Lemma half_neg a : (cos (- a / 2) = cos (a / 2) /\ sin (- a / 2) = - sin (a / 2))%R.
Proof. replace (- a / 2)%R with (- (a / 2))%R by field. split; [apply cos_neg|apply sin_neg]. Qed.
Lemma products l l' : alike l l' -> mat_eq 2 (product l) (product l').
Proof.
  pose proof isqrt2_sq as S2.
  assert (Z0 : (0 / 2 = 0)%R) by field. assert (Q : (PI / 2 / 2 = PI / 4)%R) by field. assert (Q2 : (- (PI / 2) + PI / 2 = 0)%R) by field.
  set (s := INVERSE_SQRT2) in *.
  assert (S4 : (s * (s * (s * s)) = / 4)%R) by (rewrite <- (Rmult_assoc s s (s * s)), S2; field).
  intros H. destruct H; mat2_cases; unfold product; cbn [fold_left]; rewrite ?mul2; unfold std1_textbook, mat2, isq2, pauli1, mat_id;
    change (0 =? 0) with true; change (1 =? 1) with true; change (0 =? 1) with false; change (1 =? 0) with false; cbn [andb]; cbv iota; rewrite ?inv_sqrt2; fold s; apply C_eq; unfold Cexpi; Cunfold; cbn [fst snd].
  all: rewrite ?Q, ?Q2, ?Rplus_0_l, ?Z0, ?cos_neg, ?sin_neg, ?cos_PI4', ?sin_PI4', ?cos_PI2, ?sin_PI2, ?cos_PI, ?sin_PI, ?cos_0, ?sin_0; fold s.
  all: rewrite ?(fun a b => proj1 (half_sum a b)), ?(fun a b => proj2 (half_sum a b)), ?(fun a => proj1 (half_neg a)), ?(fun a => proj2 (half_neg a)), ?cos_plus, ?sin_plus.
  all: try ring.
  all: ring_simplify [S2]; lra.
Qed.
