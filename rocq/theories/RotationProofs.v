(** Products of Pauli rotations and the evolution under the sum. *)
From Verif Require Export RotationSpec GradientProofs GroundProofs2.
From Coq Require Import Lia Lra Psatz FunctionalExtensionality.
Open Scope N_scope.

(** ** Lengths *)
Lemma vnorm_ext n a b : (forall x, x < 2 ^ n -> a x = b x) -> vnorm n a = vnorm n b.
Proof. intros H. unfold vnorm. f_equal. now apply sqnorm_ext. Qed.
Lemma vnorm_nonneg n a : (0 <= vnorm n a)%R. Proof. apply sqrt_pos. Qed.
Lemma vnorm_sq n a : (vnorm n a * vnorm n a = sqnorm n a)%R. Proof. apply sqrt_sqrt, sqnorm_nonneg. Qed.
Lemma re_inner_le n a b : (Rabs (Re (inner n a b)) <= vnorm n a * vnorm n b)%R.
Proof.
  pose proof (cauchy n a b) as H. pose proof (vnorm_nonneg n a). pose proof (vnorm_nonneg n b).
  assert (Hr : (Re (inner n a b) * Re (inner n a b) <= Cnorm2 (inner n a b))%R) by (unfold Cnorm2, Re; nra).
  rewrite <- (vnorm_sq n a), <- (vnorm_sq n b) in H.
  rewrite <- (Rabs_pos_eq (vnorm n a * vnorm n b)) by (apply Rmult_le_pos; assumption). apply Rsqr_le_abs_0. unfold Rsqr. nra.
Qed.
Lemma sqnorm_add n a b : sqnorm n (fun x => a x + b x)%C = (sqnorm n a + 2 * Re (inner n a b) + sqnorm n b)%R.
Proof.
  pose proof (quad_add n same a b 1%R linear_same (self_adjoint_same n)) as H. rewrite !quad_same in H. unfold same in H. rewrite (sqnorm_ext n (fun x => a x + b x)%C (fun x => a x + RtoC 1 * b x)%C) by (intros; c_eq; ring). rewrite H. ring.
Qed.
Lemma vnorm_add n a b : (vnorm n (fun x => a x + b x)%C <= vnorm n a + vnorm n b)%R.
Proof.
  pose proof (vnorm_nonneg n a). pose proof (vnorm_nonneg n b). unfold vnorm at 1. rewrite <- (sqrt_square (vnorm n a + vnorm n b)) by lra. apply sqrt_le_1_alt.
  rewrite sqnorm_add, <- (vnorm_sq n a), <- (vnorm_sq n b). pose proof (re_inner_le n a b) as H1. pose proof (Rle_abs (Re (inner n a b))). nra.
Qed.
Lemma vnorm_scale n c a : vnorm n (fun x => c * a x)%C = (sqrt (Cnorm2 c) * vnorm n a)%R.
Proof. unfold vnorm. rewrite sqnorm_scale. apply sqrt_mult; [apply Cnorm2_nonneg|apply sqnorm_nonneg]. Qed.
Lemma vnorm_real n r a : vnorm n (fun x => RtoC r * a x)%C = (Rabs r * vnorm n a)%R.
Proof. rewrite vnorm_scale. f_equal. unfold Cnorm2, RtoC. cbn. rewrite <- sqrt_Rsqr_abs. f_equal. unfold Rsqr. ring. Qed.
Lemma vnorm_i n a : vnorm n (fun x => Ci * a x)%C = vnorm n a.
Proof. rewrite vnorm_scale. replace (Cnorm2 Ci) with 1%R by (unfold Cnorm2, Ci; cbn; ring). rewrite sqrt_1. ring. Qed.
Lemma vnorm_zero n : vnorm n (fun _ => C0) = 0%R.
Proof. rewrite (vnorm_ext n _ (fun x => RtoC 0 * C0)%C) by (intros; c_eq; ring). rewrite vnorm_real, Rabs_R0. ring. Qed.
Lemma vnorm_suml {T} n (f : T -> state) l : (vnorm n (fun x => Csuml (fun j => f j x) l) <= Rsuml (fun j => vnorm n (f j)) l)%R.
Proof.
  induction l as [|j l IH]; [unfold Csuml, Rsuml; cbn; rewrite vnorm_zero; lra|]. unfold Csuml, Rsuml in *. cbn [map fold_right].
  eapply Rle_trans; [apply vnorm_add|]. lra.
Qed.
Lemma vnorm_0_eq n a : vnorm n a = 0%R -> forall x, x < 2 ^ n -> a x = C0.
Proof. intros H x Hx. assert (E : sqnorm n a = 0%R) by (rewrite <- vnorm_sq, H; ring). apply Cnorm2_zero. eapply (Rsuml_zero (fun x => Cnorm2 (a x)) (seqN (2 ^ n))); [intros; apply Cnorm2_nonneg|exact E|now apply in_seqN]. Qed.

(** ** Pauli strings without coefficient *)
Definition string_act (p : pauli) : state -> state := pauli_act (Pauli C1 (p_bf p) (p_pf p)).
Lemma string_eq p u x : string_act p u x = (pauli_phase (p_bf p) (p_pf p) x * u (N.lxor x (p_bf p)))%C.
Proof. unfold string_act. rewrite pauli_act_eq. cbn [p_coef p_bf p_pf]. ring. Qed.
Lemma string_lin p (a b : C) u v x : string_act p (fun y => a * u y + b * v y)%C x = (a * string_act p u x + b * string_act p v x)%C.
Proof. rewrite !string_eq. ring. Qed.
Lemma string_ext p u v x : (forall y, u y = v y) -> string_act p u x = string_act p v x.
Proof. intros H. now rewrite !string_eq, H. Qed.
Lemma string_local n p u v : p_bf p < 2 ^ n -> (forall x, x < 2 ^ n -> u x = v x) -> forall x, x < 2 ^ n -> string_act p u x = string_act p v x.
Proof. intros Hp H x Hx. rewrite !string_eq, H; [reflexivity|]. now apply lxor_lt_pow2. Qed.
Lemma string_sq p u x : string_act p (string_act p u) x = u x.
Proof.
  rewrite !string_eq, N.lxor_assoc, N.lxor_nilpotent, N.lxor_0_r. pose proof (pauli_phase_sq (p_bf p) (p_pf p) x) as H.
  transitivity (pauli_phase (p_bf p) (p_pf p) x * pauli_phase (p_bf p) (p_pf p) (N.lxor x (p_bf p)) * u x)%C; [ring|]. rewrite H. ring.
Qed.
Lemma string_sa n p : pauli_fits n p -> self_adjoint n (string_act p).
Proof.
  intros Hf. assert (H : self_adjoint n (op_act (Op [Pauli C1 (p_bf p) (p_pf p)] true false))) by (apply real_coefs_sa; [constructor; [exact Hf|constructor]|constructor; [reflexivity|constructor]]).
  intros a b. assert (E : forall v x, op_act (Op [Pauli C1 (p_bf p) (p_pf p)] true false) v x = string_act p v x) by (intros v x; unfold op_act, terms_act, Csuml; cbn [o_terms map fold_right]; unfold string_act; ring).
  specialize (H a b). rewrite (inner_ext n a (op_act _ b) a (string_act p b)) in H by (intros; auto).
  rewrite (inner_ext n (op_act _ a) b (string_act p a) b) in H by (intros; auto). exact H.
Qed.
Lemma string_norm n p u : pauli_fits n p -> vnorm n (string_act p u) = vnorm n u.
Proof.
  intros Hf. unfold vnorm. f_equal. enough (E : RtoC (sqnorm n (string_act p u)) = RtoC (sqnorm n u)) by (now injection E).
  rewrite <- !inner_self, <- (string_sa n p Hf). apply inner_ext; [reflexivity|]. intros x _. apply string_sq.
Qed.
Lemma pauli_string p u x : pauli_act p u x = (p_coef p * string_act p u x)%C.
Proof. rewrite pauli_act_eq, string_eq. ring. Qed.
Lemma land_xor_sign a b c : pauli_sign (N.land (N.lxor a b) c) = (pauli_sign (N.land a c) * pauli_sign (N.land b c))%C.
Proof. rewrite <- pauli_sign_mul. f_equal. apply land_lxor_distr. Qed.
Lemma strings_swap p q u x : string_act p (string_act q u) x = ((if anticommute p q then - C1 else C1) * string_act q (string_act p u) x)%C.
Proof.
  rewrite !string_eq. rewrite (N.lxor_assoc x (p_bf p)), (N.lxor_assoc x (p_bf q)), (N.lxor_comm (p_bf q) (p_bf p)). set (v := u _).
  unfold pauli_phase. rewrite !land_xor_sign. unfold anticommute, pauli_sign. rewrite (N.land_comm (p_pf p) (p_bf q)).
  destruct (parity (N.land (p_bf p) (p_pf q))), (parity (N.land (p_bf q) (p_pf p))); cbn [xorb]; ring.
Qed.
Lemma strings_commute p q : anticommute p q = false -> commute p q.
Proof.
  intros H u x. rewrite !pauli_string. rewrite (string_ext p (pauli_act q u) (fun y => p_coef q * string_act q u y + C0 * C0)%C), (string_ext q (pauli_act p u) (fun y => p_coef p * string_act p u y + C0 * C0)%C) by (intros; rewrite pauli_string; ring).
  rewrite !(string_lin _ _ _ _ (fun _ => C0)). rewrite (strings_swap p q), H. ring.
Qed.

(** ** One rotation *)
Definition turn (ap : R * pauli) (t : R) (u : state) : state := fun x =>
  (RtoC (cos (fst ap * t)) * u x + (- Ci * RtoC (sin (fst ap * t))) * string_act (snd ap) u x)%C.
Lemma turn_lin ap t (a b : C) u v x : turn ap t (fun y => a * u y + b * v y)%C x = (a * turn ap t u x + b * turn ap t v x)%C.
Proof. unfold turn. rewrite string_lin. ring. Qed.
Lemma turn_ext ap t u v x : (forall y, u y = v y) -> turn ap t u x = turn ap t v x.
Proof. intros H. unfold turn. now rewrite H, (string_ext _ u v). Qed.
Lemma turn_local n ap t u v : p_bf (snd ap) < 2 ^ n -> (forall x, x < 2 ^ n -> u x = v x) -> forall x, x < 2 ^ n -> turn ap t u x = turn ap t v x.
Proof. intros Hp H x Hx. unfold turn. rewrite (string_local n _ u v Hp H x Hx), H by assumption. reflexivity. Qed.
Lemma turn_norm n ap t u : pauli_fits n (snd ap) -> vnorm n (turn ap t u) = vnorm n u.
Proof.
  intros Hf. unfold vnorm. f_equal. unfold turn. set (c := cos (fst ap * t)). set (s := sin (fst ap * t)).
  rewrite sqnorm_add, !sqnorm_scale. assert (Hn : sqnorm n (string_act (snd ap) u) = sqnorm n u) by (rewrite <- (vnorm_sq n u), <- (string_norm n (snd ap) u Hf); symmetry; apply vnorm_sq). rewrite Hn.
  assert (Hz : Re (inner n (fun x => RtoC c * u x)%C (fun x => - Ci * RtoC s * string_act (snd ap) u x)%C) = 0%R).
  { unfold inner. rewrite (Csum_ext _ _ (fun x => (RtoC c * (- Ci * RtoC s)) * (Cconj (u x) * string_act (snd ap) u x))%C) by (intros; c_eq; cbn; ring).
    rewrite Csum_mul_l. fold (inner n u (string_act (snd ap) u)). rewrite (quad_real n _ u (string_sa n _ Hf)). unfold Re, RtoC, Ci. cbn. ring. }
  rewrite Hz. replace (Cnorm2 (RtoC c)) with (c * c)%R by (unfold Cnorm2, RtoC; cbn; ring). replace (Cnorm2 (- Ci * RtoC s)%C) with (s * s)%R by (unfold Cnorm2, RtoC, Ci; cbn; ring).
  pose proof (sin2_cos2 (fst ap * t)) as H. unfold Rsqr in H. fold c s in H. transitivity ((s * s + c * c) * sqnorm n u)%R; [ring|]. rewrite H. ring.
Qed.
