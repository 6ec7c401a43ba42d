(** Rounding errors of complex arithmetic and of the coefficients. *)
From Verif Require Export FloatSpec FloatProofs.
From Coq Require Import Lra.
Open Scope R_scope.

Definition Cmod (z : C) : R := sqrt (Cnorm2 z).
Lemma Cmod_nonneg z : 0 <= Cmod z. Proof. apply sqrt_pos. Qed.
Lemma Cmod_sq z : Cmod z * Cmod z = Cnorm2 z. Proof. apply sqrt_sqrt, Cnorm2_nonneg. Qed.
Lemma Cmod_le z b : 0 <= b -> Cnorm2 z <= b * b -> Cmod z <= b.
Proof. intros Hb H. unfold Cmod. rewrite <- (sqrt_square b) by assumption. now apply sqrt_le_1_alt. Qed.
Lemma Cmod_mul x y : Cmod (x * y)%C = Cmod x * Cmod y.
Proof. unfold Cmod. rewrite Cnorm2_mul. apply sqrt_mult; apply Cnorm2_nonneg. Qed.
Lemma Cmod_opp x : Cmod (- x)%C = Cmod x.
Proof. unfold Cmod, Cnorm2. f_equal. cbn. ring. Qed.
Lemma Cmod_sub_comm x y : Cmod (x - y)%C = Cmod (y - x)%C.
Proof. unfold Cmod, Cnorm2. f_equal. cbn. ring. Qed.
Lemma le_of_sq x y : 0 <= y -> x * x <= y * y -> x <= y. Proof. intros. nra. Qed.
Lemma cauchy2 x y : Rabs (fst x) * Rabs (fst y) + Rabs (snd x) * Rabs (snd y) <= Cmod x * Cmod y.
Proof.
  pose proof (Cmod_nonneg x). pose proof (Cmod_nonneg y). apply le_of_sq; [nra|].
  replace (Cmod x * Cmod y * (Cmod x * Cmod y)) with (Cnorm2 x * Cnorm2 y) by (rewrite <- !Cmod_sq; ring).
  unfold Cnorm2. set (a := fst x). set (b := snd x). set (c := fst y). set (d := snd y).
  assert (E : forall r, r * r = Rabs r * Rabs r) by (intros r; rewrite <- Rabs_mult, Rabs_right; [reflexivity|nra]).
  rewrite (E a), (E b), (E c), (E d). generalize (Rabs a) (Rabs b) (Rabs c) (Rabs d). intros p q r s.
  pose proof (Rle_0_sqr (p * s - q * r)) as H1. unfold Rsqr in H1. nra.
Qed.
Lemma cauchy2' x y : Rabs (fst x) * Rabs (snd y) + Rabs (snd x) * Rabs (fst y) <= Cmod x * Cmod y.
Proof.
  pose proof (cauchy2 x (snd y, fst y)) as H. cbn in H. replace (Cmod (snd y, fst y)) with (Cmod y) in H; [exact H|].
  unfold Cmod, Cnorm2. f_equal. cbn. ring.
Qed.
Lemma Cmod_tri x y : Cmod (x + y)%C <= Cmod x + Cmod y.
Proof.
  pose proof (Cmod_nonneg x). pose proof (Cmod_nonneg y). apply Cmod_le; [lra|].
  replace ((Cmod x + Cmod y) * (Cmod x + Cmod y)) with (Cnorm2 x + Cnorm2 y + 2 * (Cmod x * Cmod y)) by (rewrite <- !Cmod_sq; ring).
  pose proof (cauchy2 x y) as H1. unfold Cnorm2. cbn.
  pose proof (Rle_abs (fst x * fst y)) as H2. pose proof (Rle_abs (snd x * snd y)) as H3. rewrite Rabs_mult in H2, H3. nra.
Qed.
Lemma Cmod_tri3 x y z : Cmod (x - z)%C <= Cmod (x - y)%C + Cmod (y - z)%C.
Proof. replace (x - z)%C with ((x - y) + (y - z))%C by ring. apply Cmod_tri. Qed.
Lemma Cmod_near x y e : Cmod (x - y)%C <= e -> Cmod x <= Cmod y + e.
Proof. intros H. replace x with ((x - y) + y)%C by ring. pose proof (Cmod_tri (x - y)%C y). lra. Qed.
Lemma Cmod_box z b : 0 <= b -> Rabs (fst z) <= b -> Rabs (snd z) <= b -> Cmod z <= 3 / 2 * b.
Proof.
  intros Hb H1 H2. apply Cmod_le; [lra|]. unfold Cnorm2. 
  assert (E : forall r, Rabs r <= b -> r * r <= b * b).
  { intros r Hr. replace (r * r) with (Rabs r * Rabs r) by (rewrite <- Rabs_mult; apply Rabs_right; nra). pose proof (Rabs_pos r). nra. }
  pose proof (E _ H1). pose proof (E _ H2). nra.
Qed.
Lemma Cmod_fst z : Rabs (fst z) <= Cmod z.
Proof. apply le_of_sq; [apply Cmod_nonneg|]. rewrite Cmod_sq, <- Rabs_mult, Rabs_right by nra. unfold Cnorm2. nra. Qed.
Lemma Cmod_snd z : Rabs (snd z) <= Cmod z.
Proof. apply le_of_sq; [apply Cmod_nonneg|]. rewrite Cmod_sq, <- Rabs_mult, Rabs_right by nra. unfold Cnorm2. nra. Qed.
Lemma Cmod_real r : Cmod (RtoC r) = Rabs r.
Proof. unfold Cmod, Cnorm2. cbn. rewrite <- sqrt_Rsqr_abs. f_equal. unfold Rsqr. ring. Qed.
Lemma Cmod_expi x : Cmod (Cexpi x) = 1.
Proof. unfold Cmod. now rewrite Cexpi_norm, sqrt_1. Qed.
Lemma Cmod_0 : Cmod C0 = 0.
Proof. change C0 with (RtoC 0). rewrite Cmod_real. apply Rabs_R0. Qed.
Lemma Cmod_1 : Cmod C1 = 1.
Proof. change C1 with (RtoC 1). rewrite Cmod_real. apply Rabs_R1. Qed.
Lemma Cmod_i : Cmod Ci = 1.
Proof. unfold Cmod, Cnorm2, Ci. cbn. replace (0 * 0 + 1 * 1)%R with 1 by ring. apply sqrt_1. Qed.
Lemma Cmod_one z : Cnorm2 z <= 1 -> Cmod z <= 1.
Proof. intros H. apply Cmod_le; lra. Qed.

Section Errors.
  Variables (u eta : R) (A : arith).
  Hypothesis HA : accurate u eta A.
  Notation rnd := (a_rnd A).
  Lemma u_range : 0 <= u <= / 256. Proof. exact (acc_u _ _ _ HA). Qed.
  Lemma eta_range : 0 <= eta <= u. Proof. exact (acc_eta _ _ _ HA). Qed.
  Lemma rnd_err x y e : Rabs (x - y) <= e -> Rabs (rnd x - y) <= e + u * (Rabs y + e) + eta.
  Proof.
    intros H. pose proof (acc_rnd _ _ _ HA x) as H1. pose proof u_range as Hu.
    assert (H2 : Rabs x <= Rabs y + e).
    { replace x with ((x - y) + y) by ring. pose proof (Rabs_triang (x - y) y). lra. }
    replace (rnd x - y) with ((rnd x - x) + (x - y)) by ring. pose proof (Rabs_triang (rnd x - x) (x - y)).
    assert (u * Rabs x <= u * (Rabs y + e)) by (apply Rmult_le_compat_l; lra). lra.
  Qed.

  Lemma two_products_err (plus : R -> R -> R) place x y z w :
    (forall p q p' q', Rabs (plus p q - plus p' q') <= Rabs (p - p') + Rabs (q - q')) ->
    (forall p q, Rabs (plus p q) <= Rabs p + Rabs q) ->
    Rabs (two_products A plus place x y z w - plus (x * y) (z * w)) <= 3 * u * (Rabs x * Rabs y + Rabs z * Rabs w) + 4 * eta.
  Proof.
    intros Hp Hq. pose proof u_range as Hu. pose proof eta_range as He.
    pose proof (acc_rnd _ _ _ HA (x * y)) as E1. pose proof (acc_rnd _ _ _ HA (z * w)) as E2. rewrite Rabs_mult in E1, E2.
    pose proof (Rabs_pos x). pose proof (Rabs_pos y). pose proof (Rabs_pos z). pose proof (Rabs_pos w).
    set (P := Rabs x * Rabs y) in *. set (Q := Rabs z * Rabs w) in *.
    assert (0 <= P) by (unfold P; nra). assert (0 <= Q) by (unfold Q; nra).
    assert (HPQ : Rabs (plus (x * y) (z * w)) <= P + Q).
    { eapply Rle_trans; [apply Hq|]. rewrite !Rabs_mult. fold P Q. lra. }
    assert (Hz : forall r, Rabs (r - r) = 0) by (intros r; rewrite Rminus_eq_0; apply Rabs_R0).
    assert (K : forall v, Rabs (v - plus (x * y) (z * w)) <= u * (P + Q) + 2 * eta ->
      Rabs (rnd v - plus (x * y) (z * w)) <= 3 * u * (P + Q) + 4 * eta).
    { intros v Hv. pose proof (rnd_err _ _ _ Hv) as Hr. set (T := P + Q) in *. assert (0 <= T) by (unfold T; lra).
      assert (u * Rabs (plus (x * y) (z * w)) <= u * T) by (apply Rmult_le_compat_l; lra).
      assert (0 <= u * T) by nra. assert (u * (u * T) <= / 256 * (u * T)) by (apply Rmult_le_compat_r; lra).
      assert (u * eta <= / 256 * eta) by (apply Rmult_le_compat_r; lra). lra. }
    unfold two_products. destruct (a_fuse A place x y z w); apply K;
      (eapply Rle_trans; [apply Hp|]); rewrite ?Hz; nra.
  Qed.
  Lemma plus_lip p q p' q' : Rabs (Rplus p q - Rplus p' q') <= Rabs (p - p') + Rabs (q - q').
  Proof. replace (p + q - (p' + q')) with ((p - p') + (q - q')) by ring. apply Rabs_triang. Qed.
  Lemma minus_lip p q p' q' : Rabs (Rminus p q - Rminus p' q') <= Rabs (p - p') + Rabs (q - q').
  Proof.
    replace (p - q - (p' - q')) with ((p - p') + - (q - q')) by ring. rewrite <- (Rabs_Ropp (q - q')). apply Rabs_triang.
  Qed.
  Lemma minus_abs p q : Rabs (Rminus p q) <= Rabs p + Rabs q.
  Proof. unfold Rminus. rewrite <- (Rabs_Ropp q). apply Rabs_triang. Qed.

  Lemma f_mul_err place x y : Cmod (f_mul A place x y - x * y)%C <= 5 * u * (Cmod x * Cmod y) + 6 * eta.
  Proof.
    pose proof u_range as Hu. pose proof eta_range as He. pose proof (Cmod_nonneg x). pose proof (Cmod_nonneg y).
    pose proof (cauchy2 x y) as K1. pose proof (cauchy2' x y) as K2. set (P := Cmod x * Cmod y) in *. assert (0 <= P) by (unfold P; nra).
    eapply Rle_trans; [apply (Cmod_box _ (3 * u * P + 4 * eta)); [nra| |]|nra].
    - eapply Rle_trans; [apply (two_products_err Rminus); [apply minus_lip|apply minus_abs]|]. nra.
    - eapply Rle_trans; [apply (two_products_err Rplus); [apply plus_lip|apply Rabs_triang]|]. nra.
  Qed.
  Lemma f_simd_mul_err place x y : Cmod (f_simd_mul A place x y - x * y)%C <= 5 * u * (Cmod x * Cmod y) + 6 * eta.
  Proof.
    pose proof u_range as Hu. pose proof eta_range as He. pose proof (Cmod_nonneg x). pose proof (Cmod_nonneg y).
    pose proof (cauchy2 x y) as K1. pose proof (cauchy2' x y) as K2. set (P := Cmod x * Cmod y) in *. assert (0 <= P) by (unfold P; nra).
    eapply Rle_trans; [apply (Cmod_box _ (3 * u * P + 4 * eta)); [nra| |]|nra].
    - replace (fst (f_simd_mul A place x y - x * y)%C) with
        (two_products A Rplus (2 * place) (fst x) (fst y) (snd x) (- snd y) - Rplus (fst x * fst y) (snd x * - snd y)) by (cbn; ring).
      eapply Rle_trans; [apply (two_products_err Rplus); [apply plus_lip|apply Rabs_triang]|]. rewrite Rabs_Ropp. nra.
    - eapply Rle_trans; [apply (two_products_err Rplus); [apply plus_lip|apply Rabs_triang]|]. nra.
  Qed.
  Lemma f_add_err x y z e : Cmod (x + y - z)%C <= e -> Cmod (f_add A x y - z)%C <= e + 3 / 2 * u * (Cmod z + e) + 2 * eta.
  Proof.
    intros H. pose proof u_range as Hu. pose proof eta_range as He. pose proof (Cmod_near _ _ _ H) as H1.
    assert (H2 : Cmod (f_add A x y - (x + y))%C <= 3 / 2 * (u * Cmod (x + y)%C + eta)).
    { pose proof (Cmod_fst (x + y)%C) as F. pose proof (Cmod_snd (x + y)%C) as S. pose proof (Cmod_nonneg (x + y)%C).
      apply Cmod_box; [nra| |]; (eapply Rle_trans; [apply (acc_rnd _ _ _ HA)|]);
        (apply Rplus_le_compat_r, Rmult_le_compat_l; [lra|assumption]). }
    pose proof (Cmod_tri3 (f_add A x y) (x + y)%C z).
    assert (u * Cmod (x + y)%C <= u * (Cmod z + e)) by (apply Rmult_le_compat_l; lra). lra.
  Qed.

  (** One product of a stored coefficient and an amplitude, in either form *)
  Definition multiplies (f : C -> C -> C) : Prop := forall x y, Cmod (f x y - x * y)%C <= 5 * u * (Cmod x * Cmod y) + 6 * eta.
  Lemma prod_err f x x' v : multiplies f -> Cmod x <= 1 -> Cmod (x' - x)%C <= 60 * u ->
    Cmod (f x' v - x * v)%C <= 67 * u * Cmod v + 6 * eta.
  Proof.
    intros Hf Hx H. pose proof u_range as Hu. pose proof eta_range as He. pose proof (Hf x' v) as H1. pose proof (Cmod_near _ _ _ H) as H2.
    pose proof (Cmod_tri3 (f x' v) (x' * v)%C (x * v)%C) as H3.
    assert (H4 : Cmod (x' * v - x * v)%C <= 60 * u * Cmod v).
    { replace (x' * v - x * v)%C with ((x' - x) * v)%C by ring. rewrite Cmod_mul. apply Rmult_le_compat_r; [apply Cmod_nonneg|assumption]. }
    pose proof (Cmod_nonneg v). pose proof (Cmod_nonneg x').
    assert (J5 : Cmod x' * Cmod v <= (1 + 60 * u) * Cmod v) by (apply Rmult_le_compat_r; lra).
    assert (J6 : 5 * u * (Cmod x' * Cmod v) <= 5 * u * ((1 + 60 * u) * Cmod v)) by (apply Rmult_le_compat_l; lra).
    assert (u * u <= u * / 256) by nra. assert (u * u * Cmod v <= u * / 256 * Cmod v) by (apply Rmult_le_compat_r; lra). nra.
  Qed.
  Lemma prod_err' f x x' v : multiplies f -> Cmod x <= 1 -> Cmod (x' - x)%C <= 60 * u ->
    Cmod (f v x' - x * v)%C <= 67 * u * Cmod v + 6 * eta.
  Proof.
    intros Hf Hx H. apply (prod_err (fun a b => f b a) x x' v); [|assumption|assumption].
    intros a b. replace (a * b)%C with (b * a)%C by ring. rewrite (Rmult_comm (Cmod a)). apply Hf.
  Qed.
  Lemma mul_multiplies place : multiplies (f_mul A place). Proof. intros x y. apply f_mul_err. Qed.
  Lemma simd_multiplies place : multiplies (f_simd_mul A place). Proof. intros x y. apply f_simd_mul_err. Qed.

  (** Adding one more term to a sum *)
  Lemma sum_step p p' x v k h b T : Cmod (p - T)%C <= k * u * b + h * eta -> Cmod T <= b -> 0 <= k <= 80 -> 0 <= h <= 80 ->
    Cmod (p' - x * v)%C <= 67 * u * Cmod v + 6 * eta -> Cmod x <= 1 -> 67 <= k ->
    Cmod (f_add A p p' - (T + x * v))%C <= (k + 2) * u * (b + Cmod v) + (h + 9) * eta /\ Cmod (T + x * v)%C <= b + Cmod v.
  Proof.
    intros H1 HT Hk Hh H2 Hx Hk'. pose proof u_range as Hu. pose proof eta_range as He. pose proof (Cmod_nonneg v). pose proof (Cmod_nonneg T).
    assert (HS : Cmod (T + x * v)%C <= b + Cmod v).
    { pose proof (Cmod_tri T (x * v)%C) as E. rewrite Cmod_mul in E. pose proof (Cmod_nonneg x). nra. }
    split; [|exact HS].
    assert (H3 : Cmod (p + p' - (T + x * v))%C <= k * u * (b + Cmod v) + (h + 6) * eta).
    { replace (p + p' - (T + x * v))%C with ((p - T) + (p' - x * v))%C by ring. pose proof (Cmod_tri (p - T)%C (p' - x * v)%C).
      assert (67 * u * Cmod v <= k * u * Cmod v) by (apply Rmult_le_compat_r; [lra|]; apply Rmult_le_compat_r; lra). nra. }
    eapply Rle_trans; [apply f_add_err; exact H3|].
    set (s := b + Cmod v) in *. assert (Hs : 0 <= s) by (unfold s; lra).
    assert (E1 : u * Cmod (T + x * v)%C <= u * s) by (apply Rmult_le_compat_l; lra).
    assert (E2 : u * (k * u * s) <= / 256 * (80 * u * s)).
    { apply Rmult_le_compat; [lra|apply Rmult_le_pos; [nra|lra]|lra|]. apply Rmult_le_compat_r; [lra|]. apply Rmult_le_compat_r; lra. }
    assert (E3 : u * ((h + 6) * eta) <= / 256 * (86 * eta)).
    { apply Rmult_le_compat; [lra|nra|lra|]. apply Rmult_le_compat_r; lra. }
    assert (0 <= u * s) by nra. lra.
  Qed.

  (** ** Coefficients *)
  Lemma lip f f' x y : (forall t, derivable_pt_lim f t (f' t)) -> (forall t, Rabs (f' t) <= 1) -> Rabs (f x - f y) <= Rabs (x - y).
  Proof.
    intros Hd Hb.
    assert (K : forall a b, a < b -> Rabs (f b - f a) <= Rabs (b - a)).
    { intros a b Hab. destruct (MVT_cor2 f f' a b Hab) as (t & E & _); [intros; apply Hd|]. rewrite E, Rabs_mult.
      rewrite <- (Rmult_1_l (Rabs (b - a))) at 2. apply Rmult_le_compat_r; [apply Rabs_pos|apply Hb]. }
    destruct (Rtotal_order x y) as [H|[-> |H]].
    - rewrite Rabs_minus_sym, (Rabs_minus_sym x). now apply K.
    - rewrite !Rminus_eq_0. apply Rle_refl.
    - now apply K.
  Qed.
  Lemma lip_cos x y : Rabs (cos x - cos y) <= Rabs (x - y).
  Proof.
    apply (lip cos (fun t => - sin t)); [apply derivable_pt_lim_cos|]. intros t. rewrite Rabs_Ropp. apply Rabs_le, SIN_bound.
  Qed.
  Lemma lip_sin x y : Rabs (sin x - sin y) <= Rabs (x - y).
  Proof. apply (lip sin cos); [apply derivable_pt_lim_sin|]. intros t. apply Rabs_le, COS_bound. Qed.
End Errors.
