(** How far a product of rotations is from the evolution under the sum. *)
From Verif Require Export RotationProofs.
From Coq Require Import Lia Lra Psatz FunctionalExtensionality.
Open Scope N_scope.

Definition terms := list (R * pauli).
(** the last rotation first *)
Fixpoint turns (L : terms) (t : R) (u : state) : state :=
  match L with [] => u | ap :: r => turn ap t (turns r t u) end.
Definition ham (L : terms) (u : state) : state := fun x => Csuml (fun ap => RtoC (fst ap) * string_act (snd ap) u x)%C L.
Fixpoint rest (L : terms) (t : R) (u : state) : state :=
  match L with
  | [] => fun _ => C0
  | ap :: r => fun x => (- RtoC (sin (fst ap * t)) * (string_act (snd ap) (ham r (turns r t u)) x - ham r (string_act (snd ap) (turns r t u)) x)
                         + turn ap t (rest r t u) x)%C
  end.
Lemma ham_cons ap L u x : ham (ap :: L) u x = (RtoC (fst ap) * string_act (snd ap) u x + ham L u x)%C.
Proof. reflexivity. Qed.
Lemma ham_lin L (a b : C) u v x : ham L (fun y => a * u y + b * v y)%C x = (a * ham L u x + b * ham L v x)%C.
Proof.
  induction L as [|ap L IH]; [unfold ham, Csuml; cbn [map fold_right]; ring|]. rewrite !ham_cons, IH, string_lin. ring.
Qed.
Lemma ham_ext L u v x : (forall y, u y = v y) -> ham L u x = ham L v x.
Proof. intros H. replace v with u by (now apply functional_extensionality). reflexivity. Qed.
Lemma ham_local n L u v : Forall (fun ap => pauli_fits n (snd ap)) L -> (forall x, x < 2 ^ n -> u x = v x) -> forall x, x < 2 ^ n -> ham L u x = ham L v x.
Proof.
  intros HL H x Hx. induction HL as [|ap L Hap HL IH]; [reflexivity|]. rewrite !ham_cons, IH. f_equal. f_equal. apply (string_local n); auto. apply Hap.
Qed.
Lemma ham_sa n L : Forall (fun ap => pauli_fits n (snd ap)) L -> self_adjoint n (ham L).
Proof.
  intros HL a b. induction HL as [|ap L Hap HL IH].
  - unfold ham, inner, Csuml. cbn [map fold_right]. apply Csum_ext. intros. c_eq; cbn; ring.
  - assert (E1 : inner n a (ham (ap :: L) b) = (RtoC (fst ap) * inner n a (string_act (snd ap) b) + inner n a (ham L b))%C).
    { unfold inner. rewrite <- Csum_mul_l, <- Csum_add. apply Csum_ext. intros x _. rewrite ham_cons. ring. }
    assert (E2 : inner n (ham (ap :: L) a) b = (RtoC (fst ap) * inner n (string_act (snd ap) a) b + inner n (ham L a) b)%C).
    { unfold inner. rewrite <- Csum_mul_l, <- Csum_add. apply Csum_ext. intros x _. rewrite ham_cons. set (p := string_act (snd ap) a x). set (h := ham L a x). c_eq; cbn; ring. }
    rewrite E1, E2, (string_sa n _ Hap), IH. reflexivity.
Qed.
(** ** The derivative *)
Lemma vd_turn ap f v d : vderivative f v d -> vderivative (fun t => turn ap t (f t)) v (fun x => (- Ci * RtoC (fst ap) * string_act (snd ap) (turn ap v (f v)) x + turn ap v d x)%C).
Proof.
  intros H x. destruct ap as [a p]. cbn [fst snd]. unfold turn. cbn [fst snd].
  assert (Hc : cderivative (fun t => RtoC (cos (a * t))) v (RtoC (- a * sin (a * v)))).
  { apply cd_real. replace (- a * sin (a * v))%R with (- sin (a * v) * (a * 1))%R by ring. apply (derivable_pt_lim_comp (fun t => a * t)%R cos); [apply (derivable_pt_lim_scal (fun t => t)), derivable_pt_lim_id|apply derivable_pt_lim_cos]. }
  assert (Hs : cderivative (fun t => RtoC (sin (a * t))) v (RtoC (a * cos (a * v)))).
  { apply cd_real. replace (a * cos (a * v))%R with (cos (a * v) * (a * 1))%R by ring. apply (derivable_pt_lim_comp (fun t => a * t)%R sin); [apply (derivable_pt_lim_scal (fun t => t)), derivable_pt_lim_id|apply derivable_pt_lim_sin]. }
  assert (Hp : cderivative (fun t => string_act p (f t) x) v (string_act p d x)) by (apply vd_pauli; exact H).
  eapply cd_eq; [apply (cd_add (fun t => RtoC (cos (a * t)) * f t x)%C (fun t => - Ci * RtoC (sin (a * t)) * string_act p (f t) x)%C)|].
  - apply (cd_mul (fun t => RtoC (cos (a * t))) (fun t => f t x)); [exact Hc|apply H].
  - apply (cd_mul (fun t => - Ci * RtoC (sin (a * t)))%C (fun t => string_act p (f t) x)); [|exact Hp]. apply (cd_cmul _ (fun t => RtoC (sin (a * t)))). exact Hs.
  - cbv beta. rewrite string_lin, string_sq. set (X := f v x). set (Y := string_act p (f v) x). set (Z := string_act p d x). set (W := d x). set (c := cos (a * v)). set (s := sin (a * v)).
    c_eq; cbn; ring.
Qed.
Lemma vd_turns L u t : vderivative (fun t => turns L t u) t (fun x => (- Ci * ham L (turns L t u) x + rest L t u x)%C).
Proof.
  induction L as [|ap L IH].
  - intros x. cbn [turns rest]. eapply cd_eq; [apply cd_const|]. unfold ham, Csuml. cbn [map fold_right]. ring.
  - intros x. cbn [turns rest]. eapply cd_eq; [exact (vd_turn ap (fun t => turns L t u) t _ IH x)|]. cbv beta. rewrite ham_cons.
    set (v := turns L t u). set (r := rest L t u).
    assert (E : turn ap t (fun x => - Ci * ham L v x + r x)%C x = (- Ci * turn ap t (ham L v) x + turn ap t r x)%C).
    { rewrite (turn_ext ap t _ (fun y => - Ci * ham L v y + C1 * r y)%C) by (intros; ring). rewrite turn_lin. ring. }
    rewrite E. assert (E2 : turn ap t (ham L v) x = (ham L (turn ap t v) x + - Ci * RtoC (sin (fst ap * t)) * (string_act (snd ap) (ham L v) x - ham L (string_act (snd ap) v) x))%C).
    { unfold turn at 2. rewrite ham_lin. unfold turn. ring. }
    rewrite E2. set (A := string_act (snd ap) (turn ap t v) x). set (B := ham L (turn ap t v) x). set (G := (string_act (snd ap) (ham L v) x - ham L (string_act (snd ap) v) x)%C).
    assert (Hi : (Ci * Ci = - C1)%C) by (c_eq; cbn; ring). transitivity (- Ci * RtoC (fst ap) * A + - Ci * B + (Ci * Ci) * RtoC (sin (fst ap * t)) * G + turn ap t r x)%C; [ring|]. rewrite Hi. ring.
Qed.
(** ** The size of the rest *)
Definition clash (p : pauli) (L : terms) : R := Rsuml (fun bq => if anticommute p (snd bq) then Rabs (fst bq) else 0%R) L.
Fixpoint kappa (L : terms) : R := match L with [] => 0%R | ap :: r => (2 * Rabs (fst ap) * clash (snd ap) r + kappa r)%R end.
Lemma Rsuml_pos {T} (f : T -> R) l : (forall x, (0 <= f x)%R) -> (0 <= Rsuml f l)%R.
Proof. intros H. induction l as [|x l IH]; [unfold Rsuml; cbn; lra|]. unfold Rsuml in *. cbn [map fold_right]. specialize (H x). lra. Qed.
Lemma clash_nonneg p L : (0 <= clash p L)%R.
Proof. apply Rsuml_pos. intros [b q]. destruct (anticommute _ _); [apply Rabs_pos|lra]. Qed.
Lemma kappa_nonneg L : (0 <= kappa L)%R.
Proof. induction L as [|ap L IH]; cbn [kappa]; [lra|]. pose proof (clash_nonneg (snd ap) L). pose proof (Rabs_pos (fst ap)). nra. Qed.
Lemma sin_abs x : (Rabs (sin x) <= Rabs x)%R.
Proof.
  assert (H : forall y, (0 < y)%R -> (Rabs (sin y) <= y)%R).
  { intros y Hy. apply Rabs_le. split; [|left; now apply sin_lt_x]. destruct (Rle_dec y 1) as [Hy1|Hy1]; [|pose proof (SIN_bound y); lra].
    pose proof (sin_ge_0 y ltac:(lra)) as Hs. pose proof PI2_1. pose proof PI_RGT_0. assert (0 <= sin y)%R by (apply Hs; lra). lra. }
  destruct (Rtotal_order x 0) as [Hx|[->|Hx]].
  - rewrite (Rabs_left x Hx), <- Rabs_Ropp, <- sin_neg. apply H. lra.
  - rewrite sin_0, Rabs_R0. lra.
  - rewrite (Rabs_right x) by lra. now apply H.
Qed.
Lemma turns_norm n L t u : Forall (fun ap => pauli_fits n (snd ap)) L -> vnorm n (turns L t u) = vnorm n u.
Proof. intros HL. induction HL as [|ap L Hap HL IH]; [reflexivity|]. cbn [turns]. now rewrite turn_norm. Qed.
Lemma string_sub p u v x : string_act p (fun y => u y - v y)%C x = (string_act p u x - string_act p v x)%C.
Proof. rewrite !string_eq. ring. Qed.
Lemma swap_norm n p L v : pauli_fits n p -> Forall (fun ap => pauli_fits n (snd ap)) L ->
  (vnorm n (fun x => string_act p (ham L v) x - ham L (string_act p v) x)%C <= 2 * clash p L * vnorm n v)%R.
Proof.
  intros Hp HL. induction HL as [|[b q] L Hq HL IH].
  - rewrite (vnorm_ext n _ (fun _ => C0)). { rewrite vnorm_zero. unfold clash, Rsuml. cbn. lra. }
    intros x _. rewrite string_eq. unfold ham, Csuml. cbn [map fold_right]. ring.
  - cbn [snd] in Hq. set (w := fun x => (string_act p (ham L v) x - ham L (string_act p v) x)%C) in *.
    set (c := if anticommute p q then (2 * b)%R else 0%R).
    rewrite (vnorm_ext n _ (fun x => RtoC c * string_act p (string_act q v) x + w x)%C).
    + eapply Rle_trans; [apply (vnorm_add n (fun x => RtoC c * string_act p (string_act q v) x)%C w)|]. rewrite vnorm_real, !string_norm by assumption.
      replace (clash p ((b, q) :: L)) with ((if anticommute p q then Rabs b else 0) + clash p L)%R by reflexivity.
      subst c. destruct (anticommute p q); [rewrite Rabs_mult, (Rabs_right 2) by lra|rewrite Rabs_R0]; lra.
    + intros x _. subst w. cbv beta. rewrite ham_cons. rewrite (string_ext p (ham ((b, q) :: L) v) (fun y => RtoC b * string_act q v y + C1 * ham L v y)%C) by (intros; rewrite ham_cons; cbn [fst snd]; ring).
      rewrite string_lin. cbn [fst snd]. rewrite (strings_swap q p v x). replace (anticommute q p) with (anticommute p q).
      2:{ unfold anticommute. rewrite (N.land_comm (p_bf q)), (N.land_comm (p_pf q)). apply Bool.xorb_comm. }
      subst c. destruct (anticommute p q); set (A := string_act p (string_act q v) x); set (B := string_act p (ham L v) x); set (G := ham L (string_act p v) x); c_eq; cbn; ring.
Qed.
Lemma rest_norm n L t u : Forall (fun ap => pauli_fits n (snd ap)) L -> (vnorm n (rest L t u) <= kappa L * Rabs t * vnorm n u)%R.
Proof.
  intros HL. induction HL as [|ap L Hap HL IH]; [cbn [rest kappa]; rewrite vnorm_zero; lra|]. cbn [rest kappa].
  set (v := turns L t u). set (w := fun x => (string_act (snd ap) (ham L v) x - ham L (string_act (snd ap) v) x)%C).
  rewrite (vnorm_ext n _ (fun x => RtoC (- sin (fst ap * t)) * w x + turn ap t (rest L t u) x)%C) by (intros; subst w; cbv beta; f_equal; f_equal; c_eq; cbn; ring).
  eapply Rle_trans; [apply (vnorm_add n (fun x => RtoC (- sin (fst ap * t)) * w x)%C)|]. rewrite vnorm_real, turn_norm, Rabs_Ropp by assumption.
  pose proof (swap_norm n (snd ap) L v Hap HL) as Hw. fold w in Hw. unfold v in Hw. rewrite turns_norm in Hw by assumption. pose proof (sin_abs (fst ap * t)) as Hs. rewrite Rabs_mult in Hs.
  pose proof (Rabs_pos (sin (fst ap * t))). pose proof (Rabs_pos (fst ap)). pose proof (Rabs_pos t). pose proof (vnorm_nonneg n w). pose proof (vnorm_nonneg n u). pose proof (clash_nonneg (snd ap) L).
  assert (Rabs (sin (fst ap * t)) * vnorm n w <= (Rabs (fst ap) * Rabs t) * (2 * clash (snd ap) L * vnorm n u))%R by (apply Rmult_le_compat; assumption).
  lra.
Qed.
(** ** Integrating *)
Lemma grow_by (N dN G g : R -> R) : (forall t, (0 <= t <= 1)%R -> derivable_pt_lim N t (dN t)) -> (forall t, (0 <= N t)%R) ->
  (forall t, (0 <= t <= 1)%R -> derivable_pt_lim G t (g t)) -> (forall t, (0 <= t <= 1)%R -> (0 <= g t)%R) ->
  (forall t, (0 <= t <= 1)%R -> (dN t <= 2 * (sqrt (N t) * g t))%R) -> (sqrt (N 1%R) <= sqrt (N 0%R) + (G 1 - G 0))%R.
Proof.
  intros Hd Hn HG Hg Hb.
  assert (Hm : forall e, (0 < e)%R -> (sqrt (N 1%R) <= sqrt (N 0%R) + sqrt e + (G 1 - G 0))%R).
  { intros e He. set (M := fun t => (sqrt (N t + e) - G t)%R). set (dM := fun t => (/ (2 * sqrt (N t + e)) * (dN t + 0) - g t)%R).
    destruct (MVT_cor2 M dM 0 1 ltac:(lra)) as (c & Ec & Hc).
    { intros t Ht. unfold M, dM. apply (derivable_pt_lim_minus (fun t => sqrt (N t + e)) G); [|now apply HG].
      apply (derivable_pt_lim_comp (fun t => N t + e)%R sqrt).
      - apply (derivable_pt_lim_plus N (fun _ => e)); [now apply Hd|apply derivable_pt_lim_const].
      - apply derivable_pt_lim_sqrt. specialize (Hn t). lra. }
    assert (Hdm : (dM c <= 0)%R).
    { unfold dM. specialize (Hn c). specialize (Hb c ltac:(lra)). specialize (Hg c ltac:(lra)). set (r := sqrt (N c + e)) in *. assert (Hr : (0 < r)%R) by (apply sqrt_lt_R0; lra).
      assert (Hsr : (sqrt (N c) <= r)%R) by (apply sqrt_le_1_alt; lra). apply (Rmult_le_reg_l (2 * r)); [lra|].
      replace (2 * r * (/ (2 * r) * (dN c + 0) - g c))%R with (dN c - 2 * (r * g c))%R by (field; lra).
      assert (sqrt (N c) * g c <= r * g c)%R by (apply Rmult_le_compat_r; assumption). lra. }
    unfold M in Ec. assert (Hs1 : (sqrt (N 1%R) <= sqrt (N 1%R + e))%R) by (apply sqrt_le_1_alt; lra).
    assert (Hs0 : (sqrt (N 0%R + e) <= sqrt (N 0%R) + sqrt e)%R).
    { pose proof (sqrt_pos (N 0%R)). pose proof (sqrt_pos e). rewrite <- (sqrt_square (sqrt (N 0%R) + sqrt e)) by lra. apply sqrt_le_1_alt. pose proof (sqrt_sqrt (N 0%R) (Hn _)). pose proof (sqrt_sqrt e ltac:(lra)). nra. }
    lra. }
  apply Rnot_lt_le. intros Hlt. set (d := (sqrt (N 1%R) - (sqrt (N 0%R) + (G 1 - G 0)))%R). assert (Hpos : (0 < d)%R) by (unfold d; lra).
  specialize (Hm ((d / 2) * (d / 2))%R ltac:(nra)). rewrite sqrt_square in Hm by lra. unfold d in *. lra.
Qed.
Lemma grow (N dN : R -> R) k : (0 <= k)%R -> (forall t, (0 <= t <= 1)%R -> derivable_pt_lim N t (dN t)) -> (forall t, (0 <= N t)%R) ->
  (forall t, (0 <= t <= 1)%R -> (dN t <= 2 * (sqrt (N t) * (k * t)))%R) -> (sqrt (N 1%R) <= sqrt (N 0%R) + k / 2)%R.
Proof.
  intros Hk Hd Hn Hb. pose proof (grow_by N dN (fun t => k / 2 * (t * t))%R (fun t => k * t)%R Hd Hn) as H. cbv beta in H.
  replace (k / 2)%R with (k / 2 * (1 * 1) - k / 2 * (0 * 0))%R by field. apply H; [| |exact Hb].
  - intros t _. replace (k * t)%R with (k / 2 * (1 * t + t * 1))%R by field. apply (derivable_pt_lim_scal (fun t => t * t)%R). apply (derivable_pt_lim_mult (fun t => t) (fun t => t)); apply derivable_pt_lim_id.
  - intros t Ht. apply Rmult_le_pos; lra.
Qed.
Lemma cd_sqnorm n f v d : (forall x, x < 2 ^ n -> cderivative (fun t => f t x) v (d x)) -> derivable_pt_lim (fun t => sqnorm n (f t)) v (2 * Re (inner n (f v) d))%R.
Proof.
  intros H. set (f' := fun t x => if x <? 2 ^ n then f t x else C0). set (d' := fun x => if x <? 2 ^ n then d x else C0).
  assert (Hv : vderivative f' v d').
  { intros x. unfold f', d'. destruct (N.ltb_spec x (2 ^ n)); [now apply H|apply cd_const]. }
  pose proof (cd_inner n f' f' v d' d' Hv Hv) as [Hd _]. cbn [fst] in Hd.
  assert (Ef : forall t, fst (inner n (f' t) (f' t)) = sqnorm n (f t)).
  { intros t. rewrite inner_self. cbn [fst RtoC]. apply sqnorm_ext. intros x Hx. unfold f'. now apply N.ltb_lt in Hx as ->. }
  rewrite (inner_ext n d' (f' v) d (f v)) in Hd by (intros x Hx; unfold d', f'; now apply N.ltb_lt in Hx as ->).
  rewrite (inner_ext n (f' v) d' (f v) d) in Hd by (intros x Hx; unfold d', f'; now apply N.ltb_lt in Hx as ->).
  assert (Eq : fst (inner n d (f v) + inner n (f v) d)%C = (2 * Re (inner n (f v) d))%R).
  { rewrite (inner_conj n d (f v)). unfold Re. cbn. ring. }
  rewrite Eq in Hd. intros eps He. destruct (Hd eps He) as [dl Hdl]. exists dl. intros h Hh1 Hh2. specialize (Hdl h Hh1 Hh2). cbv beta in Hdl. now rewrite !Ef in Hdl.
Qed.
(** The rotations of one repetition, against a solution of  F' = - i H F *)
Lemma one_round n L u (F : R -> state) s : Forall (fun ap => pauli_fits n (snd ap)) L ->
  (forall t x, x < 2 ^ n -> cderivative (fun t => F t x) t (- Ci * ham L (F t) x)%C) ->
  (distance n (turns L 1 u) (F (s + 1)%R) <= distance n u (F s) + kappa L * vnorm n u / 2)%R.
Proof.
  intros HL HF. set (D := fun t x => (turns L t u x - F (s + t)%R x)%C).
  assert (H0 : forall t u v x, turn (t, u) 0 v x = v x) by (intros; unfold turn; cbn [fst snd]; rewrite Rmult_0_r, cos_0, sin_0; c_eq; cbn; ring).
  assert (H0' : forall x, turns L 0 u x = u x).
  { clear - H0. induction L as [|[a p] L IH]; [reflexivity|]. intros x. cbn [turns]. now rewrite H0, IH. }
  assert (HD : forall t x, x < 2 ^ n -> cderivative (fun t => D t x) t (- Ci * ham L (D t) x + rest L t u x)%C).
  { intros t x Hx. unfold D. eapply cd_eq.
    - apply (cd_ext (fun t => turns L t u x + - C1 * F (s + t)%R x)%C); [intros; ring|]. apply (cd_add (fun t => turns L t u x) (fun t => - C1 * F (s + t)%R x)%C); [apply vd_turns|].
      apply (cd_cmul _ (fun t => F (s + t)%R x)). instantiate (1 := (- Ci * ham L (F (s + t)%R) x)%C). destruct (HF (s + t)%R x Hx) as [G1 G2].
      split; [clear G2|clear G1; rename G2 into G1]; (match goal with |- derivable_pt_lim _ _ ?d => replace d with (d * (0 + 1))%R by ring end); refine (derivable_pt_lim_comp (fun t => s + t)%R _ _ _ _ _ G1); apply (derivable_pt_lim_plus (fun _ => s) (fun t => t)); try apply derivable_pt_lim_const; apply derivable_pt_lim_id.
    - rewrite (ham_ext L (fun x => turns L t u x - F (s + t)%R x)%C (fun y => C1 * turns L t u y + - C1 * F (s + t)%R y)%C) by (intros; ring). rewrite ham_lin. ring. }
  assert (Hr : forall t, Re (inner n (D t) (fun x => - Ci * ham L (D t) x + rest L t u x)%C) = Re (inner n (D t) (rest L t u))).
  { intros t. assert (E : inner n (D t) (fun x => - Ci * ham L (D t) x + rest L t u x)%C = (- Ci * inner n (D t) (ham L (D t)) + inner n (D t) (rest L t u))%C) by (unfold inner; rewrite <- Csum_mul_l, <- Csum_add; apply Csum_ext; intros; ring).
    rewrite E, (quad_real n _ (D t) (ham_sa n L HL)). unfold Re, Ci, RtoC. cbn. ring. }
  pose proof (grow (fun t => sqnorm n (D t)) (fun t => 2 * Re (inner n (D t) (fun x => - Ci * ham L (D t) x + rest L t u x)%C))%R (kappa L * vnorm n u)) as Hg.
  cbv beta in Hg. unfold distance. rewrite (vnorm_ext n (fun x => u x - F s x)%C (D 0%R)) by (intros x _; unfold D; now rewrite H0', Rplus_0_r).
  replace (kappa L * vnorm n u / 2)%R with ((kappa L * vnorm n u) / 2)%R by reflexivity. apply Hg; clear Hg.
  - apply Rmult_le_pos; [apply kappa_nonneg|apply vnorm_nonneg].
  - intros t _. apply (cd_sqnorm n D). intros x Hx. now apply HD.
  - intros t. apply sqnorm_nonneg.
  - intros t Ht. rewrite Hr. fold (vnorm n (D t)). pose proof (re_inner_le n (D t) (rest L t u)) as H1. pose proof (Rle_abs (Re (inner n (D t) (rest L t u)))). pose proof (rest_norm n L t u HL) as H2. rewrite (Rabs_right t) in H2 by lra.
    pose proof (vnorm_nonneg n (D t)). assert (vnorm n (D t) * vnorm n (rest L t u) <= vnorm n (D t) * (kappa L * vnorm n u * t))%R by (apply Rmult_le_compat_l; [assumption|]; lra). lra.
Qed.
Fixpoint rounds (L : terms) (k : nat) (u : state) : state := match k with O => u | S k => turns L 1 (rounds L k u) end.
Lemma rounds_norm n L k u : Forall (fun ap => pauli_fits n (snd ap)) L -> vnorm n (rounds L k u) = vnorm n u.
Proof. intros HL. induction k as [|k IH]; [reflexivity|]. cbn [rounds]. now rewrite turns_norm. Qed.
Lemma all_rounds n L u (F : R -> state) k : Forall (fun ap => pauli_fits n (snd ap)) L ->
  (forall x, x < 2 ^ n -> F 0%R x = u x) -> (forall t x, x < 2 ^ n -> cderivative (fun t => F t x) t (- Ci * ham L (F t) x)%C) ->
  (distance n (rounds L k u) (F (INR k)) <= INR k * (kappa L * vnorm n u / 2))%R.
Proof.
  intros HL H0 HF. induction k as [|k IH].
  - cbn [rounds INR]. unfold distance. rewrite (vnorm_ext n _ (fun _ => C0)) by (intros x Hx; rewrite H0 by assumption; ring). rewrite vnorm_zero. lra.
  - cbn [rounds]. rewrite S_INR. pose proof (one_round n L (rounds L k u) F (INR k) HL HF) as H. rewrite rounds_norm in H by assumption. lra.
Qed.
