(** Derivatives of complex functions; rotations and their generators. *)
From Verif Require Export GradientSpec CircuitProofs10 OperatorProofs2.
From Coq Require Import FunctionalExtensionality.

(** * Derivatives *)
Lemma dl_eq f v d d' : derivable_pt_lim f v d -> d = d' -> derivable_pt_lim f v d'.
Proof. now intros H <-. Qed.
Lemma dl_ext f g v d : (forall t, f t = g t) -> derivable_pt_lim f v d -> derivable_pt_lim g v d.
Proof. intros E H eps He. destruct (H eps He) as [del Hd]. exists del. intros h Hh Hl. rewrite <- !E. now apply Hd. Qed.
Lemma cd_eq f v d d' : cderivative f v d -> d = d' -> cderivative f v d'.
Proof. now intros H <-. Qed.
Lemma cd_ext f g v d : (forall t, f t = g t) -> cderivative f v d -> cderivative g v d.
Proof. intros E [H1 H2]. split; (eapply dl_ext; [|eassumption]; intros t; cbn beta; now rewrite E). Qed.
Lemma cd_const c v : cderivative (fun _ => c) v C0.
Proof. split; apply derivable_pt_lim_const. Qed.
Lemma cd_add f g v d e : cderivative f v d -> cderivative g v e -> cderivative (fun t => (f t + g t)%C) v (d + e)%C.
Proof. intros [H1 H2] [H3 H4]. split; apply derivable_pt_lim_plus; assumption. Qed.
Lemma cd_mul f g v d e : cderivative f v d -> cderivative g v e -> cderivative (fun t => (f t * g t)%C) v (d * g v + f v * e)%C.
Proof.
  intros [H1 H2] [H3 H4]. split; cbn [fst snd Cadd Cmul].
  - eapply dl_eq; [apply derivable_pt_lim_minus; apply derivable_pt_lim_mult; eassumption|]. simpl. ring.
  - eapply dl_eq; [apply derivable_pt_lim_plus; apply derivable_pt_lim_mult; eassumption|]. simpl. ring.
Qed.
Lemma cd_conj f v d : cderivative f v d -> cderivative (fun t => Cconj (f t)) v (Cconj d).
Proof. intros [H1 H2]. split; [exact H1|]. cbn [snd Cconj]. now apply derivable_pt_lim_opp. Qed.
Lemma cd_real f v d : derivable_pt_lim f v d -> cderivative (fun t => RtoC (f t)) v (RtoC d).
Proof. intros H. split; [exact H|apply derivable_pt_lim_const]. Qed.
Lemma cd_cmul c f v d : cderivative f v d -> cderivative (fun t => (c * f t)%C) v (c * d)%C.
Proof. intros H. eapply cd_eq; [apply (cd_mul (fun _ => c)); [apply cd_const|exact H]|]. ring. Qed.
Lemma cd_suml {T} (f : R -> T -> C) (d : T -> C) l v : (forall x, In x l -> cderivative (fun t => f t x) v (d x)) ->
  cderivative (fun t => Csuml (f t) l) v (Csuml d l).
Proof.
  induction l as [|x l IH]; intros H; [apply (cd_const C0)|]. simpl. apply (cd_add (fun t => f t x)); [apply H; now left|]. apply IH. intros y Hy. apply H. now right.
Qed.
Lemma cd_sum n (f : R -> N -> C) (d : N -> C) v : (forall x, x < n -> cderivative (fun t => f t x) v (d x)) ->
  cderivative (fun t => Csum n (f t)) v (Csum n d).
Proof. intros H. apply (cd_suml f d). intros x Hx. apply H. now apply in_seqN. Qed.
(** a function whose every amplitude is differentiable *)
Definition vderivative (f : R -> state) (v : R) (d : state) : Prop := forall x, cderivative (fun t => f t x) v (d x).
Lemma vd_apply_mat ts cs M f v d : vderivative f v d -> vderivative (fun t => apply_mat ts cs M (f t)) v (apply_mat ts cs M d).
Proof.
  intros H x. unfold apply_mat. destruct (ctrl_ok cs x); [|apply H]. apply (cd_sum _ (fun t j => _) (fun j => _)). intros j _. apply cd_cmul, H.
Qed.
Lemma vd_pauli p f v d : vderivative f v d -> vderivative (fun t => pauli_act p (f t)) v (pauli_act p d).
Proof. apply vd_apply_mat. Qed.
Lemma vd_op o f v d : vderivative f v d -> vderivative (fun t => op_act o (f t)) v (op_act o d).
Proof. intros H x. unfold op_act, terms_act. apply (cd_suml (fun t p => _) (fun p => _)). intros p _. now apply vd_pauli. Qed.
Lemma cd_inner n f g v d e : vderivative f v d -> vderivative g v e ->
  cderivative (fun t => inner n (f t) (g t)) v (inner n d (g v) + inner n (f v) e)%C.
Proof.
  intros Hf Hg. unfold inner. eapply cd_eq.
  - apply (cd_sum _ (fun t i => _) (fun i => (Cconj (d i) * g v i + Cconj (f v i) * e i)%C)). intros x _.
    apply (cd_mul (fun t => Cconj (f t x)) (fun t => g t x)); [apply cd_conj, Hf|apply Hg].
  - apply Csum_add.
Qed.

(** * Rotations *)
Definition generator (k : pcall) : pauli :=
  match k with
  | PCallRot RotX t _ _ _ => Pauli C1 (2 ^ t) 0
  | PCallRot RotY t _ _ _ => Pauli C1 (2 ^ t) (2 ^ t)
  | PCallRot RotZ t _ _ _ => Pauli C1 0 (2 ^ t)
  | PCallPauliRotation p _ _ _ => Pauli C1 (p_bf p) (p_pf p)
  end.
Definition gen (k : pcall) : state -> state := pauli_act (generator k).
Definition plain_turn (k : pcall) : Prop :=
  match k with
  | PCallRot _ _ _ cs _ => cs = []
  | PCallPauliRotation p _ cs _ => cs = [] /\ snd (p_coef p) = 0%R
  end.
Lemma apply_mat_rot ts (a b : C) (P : matrix) psi x : NoDup ts ->
  apply_mat ts [] (fun i j => (a * mat_id i j - Ci * b * P i j)%C) psi x = (a * psi x - Ci * b * apply_mat ts [] P psi x)%C.
Proof.
  intros Hnd. unfold apply_mat. cbn [ctrl_ok forallb]. set (d := 2 ^ _).
  transitivity (Csum d (fun j => (a * (mat_id (gather ts x) j * psi (scatter ts j x)))%C) + Csum d (fun j => (- (Ci * b) * (P (gather ts x) j * psi (scatter ts j x)))%C))%C.
  { rewrite <- Csum_add. apply Csum_ext. intros; ring. }
  rewrite !Csum_mul_l. rewrite (Csum_single d (fun j => (mat_id (gather ts x) j * psi (scatter ts j x))%C) (gather ts x)).
  - unfold mat_id. rewrite N.eqb_refl, scatter_gather by assumption. ring.
  - apply gather_lt.
  - intros j _ Hj. unfold mat_id. destruct (N.eqb_spec (gather ts x) j); [congruence|ring].
Qed.
Lemma bits_pow2' t : bits (N.lor (2 ^ t) 0) = [t] /\ bits (N.lor 0 (2 ^ t)) = [t] /\ bits (N.lor (2 ^ t) (2 ^ t)) = [t].
Proof. rewrite N.lor_0_r, N.lor_0_l, N.lor_diag, bits_pow2. auto. Qed.
Lemma apply_mat_mat_ext ts M M' psi x : mat_eq (2 ^ N.of_nat (length ts)) M M' -> apply_mat ts [] M psi x = apply_mat ts [] M' psi x.
Proof. intros H. unfold apply_mat. cbn [ctrl_ok forallb]. apply Csum_ext. intros j Hj. rewrite H; [reflexivity|apply gather_lt|assumption]. Qed.

Lemma gen_square k psi x : gen k (gen k psi) x = psi x.
Proof.
  assert (H : forall bf pf, pauli_act (Pauli C1 bf pf) (pauli_act (Pauli C1 bf pf) psi) x = psi x).
  { intros bf pf. rewrite !pauli_act_eq. cbn [p_coef p_bf p_pf]. rewrite N.lxor_assoc, N.lxor_nilpotent, N.lxor_0_r.
    pose proof (pauli_phase_sq bf pf x) as H. transitivity (pauli_phase bf pf x * pauli_phase bf pf (N.lxor x bf) * psi x)%C; [ring|]. rewrite H. ring. }
  unfold gen. destruct k as [[]|]; apply H.
Qed.
Lemma generator_coef k : p_coef (generator k) = C1.
Proof. destruct k as [[]|]; reflexivity. Qed.
Lemma gen_eq k psi x : gen k psi x = (pauli_phase (p_bf (generator k)) (p_pf (generator k)) x * psi (N.lxor x (p_bf (generator k))))%C.
Proof. unfold gen. rewrite pauli_act_eq, generator_coef. ring. Qed.
Lemma gen_lin k (a b : C) psi phi x : gen k (fun y => (a * psi y + b * phi y)%C) x = (a * gen k psi x + b * gen k phi x)%C.
Proof. rewrite !gen_eq. ring. Qed.
Lemma Ccos_real h : Ccos (h, 0%R) = RtoC (cos h).
Proof. unfold Ccos. simpl. c_eq; rewrite ?cosh_0, ?sinh_0; lra. Qed.
Lemma Csin_real h : Csin (h, 0%R) = RtoC (sin h).
Proof. unfold Csin. simpl. c_eq; rewrite ?cosh_0, ?sinh_0; lra. Qed.
(** exp(-i s v P / 2) = cos(s v / 2) - i sin(s v / 2) P *)
Lemma turn_eq k v psi x : plain_turn k ->
  call_act (pcall_at k v) psi x = (RtoC (cos (turn_scale k * v / 2)) * psi x - Ci * RtoC (sin (turn_scale k * v / 2)) * gen k psi x)%C.
Proof.
  intros Hp. destruct k as [k t pc cs vs|p pc cs vs]; cbn [plain_turn] in Hp.
  - subst cs. unfold call_act, gen, pauli_act. cbn [pcall_at call_targets call_controls call_matrix turn_scale].
    assert (Hnd : NoDup [t]) by (constructor; [intros []|constructor]).
    destruct (bits_pow2' t) as (B1 & B2 & B3).
    assert (Hg : forall P id, (forall i j, P i j = pauli1 id i j) -> forall T, (forall i j, i < 2 -> j < 2 -> T i j = pauli1 id i j) ->
      apply_mat [t] [] (fun i j => (RtoC (cos (pc * v / 2)) * mat_id i j - Ci * RtoC (sin (pc * v / 2)) * P i j)%C) psi x =
      (RtoC (cos (pc * v / 2)) * psi x - Ci * RtoC (sin (pc * v / 2)) * apply_mat [t] [] (fun i j => C1 * T i j)%C psi x)%C).
    { intros P id HP T HT. rewrite apply_mat_rot by assumption. rewrite (apply_mat_mat_ext [t] P (fun i j => C1 * T i j)%C); [reflexivity|]. intros i j Hi Hj. rewrite HP, HT by assumption. ring. }
    assert (Hw : with_values ([] : list N) vs = []) by (unfold with_values; destruct vs; reflexivity).
    destruct k; cbn [rot_std std1_textbook generator p_bf p_pf p_coef]; rewrite ?B1, ?B2, ?B3, Hw; refine (Hg _ _ (fun i j => eq_refl) _ _); intros i j Hi Hj;
      cbn [map tensor]; unfold pauli_id_of; rewrite ?N.pow2_bits_true, ?N.bits_0.
    all: (assert (Ei : i = 0 \/ i = 1) by lia; assert (Ej : j = 0 \/ j = 1) by lia; destruct Ei as [-> | ->], Ej as [-> | ->]; cbn; c_eq; lra).
  - destruct Hp as [-> Hr]. unfold call_act, gen, pauli_act. cbn [pcall_at call_targets call_controls call_matrix turn_scale generator p_bf p_pf p_coef].
    assert (Hw : with_values ([] : list N) vs = []) by (unfold with_values; destruct vs; reflexivity). rewrite Hw.
    unfold pauli_rotation_textbook. rewrite apply_mat_rot by apply bits_NoDup.
    assert (E : Cscale (pc * v / 2) (p_coef p) = ((pc * fst (p_coef p) * v / 2)%R, 0%R)).
    { unfold Cscale. rewrite Hr. f_equal; [field|ring]. }
    rewrite E, Ccos_real, Csin_real. erewrite apply_mat_mat_ext; [reflexivity|]. intros i j _ _. unfold pauli_textbook. ring.
Qed.
