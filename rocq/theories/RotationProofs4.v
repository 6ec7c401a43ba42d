(** The evolution exists and is unique. *)
From Verif Require Export RotationProofs3.
From Coquelicot Require Import Rbar Lub Lim_seq Hierarchy Series Derive PSeries.
From Coq Require Import Lia Lra Psatz FunctionalExtensionality.
Open Scope N_scope.

(** ** Exponential series *)
Definition tame (a : nat -> R) : Prop := exists M B, (0 < M)%R /\ (0 < B)%R /\ forall k, (Rabs (a k) <= M * B ^ k)%R.
Definition over_fact (a : nat -> R) (k : nat) : R := (a k / INR (fact k))%R.
Definition es (a : nat -> R) (t : R) : R := PSeries (over_fact a) t.
Lemma tame_radius a : tame a -> CV_radius (over_fact a) = p_infty.
Proof.
  intros (M & B & HM & HB & H). set (b := fun k => (M * B ^ k / INR (fact k))%R).
  assert (Hb : CV_radius b = p_infty).
  { apply CV_radius_infinite_DAlembert.
    - intros k. unfold b. apply Rmult_integral_contrapositive_currified; [apply Rmult_integral_contrapositive_currified; [lra|apply pow_nonzero; lra]|]. apply Rinv_neq_0_compat, INR_fact_neq_0.
    - apply (is_lim_seq_ext (fun k => B * / INR (S k))%R).
      + intros k. unfold b. assert (Hf : (INR (fact k) > 0)%R) by (apply INR_fact_lt_0). assert (Hs : (0 < INR (S k))%R) by (apply lt_0_INR; lia). assert (Hp : (0 < B ^ k)%R) by (now apply pow_lt).
        replace (fact (S k)) with (S k * fact k)%nat by reflexivity. rewrite mult_INR. cbn [pow]. replace (M * (B * B ^ k) / (INR (S k) * INR (fact k)) / (M * B ^ k / INR (fact k)))%R with (B * / INR (S k))%R by (field; repeat split; lra).
        symmetry. apply Rabs_right. apply Rle_ge, Rmult_le_pos; [lra|]. left. now apply Rinv_0_lt_compat.
      + replace (Finite 0) with (Rbar_mult B (Finite 0)) by (cbn; f_equal; ring). apply is_lim_seq_scal_l. apply (is_lim_seq_ext (fun k => / (INR k + 1))%R); [intros k; now rewrite S_INR|].
        apply (is_lim_seq_inv _ p_infty); [|discriminate]. eapply is_lim_seq_plus; [apply is_lim_seq_INR|apply is_lim_seq_const|reflexivity]. }
  assert (Hdisk : forall r, CV_disk (over_fact a) r).
  { intros r. apply (@ex_series_le R_AbsRing R_CompleteNormedModule (fun k => Rabs (over_fact a k * r ^ k)) (fun k => Rabs (b k * r ^ k))); [|apply CV_disk_inside; rewrite Hb; exact I].
    intros k. change (norm (Rabs (over_fact a k * r ^ k))) with (Rabs (Rabs (over_fact a k * r ^ k))). rewrite Rabs_Rabsolu, !Rabs_mult. apply Rmult_le_compat_r; [apply Rabs_pos|].
    unfold over_fact, b. unfold Rdiv. rewrite !Rabs_mult. apply Rmult_le_compat_r; [apply Rabs_pos|]. rewrite <- Rabs_mult, (Rabs_right (M * B ^ k)); [apply H|]. apply Rle_ge, Rmult_le_pos; [lra|]. left. now apply pow_lt. }
  destruct (Lub_Rbar_correct (CV_disk (over_fact a))) as [Hub _]. fold (CV_radius (over_fact a)) in Hub. destruct (CV_radius (over_fact a)) as [r| |]; [|reflexivity|destruct (Hub 0%R (Hdisk 0%R))].
  exfalso. specialize (Hub (r + 1)%R (Hdisk _)). cbn in Hub. lra.
Qed.
Lemma tame_ex a t : tame a -> ex_pseries (over_fact a) t.
Proof. intros H. apply CV_radius_inside. rewrite (tame_radius a H). exact I. Qed.
Lemma es_plus a b t : tame a -> tame b -> es (fun k => a k + b k)%R t = (es a t + es b t)%R.
Proof.
  intros Ha Hb. unfold es. rewrite <- PSeries_plus by (now apply tame_ex). apply PSeries_ext. intros k. unfold PS_plus, over_fact. cbn. unfold plus. cbn. field. apply INR_fact_neq_0.
Qed.
Lemma es_scal c a t : es (fun k => c * a k)%R t = (c * es a t)%R.
Proof. unfold es. rewrite <- PSeries_scal. apply PSeries_ext. intros k. unfold PS_scal, over_fact. unfold scal. cbn. unfold mult. cbn. field. apply INR_fact_neq_0. Qed.
Lemma es_ext a b t : (forall k, a k = b k) -> es a t = es b t.
Proof. intros H. unfold es. apply PSeries_ext. intros k. unfold over_fact. now rewrite H. Qed.
Lemma es_derive a t : tame a -> derivable_pt_lim (es a) t (es (fun k => a (S k)) t).
Proof.
  intros H. apply is_derive_Reals. unfold es. rewrite (PSeries_ext (over_fact (fun k => a (S k))) (PS_derive (over_fact a))).
  - apply is_derive_PSeries. rewrite (tame_radius a H). exact I.
  - intros k. unfold PS_derive, over_fact. replace (fact (S k)) with (S k * fact k)%nat by reflexivity. rewrite mult_INR. field. split; [apply INR_fact_neq_0|]. apply not_0_INR. lia.
Qed.
Lemma es_0 a : es a 0 = a O.
Proof. unfold es. rewrite PSeries_0. unfold over_fact. cbn. field. Qed.
Lemma tame_plus a b : tame a -> tame b -> tame (fun k => a k + b k)%R.
Proof.
  intros (M & B & HM & HB & Ha) (M' & B' & HM' & HB' & Hb). exists (M + M')%R, (Rmax B B'). split; [lra|]. split; [eapply Rlt_le_trans; [exact HB|apply Rmax_l]|].
  intros k. eapply Rle_trans; [apply Rabs_triang|]. specialize (Ha k). specialize (Hb k). assert (B ^ k <= Rmax B B' ^ k)%R by (apply pow_incr; split; [lra|apply Rmax_l]). assert (B' ^ k <= Rmax B B' ^ k)%R by (apply pow_incr; split; [lra|apply Rmax_r]). nra.
Qed.
Lemma tame_scal c a : tame a -> tame (fun k => c * a k)%R.
Proof.
  intros (M & B & HM & HB & Ha). exists ((Rabs c + 1) * M)%R, B. pose proof (Rabs_pos c). split; [nra|]. split; [exact HB|]. intros k. rewrite Rabs_mult. specialize (Ha k). pose proof (Rabs_pos (a k)).
  assert (0 < B ^ k)%R by (now apply pow_lt). apply Rle_trans with ((Rabs c + 1) * Rabs (a k))%R; [nra|]. rewrite Rmult_assoc. apply Rmult_le_compat_l; lra.
Qed.
(** ** The same for complex numbers *)
Definition ctame (a : nat -> C) : Prop := tame (fun k => fst (a k)) /\ tame (fun k => snd (a k)).
Definition ces (a : nat -> C) (t : R) : C := (es (fun k => fst (a k)) t, es (fun k => snd (a k)) t).
Lemma tame_ext a b : (forall k, a k = b k) -> tame a -> tame b.
Proof. intros H (M & B & HM & HB & Ha). exists M, B. repeat split; try assumption. intros k. rewrite <- H. apply Ha. Qed.
Lemma tame_zero : tame (fun _ => 0%R).
Proof. exists 1%R, 1%R. repeat split; try lra. intros k. rewrite Rabs_R0, pow1. lra. Qed.
Lemma ces_add a b t : ctame a -> ctame b -> ces (fun k => a k + b k)%C t = (ces a t + ces b t)%C.
Proof. intros [H1 H2] [H3 H4]. unfold ces. cbn [fst snd Cadd]. rewrite !es_plus by assumption. reflexivity. Qed.
Lemma ctame_add a b : ctame a -> ctame b -> ctame (fun k => a k + b k)%C.
Proof. intros [H1 H2] [H3 H4]. split; cbn [fst snd Cadd]; now apply tame_plus. Qed.
Lemma ctame_mul c a : ctame a -> ctame (fun k => c * a k)%C.
Proof.
  intros [H1 H2]. split; cbn [fst snd Cmul].
  - apply (tame_ext (fun k => fst c * fst (a k) + (- snd c) * snd (a k))%R); [intros; ring|]. apply tame_plus; now apply tame_scal.
  - apply (tame_ext (fun k => fst c * snd (a k) + snd c * fst (a k))%R); [intros; ring|]. apply tame_plus; now apply tame_scal.
Qed.
Lemma ces_mul c a t : ctame a -> ces (fun k => c * a k)%C t = (c * ces a t)%C.
Proof.
  intros [H1 H2]. unfold ces. cbn [fst snd Cmul].
  rewrite (es_ext (fun k => fst c * fst (a k) - snd c * snd (a k))%R (fun k => fst c * fst (a k) + (- snd c) * snd (a k))%R) by (intros; ring).
  rewrite !es_plus by (now apply tame_scal). rewrite !es_scal. c_eq; cbn; ring.
Qed.
Lemma ces_suml {T} (f : T -> nat -> C) l t : Forall (fun x => ctame (f x)) l -> ces (fun k => Csuml (fun x => f x k) l) t = Csuml (fun x => ces (f x) t) l /\ ctame (fun k => Csuml (fun x => f x k) l).
Proof.
  intros H. induction H as [|x l Hx H [IH1 IH2]].
  - unfold Csuml. cbn [map fold_right]. split; [|split; exact tame_zero]. unfold ces. cbn [fst snd C0]. assert (E : es (fun _ => 0%R) t = 0%R) by (rewrite (es_ext _ (fun k => 0 * 0)%R) by (intros; ring); rewrite es_scal; ring). change (fst C0) with 0%R. change (snd C0) with 0%R. now rewrite E.
  - change (fun k => Csuml (fun y => f y k) (x :: l)) with (fun k => f x k + Csuml (fun y => f y k) l)%C. split; [|now apply ctame_add]. rewrite (ces_add (f x)) by assumption. now rewrite IH1.
Qed.
Lemma ces_derive a t : ctame a -> cderivative (ces a) t (ces (fun k => a (S k)) t).
Proof. intros [H1 H2]. split; [exact (es_derive _ t H1)|exact (es_derive _ t H2)]. Qed.
(** ** Existence *)
Definition n1 (z : C) : R := (Rabs (fst z) + Rabs (snd z))%R.
Lemma n1_nonneg z : (0 <= n1 z)%R. Proof. unfold n1. pose proof (Rabs_pos (fst z)). pose proof (Rabs_pos (snd z)). lra. Qed.
Lemma n1_add a b : (n1 (a + b)%C <= n1 a + n1 b)%R.
Proof. unfold n1. cbn. pose proof (Rabs_triang (fst a) (fst b)). pose proof (Rabs_triang (snd a) (snd b)). lra. Qed.
Lemma n1_mul a b : (n1 (a * b)%C <= n1 a * n1 b)%R.
Proof.
  unfold n1. cbn. pose proof (Rabs_triang (fst a * fst b) (- (snd a * snd b))) as H1. pose proof (Rabs_triang (fst a * snd b) (snd a * fst b)) as H2. rewrite Rabs_Ropp in H1. unfold Rminus.
  rewrite !Rabs_mult in H1. rewrite !Rabs_mult in H2. lra.
Qed.
Lemma n1_suml {T} (f : T -> C) l : (n1 (Csuml f l) <= Rsuml (fun x => n1 (f x)) l)%R.
Proof.
  induction l as [|x l IH]; [unfold n1, Csuml, Rsuml; cbn; rewrite Rabs_R0; lra|]. rewrite Rsuml_cons. change (Csuml f (x :: l)) with (f x + Csuml f l)%C. pose proof (n1_add (f x) (Csuml f l)). lra.
Qed.
Definition step (o : operator) (u : state) : state := fun x => Cscale (- / 2) (Ci * op_act o u x)%C.
Definition growth (o : operator) : R := (Rsuml (fun p => 2 * n1 (p_coef p)) (o_terms o) + 1)%R.
Lemma n1_phase bf pf x : (n1 (pauli_phase bf pf x) <= 2)%R.
Proof.
  pose proof (pauli_phase_unit bf pf x) as Hu. revert Hu. destruct (pauli_phase bf pf x) as [a b]. intros Hu. injection Hu as Hu _. cbn in Hu. unfold n1. cbn.
  assert (Ha : (Rabs a <= 1)%R) by (apply Rabs_le; nra). assert (Hb : (Rabs b <= 1)%R) by (apply Rabs_le; nra). lra.
Qed.
Lemma step_bound n o u M : op_fits n o -> (0 <= M)%R -> (forall x, x < 2 ^ n -> (n1 (u x) <= M)%R) -> forall x, x < 2 ^ n -> (n1 (step o u x) <= growth o * M)%R.
Proof.
  intros Hf HM Hu x Hx. unfold step.
  assert (Ho : (n1 (op_act o u x) <= Rsuml (fun p => 2 * n1 (p_coef p) * M)%R (o_terms o))%R).
  { unfold op_act, terms_act. eapply Rle_trans; [apply n1_suml|]. unfold op_fits in Hf. induction Hf as [|p ts Hp Hf IH]; [unfold Rsuml; cbn; lra|]. rewrite !Rsuml_cons. apply Rplus_le_compat; [|exact IH].
    rewrite pauli_act_eq. eapply Rle_trans; [apply n1_mul|]. pose proof (n1_mul (p_coef p) (pauli_phase (p_bf p) (p_pf p) x)). pose proof (n1_phase (p_bf p) (p_pf p) x). pose proof (n1_nonneg (p_coef p)).
    pose proof (n1_nonneg (p_coef p * pauli_phase (p_bf p) (p_pf p) x)%C). pose proof (Hu (N.lxor x (p_bf p)) (lxor_lt_pow2 _ _ _ Hx (proj1 Hp))). pose proof (n1_nonneg (u (N.lxor x (p_bf p)))).
    apply Rmult_le_compat; [assumption|assumption|nra|assumption]. }
  assert (Es : (Rsuml (fun p => 2 * n1 (p_coef p) * M) (o_terms o) = Rsuml (fun p => 2 * n1 (p_coef p)) (o_terms o) * M)%R).
  { rewrite Rmult_comm, <- Rsuml_scal. apply Rsuml_ext'. intros. ring. }
  rewrite Es in Ho. unfold growth. set (S := Rsuml _ _) in *. clearbody S. clear Es.
  assert (E : (n1 (Cscale (- / 2) (Ci * op_act o u x)) = / 2 * n1 (op_act o u x))%R).
  { unfold n1. destruct (op_act o u x) as [a b]. cbn. replace (- / 2 * (0 * a - 1 * b))%R with (/ 2 * b)%R by ring. replace (- / 2 * (0 * b + 1 * a))%R with (- (/ 2 * a))%R by ring. rewrite Rabs_Ropp, !Rabs_mult, (Rabs_right (/ 2)) by lra. lra. }
  rewrite E. pose proof (n1_nonneg (op_act o u x)). lra.
Qed.
Fixpoint powers (o : operator) (k : nat) (u : state) : state := match k with O => u | S k => step o (powers o k u) end.
Definition exp_state (o : operator) (u : state) (t : R) : state := fun x => ces (fun k => powers o k u x) t.
Lemma powers_tame n o u x : op_fits n o -> x < 2 ^ n -> ctame (fun k => powers o k u x).
Proof.
  intros Hf Hx. set (M := (Rsuml (fun y => n1 (u y)) (seqN (2 ^ n)) + 1)%R).
  assert (HM : (0 < M)%R) by (unfold M; pose proof (Rsuml_pos (fun y => n1 (u y)) (seqN (2 ^ n)) (fun y => n1_nonneg _)); lra).
  assert (HB : (0 < growth o)%R).
  { unfold growth. assert (0 <= Rsuml (fun p => 2 * n1 (p_coef p)) (o_terms o))%R by (apply Rsuml_pos; intros p; pose proof (n1_nonneg (p_coef p)); lra). lra. }
  assert (H : forall k y, y < 2 ^ n -> (n1 (powers o k u y) <= M * growth o ^ k)%R).
  { induction k as [|k IH]; intros y Hy; cbn [powers pow].
    - unfold M. assert (Hin : In y (seqN (2 ^ n))) by now apply in_seqN. clear - Hin. rewrite Rmult_1_r. induction (seqN (2 ^ n)) as [|z l IH]; [destruct Hin|]. rewrite Rsuml_cons.
      pose proof (Rsuml_pos (fun y => n1 (u y)) l (fun y => n1_nonneg _)). pose proof (n1_nonneg (u z)). destruct Hin as [->|Hin]; [lra|]. specialize (IH Hin). lra.
    - eapply Rle_trans; [apply (step_bound n o _ (M * growth o ^ k)%R Hf)|right; ring]; [|exact IH|exact Hy]. apply Rmult_le_pos; [lra|]. left. now apply pow_lt. }
  split; exists M, (growth o); (split; [exact HM|]); (split; [exact HB|]); intros k; specialize (H k x Hx); unfold n1 in H; pose proof (Rabs_pos (fst (powers o k u x))); pose proof (Rabs_pos (snd (powers o k u x))); lra.
Qed.
Theorem evolution_exists n o psi : op_fits n o -> exists E, evolution n o psi E.
Proof.
  intros Hf. exists (exp_state o psi). split.
  - intros x _. unfold exp_state, ces. rewrite !es_0. cbn [powers]. now destruct (psi x).
  - intros t x Hx. unfold exp_state. eapply cd_eq; [apply (ces_derive _ t (powers_tame n o psi x Hf Hx))|]. cbn [powers]. unfold step.
    assert (Ho : ces (fun k => op_act o (powers o k psi) x) t = op_act o (fun y => ces (fun k => powers o k psi y) t) x /\ ctame (fun k => op_act o (powers o k psi) x)).
    { unfold op_act, terms_act.
      assert (HT : Forall (fun p => ctame (fun k => pauli_act p (powers o k psi) x)) (o_terms o)).
      { eapply Forall_impl; [|exact Hf]. intros p Hp. replace (fun k => pauli_act p (powers o k psi) x) with (fun k => (p_coef p * pauli_phase (p_bf p) (p_pf p) x) * powers o k psi (N.lxor x (p_bf p)))%C by (apply functional_extensionality; intros k; now rewrite pauli_act_eq).
        apply ctame_mul, (powers_tame n); [exact Hf|]. apply lxor_lt_pow2; [exact Hx|apply Hp]. }
      destruct (ces_suml (fun p k => pauli_act p (powers o k psi) x) (o_terms o) t HT) as [E1 E2]. split; [|exact E2]. rewrite E1. clear E1 E2 HT. assert (Hi : incl (o_terms o) (o_terms o)) by apply incl_refl. revert Hi. generalize (o_terms o) at 1 3 4. intros ts Hi.
      induction ts as [|p ts IH]; [reflexivity|]. unfold Csuml in *. cbn [map fold_right]. rewrite IH by (eapply incl_tran; [|exact Hi]; now apply incl_tl, incl_refl). f_equal.
      rewrite pauli_act_eq. replace (fun k => pauli_act p (powers o k psi) x) with (fun k => (p_coef p * pauli_phase (p_bf p) (p_pf p) x) * powers o k psi (N.lxor x (p_bf p)))%C by (apply functional_extensionality; intros k; now rewrite pauli_act_eq).
      assert (Hp : pauli_fits n p) by (unfold op_fits in Hf; rewrite Forall_forall in Hf; apply Hf, Hi; now left). apply ces_mul. apply (powers_tame n); [exact Hf|]. apply lxor_lt_pow2; [exact Hx|apply Hp]. }
    destruct Ho as [Ho1 Ho2]. rewrite <- Ho1.
    replace (fun k => Cscale (- / 2) (Ci * op_act o (powers o k psi) x)%C) with (fun k => (Cscale (- / 2) Ci) * op_act o (powers o k psi) x)%C by (apply functional_extensionality; intros k; c_eq; cbn; ring).
    rewrite ces_mul by exact Ho2. c_eq; cbn; ring.
Qed.
