(** Gate objects: running an update, and the standard one-target gates. *)
From Verif Require Export Gates GateSpec KernelsProofs4 PauliProofs IndexProofs.
From Coq Require Import ZifyBool ZifyN ZifyNat Permutation Sorting.Sorted FunctionalExtensionality.

(** ** Runs *)
Lemma kcomputes_list_run {A} (eqb : A -> A -> bool) valid ks : forall m m',
  kcomputes_list eqb valid ks m m' ->
  (forall scheds, match run_kernels eqb valid ks scheds m with
                  | Finished r => r = m'
                  | Unfinished => True
                  | OutOfBounds => False
                  | DataRace => False
                  end) /\ (exists scheds r, run_kernels eqb valid ks scheds m = Finished r).
Proof.
  induction ks as [|k ks IH]; intros m m' H; simpl in H.
  - assert (m' = m) by (apply functional_extensionality; auto). subst m'. split.
    + intros scheds. simpl. reflexivity.
    + exists [], m. reflexivity.
  - destruct H as (m1 & [Hk Hx] & Hr). specialize (IH m1 m' Hr). destruct IH as [IH1 (ss & r & IH2)]. split.
    + intros scheds. simpl. destruct scheds as [|s scheds]; [exact I|]. specialize (Hk s).
      destruct (parallel_for eqb valid (k_iters k) (k_body k) m s) as [m2| | |]; try exact Hk.
      assert (m2 = m1) by (apply functional_extensionality; auto). subst m2. apply IH1.
    + destruct Hx as (s & m2 & Es). exists (s :: ss), r. simpl. rewrite Es. specialize (Hk s). rewrite Es in Hk.
      assert (m2 = m1) by (apply functional_extensionality; auto). subst m2. exact IH2.
Qed.

Lemma updates_inplace D ks psi m' psi' :
  kcomputes_list N.eqb (fun a => a <? D) ks psi m' -> (forall a, a < D -> m' a = psi' a) ->
  updates_to D (InPlace ks) psi psi'.
Proof.
  intros H E. destruct (kcomputes_list_run _ _ _ _ _ H) as [H1 (s & r & H2)]. split.
  - intros junk scheds. simpl. specialize (H1 scheds). destruct (run_kernels _ _ _ _ _); auto. subst. auto.
  - intros junk. exists s, r. exact H2.
Qed.
Lemma updates_inplace1 D k psi m' psi' :
  kcomputes N.eqb (fun a => a <? D) k psi m' -> (forall a, a < D -> m' a = psi' a) ->
  updates_to D (InPlace [k]) psi psi'.
Proof. intros H E. eapply updates_inplace; [|exact E]. exists m'. split; [exact H|]. simpl. auto. Qed.
Lemma updates_buffered D ks psi psi' :
  (forall junk, exists m', kcomputes_list addr2_eqb (fun a => snd a <? D) ks
                             (fun a => if fst a then junk (snd a) else psi (snd a)) m' /\
                           forall a, a < D -> m' (true, a) = psi' a) ->
  updates_to D (Buffered ks) psi psi'.
Proof.
  intros H. split.
  - intros junk scheds. simpl. destruct (H junk) as (m' & H1 & E).
    destruct (kcomputes_list_run _ _ _ _ _ H1) as [H2 _]. specialize (H2 scheds).
    destruct (run_kernels _ _ _ _ _); auto. subst. intros a Ha. apply N.ltb_lt in Ha as Ha'. rewrite Ha'. auto.
  - intros junk. simpl. destruct (H junk) as (m' & H1 & E).
    destruct (kcomputes_list_run _ _ _ _ _ H1) as [_ (s & r & H2)]. exists s. rewrite H2. eauto.
Qed.
Lemma updates_to_ext D p psi psi1 psi2 : (forall a, a < D -> psi1 a = psi2 a) ->
  updates_to D p psi psi1 -> updates_to D p psi psi2.
Proof.
  intros E [H1 H2]. split; [|exact H2]. intros junk scheds. specialize (H1 junk scheds).
  destruct (run_plan D p junk scheds psi); auto. intros a Ha. rewrite <- E by assumption. auto.
Qed.

(** ** Matrices of the one-target gates *)
Lemma inv_sqrt2 : (/ sqrt 2 = INVERSE_SQRT2)%R.
Proof.
  unfold INVERSE_SQRT2. assert (H : (sqrt 2 * sqrt 2 = 2)%R) by (apply sqrt_sqrt; lra).
  assert (H0 : (0 < sqrt 2)%R) by (apply sqrt_lt_R0; lra). apply Rmult_eq_reg_l with (sqrt 2); [|lra].
  rewrite Rinv_r by lra. unfold Rdiv. rewrite <- Rmult_assoc, H. lra.
Qed.
Lemma isqrt2_sq : (INVERSE_SQRT2 * INVERSE_SQRT2 = / 2)%R.
Proof. unfold INVERSE_SQRT2. assert (H : (sqrt 2 * sqrt 2 = 2)%R) by (apply sqrt_sqrt; lra). lra. Qed.
Lemma cos_PI4' : cos (PI / 4) = INVERSE_SQRT2.
Proof. rewrite cos_PI4, <- inv_sqrt2. unfold Rdiv. ring. Qed.
Lemma sin_PI4' : sin (PI / 4) = INVERSE_SQRT2.
Proof. rewrite sin_PI4, <- inv_sqrt2. unfold Rdiv. ring. Qed.
Lemma lt2_cases i : i < 2 -> i = 0 \/ i = 1. Proof. lia. Qed.
Ltac mat2_cases :=
  let i := fresh "i" in let j := fresh "j" in let Hi := fresh in let Hj := fresh in
  intros i j Hi Hj; apply lt2_cases in Hi; apply lt2_cases in Hj; destruct Hi, Hj; subst i j.
Lemma mat_eq_refl d M : mat_eq d M M. Proof. intros i j _ _. reflexivity. Qed.
Lemma mat_eq_sym d M M' : mat_eq d M M' -> mat_eq d M' M.
Proof. intros H i j Hi Hj. symmetry. auto. Qed.
Lemma mat_eq_trans d M M' M'' : mat_eq d M M' -> mat_eq d M' M'' -> mat_eq d M M''.
Proof. intros H1 H2 i j Hi Hj. rewrite H1 by assumption. auto. Qed.

Ltac c_eq := apply C_eq; Cunfold; simpl fst; simpl snd.

(** the matrix each update routine multiplies with *)
Definition std1_used (k : std1) : matrix :=
  match k with
  | GX => mat2 C0 C1 C1 C0
  | GY => mat2 C0 (- Ci)%C Ci C0
  | GZ => mat2 C1 C0 C0 (- C1)%C
  | GH => HADAMARD_MATRIX
  | GS => mat2 C1 C0 C0 Ci
  | GSdag => mat2 C1 C0 C0 (- Ci)%C
  | GT => mat2 C1 C0 C0 (INVERSE_SQRT2, INVERSE_SQRT2)
  | GTdag => mat2 C1 C0 C0 (INVERSE_SQRT2, - INVERSE_SQRT2)%R
  | GSqrtX => SQRT_X_GATE_MATRIX
  | GSqrtXdag => SQRT_X_DAG_GATE_MATRIX
  | GSqrtY => SQRT_Y_GATE_MATRIX
  | GSqrtYdag => SQRT_Y_DAG_GATE_MATRIX
  | GP0 => PROJ_0_MATRIX
  | GP1 => PROJ_1_MATRIX
  | GRX a => mat2 (RtoC (cos (a / 2))) (0, - sin (a / 2))%R (0, - sin (a / 2))%R (RtoC (cos (a / 2)))
  | GRY a => mat2 (RtoC (cos (a / 2))) (RtoC (- sin (a / 2))) (RtoC (sin (a / 2))) (RtoC (cos (a / 2)))
  | GRZ a => mat2 (cos (a / 2), - sin (a / 2))%R C0 C0 (cos (a / 2), sin (a / 2))
  | GU1 l => mat2 C1 C0 C0 (Cexpi l)
  | GU2 f l => get_IBMQ_matrix (PI / 2) f l
  | GU3 t f l => get_IBMQ_matrix t f l
  end.
Lemma std1_used_matrix k : mat_eq 2 (std1_used k) (std1_matrix k).
Proof.
  assert (E : (PI / 2 / 2 = PI / 4)%R) by lra.
  destruct k; mat2_cases; simpl; try reflexivity;
    unfold HADAMARD_MATRIX, get_IBMQ_matrix, mat2; simpl; rewrite ?inv_sqrt2, ?E, ?cos_neg, ?sin_neg;
    try reflexivity; c_eq; rewrite ?cos_neg, ?sin_neg, ?inv_sqrt2; ring.
Qed.
Lemma std1_matrix_textbook k : mat_eq 2 (std1_matrix k) (std1_textbook k).
Proof.
  destruct k; mat2_cases; unfold std1_matrix, std1_textbook, mat2, isq2, half, pauli1, mat_id; simpl;
    rewrite ?inv_sqrt2, ?Cexpi_add; try reflexivity; c_eq;
    rewrite ?cos_neg, ?sin_neg, ?cos_PI4', ?sin_PI4', ?cos_PI2, ?sin_PI2; try ring; try (pose proof isqrt2_sq; lra).
Qed.
