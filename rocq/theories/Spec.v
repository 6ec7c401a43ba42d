(** Specification vocabulary, independent of the code: what it means to apply a matrix to some qubits of a
    state under controls, inner products, adjoints.  Qubit lists and basis indices only; no masks. *)
From Verif Require Export Cplx.
From Verif Require Import BitsProofs.
From Coq Require Import Permutation ZifyBool ZifyN ZifyNat.

(** A (possibly unnormalised) state: the amplitude of every basis index. *)
Definition state := N -> C.
(** A matrix: row, column. *)
Definition matrix := N -> N -> C.

(** [x] with bit [q] set to [b]. *)
Definition set_bit (x q : N) (b : bool) : N := if b then N.setbit x q else N.clearbit x q.
(** The number whose k-th bit is bit [ts[k]] of [x]. *)
Fixpoint gather (ts : list N) (x : N) : N :=
  match ts with [] => 0 | t :: r => N.b2n (N.testbit x t) + 2 * gather r x end.
(** [x] with bit [ts[k]] replaced by the k-th bit of [j]. *)
Fixpoint scatter (ts : list N) (j x : N) : N :=
  match ts with [] => x | t :: r => scatter r (N.div2 j) (set_bit x t (N.odd j)) end.
(** Do the control qubits of [x] have the required values? *)
Definition ctrl_ok (cs : list (N * bool)) (x : N) : bool :=
  forallb (fun cv => Bool.eqb (N.testbit x (fst cv)) (snd cv)) cs.

(** Apply the 2^k x 2^k matrix [M] to qubits [ts] (bit i of the matrix index = qubit ts[i]) under controls. *)
Definition apply_mat (ts : list N) (cs : list (N * bool)) (M : matrix) (psi : state) : state :=
  fun x => if ctrl_ok cs x
           then Csum (2 ^ N.of_nat (length ts)) (fun j => (M (gather ts x) j * psi (scatter ts j x))%C)
           else psi x.

(** Operands fit a register of [n] qubits and are pairwise distinct. *)
Definition wf_ops (n : N) (ts : list N) (cs : list (N * bool)) : Prop :=
  NoDup (ts ++ map fst cs) /\ Forall (fun q => q < n) (ts ++ map fst cs).

Definition inner (n : N) (phi psi : state) : C := Csum (2 ^ n) (fun i => (Cconj (phi i) * psi i)%C).
Definition norm2 (n : N) (psi : state) : C := inner n psi psi.

Definition mat_id : matrix := fun i j => if i =? j then C1 else C0.
Definition mat_mul (d : N) (A B : matrix) : matrix := fun i j => Csum d (fun k => (A i k * B k j)%C).
Definition mat_adj (A : matrix) : matrix := fun i j => Cconj (A j i).
(** Equality of d x d matrices. *)
Definition mat_eq (d : N) (A B : matrix) : Prop := forall i j, i < d -> j < d -> A i j = B i j.
Definition unitary (d : N) (A : matrix) : Prop :=
  mat_eq d (mat_mul d (mat_adj A) A) mat_id /\ mat_eq d (mat_mul d A (mat_adj A)) mat_id.

(** ** Facts about gather / scatter *)
Lemma set_bit_tb x q b i : N.testbit (set_bit x q b) i = if i =? q then b else N.testbit x i.
Proof.
  unfold set_bit. destruct b.
  - rewrite N.setbit_eqb. rewrite N.eqb_sym. destruct (i =? q); reflexivity.
  - rewrite N.clearbit_eqb. rewrite N.eqb_sym. destruct (i =? q); simpl; [apply andb_false_r|apply andb_true_r].
Qed.

Lemma scatter_out ts : forall j x i, ~ In i ts -> N.testbit (scatter ts j x) i = N.testbit x i.
Proof.
  induction ts as [|t ts IH]; intros j x i Hi; simpl; [reflexivity|].
  rewrite IH by (intros H; apply Hi; now right). rewrite set_bit_tb.
  destruct (N.eqb_spec i t); [|reflexivity]. subst. exfalso. apply Hi. now left.
Qed.
Lemma scatter_in ts : forall j x k t, NoDup ts -> nth_error ts k = Some t ->
  N.testbit (scatter ts j x) t = N.testbit j (N.of_nat k).
Proof.
  induction ts as [|t0 ts IH]; intros j x k t Hnd Hk; [destruct k; discriminate|].
  inversion Hnd; subst. destruct k as [|k]; simpl in *.
  - injection Hk as ->. rewrite scatter_out by assumption. rewrite set_bit_tb, N.eqb_refl.
    change (N.of_nat 0) with 0. now rewrite N.bit0_odd.
  - rewrite (IH _ _ k) by assumption. rewrite <- N.testbit_succ_r_div2 by lia. f_equal. lia.
Qed.
Lemma gather_tb ts : forall x k, N.testbit (gather ts x) (N.of_nat k) =
  match nth_error ts k with Some t => N.testbit x t | None => false end.
Proof.
  induction ts as [|t ts IH]; intros x k; simpl.
  - rewrite N.bits_0. now destruct k.
  - destruct k as [|k]; simpl.
    + change (N.of_nat 0) with 0. rewrite N.add_comm. destruct (N.testbit x t); simpl.
      * apply N.testbit_odd_0.
      * rewrite N.add_0_r. apply N.testbit_even_0.
    + rewrite <- IH. rewrite Nat2N.inj_succ, N.add_comm. destruct (N.testbit x t); simpl.
      * rewrite N.testbit_odd_succ by lia. reflexivity.
      * rewrite N.add_0_r, N.testbit_even_succ by lia. reflexivity.
Qed.
Lemma gather_lt ts x : gather ts x < 2 ^ N.of_nat (length ts).
Proof.
  induction ts as [|t ts IH]; simpl length.
  - change (2 ^ N.of_nat 0) with 1. simpl. lia.
  - rewrite Nat2N.inj_succ, N.pow_succ_r'. simpl gather. destruct (N.testbit x t); simpl; lia.
Qed.
Lemma bits_eq_N a b : (forall k : nat, N.testbit a (N.of_nat k) = N.testbit b (N.of_nat k)) -> a = b.
Proof. intros H. apply N.bits_inj. intros i. rewrite <- (N2Nat.id i). apply H. Qed.
Lemma gather_scatter ts j x : NoDup ts -> j < 2 ^ N.of_nat (length ts) -> gather ts (scatter ts j x) = j.
Proof.
  intros Hnd Hj. apply bits_eq_N. intros k. rewrite gather_tb.
  destruct (nth_error ts k) as [t|] eqn:E.
  - now apply scatter_in.
  - symmetry. eapply testbit_high; [eassumption|]. apply nth_error_None in E. lia.
Qed.
Lemma in_dec_N (i : N) l : In i l \/ ~ In i l.
Proof. destruct (in_dec N.eq_dec i l); auto. Qed.
Lemma scatter_ext ts j x y : NoDup ts -> (forall i, ~ In i ts -> N.testbit x i = N.testbit y i) ->
  scatter ts j x = scatter ts j y.
Proof.
  intros Hnd H. apply N.bits_inj. intros i. destruct (in_dec_N i ts) as [Hi|Hi].
  - apply In_nth_error in Hi. destruct Hi as [k Hk]. now rewrite !(scatter_in ts _ _ k).
  - rewrite !scatter_out by assumption. auto.
Qed.
Lemma scatter_gather ts x : NoDup ts -> scatter ts (gather ts x) x = x.
Proof.
  intros Hnd. apply N.bits_inj. intros i. destruct (in_dec_N i ts) as [Hi|Hi].
  - apply In_nth_error in Hi. destruct Hi as [k Hk]. rewrite (scatter_in ts _ _ k) by assumption.
    rewrite gather_tb, Hk. reflexivity.
  - now apply scatter_out.
Qed.
Lemma scatter_scatter ts j j' x : NoDup ts -> scatter ts j (scatter ts j' x) = scatter ts j x.
Proof. intros Hnd. apply scatter_ext; [assumption|]. intros; now apply scatter_out. Qed.
Lemma scatter_lt ts j x n : NoDup ts -> Forall (fun q => q < n) ts -> x < 2 ^ n -> scatter ts j x < 2 ^ n.
Proof.
  intros Hnd Hf Hx. apply lt_pow2_testbit. intros i Hi. rewrite scatter_out.
  - eapply testbit_high; eassumption.
  - intros Hin. rewrite Forall_forall in Hf. specialize (Hf _ Hin). lia.
Qed.
Lemma scatter_shiftr ts j x n : NoDup ts -> Forall (fun q => q < n) ts -> N.shiftr (scatter ts j x) n = N.shiftr x n.
Proof.
  intros Hnd Hf. bitwise i. apply scatter_out. intros Hin. rewrite Forall_forall in Hf. specialize (Hf _ Hin). lia.
Qed.
Lemma ctrl_ok_scatter ts cs j x : (forall c, In c (map fst cs) -> ~ In c ts) ->
  ctrl_ok cs (scatter ts j x) = ctrl_ok cs x.
Proof.
  intros H. unfold ctrl_ok. induction cs as [|[c v] cs IH]; simpl; [reflexivity|].
  rewrite scatter_out by (apply H; now left). rewrite IH; [reflexivity|]. intros; apply H; now right.
Qed.
Lemma wf_disj n ts cs : wf_ops n ts cs -> forall c, In c (map fst cs) -> ~ In c ts.
Proof.
  intros [Hnd _] c Hc Ht. induction ts as [|t ts IH]; [destruct Ht|].
  simpl in Hnd. inversion Hnd as [|? ? Hn Hnd']; subst. destruct Ht as [->|Ht].
  - apply Hn, in_or_app. now right.
  - auto.
Qed.
Lemma wf_NoDup n ts cs : wf_ops n ts cs -> NoDup ts.
Proof.
  intros [Hnd _]. induction ts as [|t ts IH]; constructor; simpl in Hnd; inversion Hnd; subst.
  - intros H; apply H1, in_or_app; now left.
  - auto.
Qed.
Lemma wf_lt n ts cs : wf_ops n ts cs -> Forall (fun q => q < n) ts.
Proof. intros [_ H]. apply Forall_app in H. tauto. Qed.

(** ** apply_mat algebra *)
Lemma apply_mat_ext ts cs M psi phi : (forall x, psi x = phi x) -> forall x, apply_mat ts cs M psi x = apply_mat ts cs M phi x.
Proof. intros H x. unfold apply_mat. destruct (ctrl_ok cs x); [|auto]. apply Csum_ext. intros. now rewrite H. Qed.
Lemma apply_mat_ext_mat ts cs M M' psi : mat_eq (2 ^ N.of_nat (length ts)) M M' ->
  forall x, apply_mat ts cs M psi x = apply_mat ts cs M' psi x.
Proof.
  intros H x. unfold apply_mat. destruct (ctrl_ok cs x); [|reflexivity]. apply Csum_ext. intros j Hj.
  rewrite H; auto using gather_lt.
Qed.
(** Only the amplitudes inside the register matter. *)
Lemma apply_mat_local n ts cs M psi phi : wf_ops n ts cs -> (forall x, x < 2 ^ n -> psi x = phi x) ->
  forall x, x < 2 ^ n -> apply_mat ts cs M psi x = apply_mat ts cs M phi x.
Proof.
  intros Hwf H x Hx. unfold apply_mat. destruct (ctrl_ok cs x); [|auto]. apply Csum_ext. intros.
  rewrite H; [reflexivity|]. apply scatter_lt; [eapply wf_NoDup|eapply wf_lt|]; eassumption.
Qed.

Lemma apply_mat_mul n ts cs A B psi x : wf_ops n ts cs ->
  apply_mat ts cs A (apply_mat ts cs B psi) x = apply_mat ts cs (mat_mul (2 ^ N.of_nat (length ts)) A B) psi x.
Proof.
  intros Hwf. pose proof (wf_NoDup _ _ _ Hwf) as Hnd. pose proof (wf_disj _ _ _ Hwf) as Hd.
  unfold apply_mat at 1 3. destruct (ctrl_ok cs x) eqn:Ec.
  2:{ unfold apply_mat. now rewrite Ec. }
  set (d := 2 ^ N.of_nat (length ts)).
  transitivity (Csum d (fun j => Csum d (fun k => (A (gather ts x) j * B j k * psi (scatter ts k x))%C))).
  - apply Csum_ext. intros j Hj. unfold apply_mat. rewrite ctrl_ok_scatter, Ec by assumption.
    fold d. rewrite <- Csum_mul_l. apply Csum_ext. intros k Hk.
    rewrite gather_scatter, scatter_scatter by assumption. ring.
  - rewrite Csum_swap. apply Csum_ext. intros k Hk. unfold mat_mul. rewrite <- Csum_mul_r. reflexivity.
Qed.
Lemma apply_mat_id ts cs psi x : NoDup ts -> apply_mat ts cs mat_id psi x = psi x.
Proof.
  intros Hnd. unfold apply_mat. destruct (ctrl_ok cs x); [|reflexivity].
  rewrite (Csum_single _ _ (gather ts x)).
  - unfold mat_id. rewrite N.eqb_refl, scatter_gather by assumption. ring.
  - apply gather_lt.
  - intros i Hi Hne. unfold mat_id. destruct (N.eqb_spec (gather ts x) i); [congruence|ring].
Qed.
(** A matrix whose product with another is the identity undoes it. *)
Lemma apply_mat_inverse n ts cs A B psi x : wf_ops n ts cs ->
  mat_eq (2 ^ N.of_nat (length ts)) (mat_mul (2 ^ N.of_nat (length ts)) A B) mat_id ->
  apply_mat ts cs A (apply_mat ts cs B psi) x = psi x.
Proof.
  intros Hwf H. rewrite (apply_mat_mul n) by assumption. rewrite (apply_mat_ext_mat _ _ _ mat_id) by assumption.
  apply apply_mat_id. eapply wf_NoDup; eassumption.
Qed.

(** Linearity *)
Lemma apply_mat_add ts cs M psi phi x :
  apply_mat ts cs M (fun i => (psi i + phi i)%C) x = (apply_mat ts cs M psi x + apply_mat ts cs M phi x)%C.
Proof.
  unfold apply_mat. destruct (ctrl_ok cs x); [|reflexivity]. rewrite <- Csum_add. apply Csum_ext. intros; ring.
Qed.
Lemma apply_mat_scale ts cs M c psi x :
  apply_mat ts cs M (fun i => (c * psi i)%C) x = (c * apply_mat ts cs M psi x)%C.
Proof.
  unfold apply_mat. destruct (ctrl_ok cs x); [|reflexivity]. rewrite <- Csum_mul_l. apply Csum_ext. intros; ring.
Qed.

(** ** Inner products and adjoints *)
Lemma inner_conj n phi psi : inner n phi psi = Cconj (inner n psi phi).
Proof.
  unfold inner. rewrite Csum_conj. apply Csum_ext. intros. rewrite Cconj_mul, Cconj_invol. ring.
Qed.
Lemma Csuml_list_prod {T U} (f : T * U -> C) l1 l2 :
  Csuml f (list_prod l1 l2) = Csuml (fun a => Csuml (fun b => f (a, b)) l2) l1.
Proof.
  induction l1 as [|a l1 IH]; simpl; [reflexivity|]. rewrite Csuml_app, IH, Csuml_map. reflexivity.
Qed.

Lemma NoDup_app_intro {T} (l1 l2 : list T) : NoDup l1 -> NoDup l2 -> (forall x, In x l1 -> ~ In x l2) -> NoDup (l1 ++ l2).
Proof.
  intros H1 H2 Hd. induction H1 as [|a l Ha H1 IH]; simpl; [assumption|]. constructor.
  - intros Hin. apply in_app_or in Hin. destruct Hin as [|Hin]; [contradiction|]. eapply Hd; [now left|eassumption].
  - apply IH. intros; apply Hd; now right.
Qed.
Lemma NoDup_list_prod {T U} (l1 : list T) (l2 : list U) : NoDup l1 -> NoDup l2 -> NoDup (list_prod l1 l2).
Proof.
  intros H1 H2. induction H1 as [|a l1 Ha H1 IH]; simpl; [constructor|].
  apply NoDup_app_intro; [|assumption|].
  - apply NoDup_map_inj; [congruence|assumption].
  - intros p Hp Hq. apply in_map_iff in Hp. destruct Hp as (y & <- & _). apply in_prod_iff in Hq. tauto.
Qed.

(** <A phi | psi> = <phi | A^dagger psi> *)
Lemma apply_mat_adjoint n ts cs M phi psi : wf_ops n ts cs ->
  inner n (apply_mat ts cs M phi) psi = inner n phi (apply_mat ts cs (mat_adj M) psi).
Proof.
  intros Hwf. pose proof (wf_NoDup _ _ _ Hwf) as Hnd. pose proof (wf_disj _ _ _ Hwf) as Hd.
  pose proof (wf_lt _ _ _ Hwf) as Hlt. set (d := 2 ^ N.of_nat (length ts)).
  assert (Hsplit : forall f g : N -> C,
    Csum (2^n) (fun x => if ctrl_ok cs x then f x else g x) =
    (Csum (2^n) (fun x => if ctrl_ok cs x then f x else C0) + Csum (2^n) (fun x => if ctrl_ok cs x then C0 else g x))%C).
  { intros f g. rewrite <- Csum_add. apply Csum_ext. intros x _. destruct (ctrl_ok cs x); ring. }
  unfold inner.
  transitivity (Csum (2^n) (fun x => if ctrl_ok cs x
      then Csum d (fun j => (Cconj (M (gather ts x) j) * Cconj (phi (scatter ts j x)) * psi x)%C)
      else (Cconj (phi x) * psi x)%C)).
  { apply Csum_ext. intros x _. unfold apply_mat. destruct (ctrl_ok cs x); [|reflexivity]. fold d.
    rewrite Csum_conj, <- Csum_mul_r. apply Csum_ext. intros j _. rewrite Cconj_mul. reflexivity. }
  symmetry.
  transitivity (Csum (2^n) (fun x => if ctrl_ok cs x
      then Csum d (fun j => (Cconj (M j (gather ts x)) * Cconj (phi x) * psi (scatter ts j x))%C)
      else (Cconj (phi x) * psi x)%C)).
  { apply Csum_ext. intros x _. unfold apply_mat. destruct (ctrl_ok cs x); [|reflexivity]. fold d.
    rewrite <- Csum_mul_l. apply Csum_ext. intros j _. unfold mat_adj. ring. }
  rewrite Hsplit. symmetry. rewrite Hsplit. f_equal.
  (* sum over pairs (x, j); the map (x, j) -> (scatter j x, gather x) is an involution *)
  set (sw := fun p : N * N => (scatter ts (snd p) (fst p), gather ts (fst p))).
  set (F := fun p : N * N => if ctrl_ok cs (fst p) then
       (Cconj (M (gather ts (fst p)) (snd p)) * Cconj (phi (scatter ts (snd p) (fst p))) * psi (fst p))%C else C0).
  set (G := fun p : N * N => if ctrl_ok cs (fst p) then
       (Cconj (M (snd p) (gather ts (fst p))) * Cconj (phi (fst p)) * psi (scatter ts (snd p) (fst p)))%C else C0).
  set (L := list_prod (seqN (2^n)) (seqN d)).
  transitivity (Csuml F L).
  { unfold L. rewrite Csuml_list_prod. apply Csuml_ext. intros x _. unfold F; simpl. destruct (ctrl_ok cs x); [reflexivity|].
    symmetry. now apply Csuml_zero. }
  transitivity (Csuml G L).
  2:{ unfold L. rewrite Csuml_list_prod. apply Csuml_ext. intros x _. unfold G; simpl. destruct (ctrl_ok cs x); [reflexivity|].
      now apply Csuml_zero. }
  assert (HinL : forall x j, In (x, j) L <-> x < 2^n /\ j < d).
  { intros. unfold L. rewrite in_prod_iff, !in_seqN. reflexivity. }
  assert (Hsw : forall p, In p L -> In (sw p) L /\ sw (sw p) = p).
  { intros [x j] Hp. apply HinL in Hp. destruct Hp as [Hx Hj]. unfold sw; simpl. split.
    - apply HinL. split; [now apply scatter_lt|apply gather_lt].
    - rewrite scatter_scatter, gather_scatter, scatter_gather by assumption. reflexivity. }
  assert (HP : Permutation (map sw L) L).
  { assert (HLnd : NoDup L) by (apply NoDup_list_prod; apply NoDup_seqN).
    apply NoDup_Permutation.
    - apply NoDup_map_inj; [|assumption].
      intros p q Hp Hq E. destruct (Hsw p Hp) as [_ Ep], (Hsw q Hq) as [_ Eq]. congruence.
    - assumption.
    - intros p. rewrite in_map_iff. split.
      + intros (q & <- & Hq). now apply Hsw.
      + intros Hp. exists (sw p). destruct (Hsw p Hp). tauto. }
  rewrite <- (Csuml_perm F _ _ HP), Csuml_map. apply Csuml_ext. intros [x j] Hp.
  apply HinL in Hp. destruct Hp as [Hx Hj]. unfold sw, F, G; simpl.
  rewrite ctrl_ok_scatter by assumption. destruct (ctrl_ok cs x); [|reflexivity].
  rewrite gather_scatter, scatter_scatter, scatter_gather by assumption. reflexivity.
Qed.

(** A unitary matrix preserves inner products, in particular the norm. *)
Lemma apply_mat_unitary_inner n ts cs M phi psi : wf_ops n ts cs ->
  mat_eq (2 ^ N.of_nat (length ts)) (mat_mul (2 ^ N.of_nat (length ts)) (mat_adj M) M) mat_id ->
  inner n (apply_mat ts cs M phi) (apply_mat ts cs M psi) = inner n phi psi.
Proof.
  intros Hwf HU. rewrite apply_mat_adjoint by assumption. unfold inner. apply Csum_ext. intros x Hx.
  now rewrite (apply_mat_inverse n).
Qed.
