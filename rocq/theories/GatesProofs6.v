(** Inverses and unitarity of gate objects. *)
From Verif Require Export GatesProofs5.
From Coq Require Import ZifyBool ZifyN ZifyNat Permutation Sorting.Sorted FunctionalExtensionality.

Definition inverses (d : N) (A B : matrix) : Prop :=
  mat_eq d (mat_mul d A B) mat_id /\ mat_eq d (mat_mul d B A) mat_id.
Lemma inverses_adj d A B : unitary d A -> mat_eq d B (mat_adj A) -> inverses d B A.
Proof.
  intros [H1 H2] HB. split; intros i j Hi Hj.
  - rewrite <- (H1 i j Hi Hj). apply mat_mul_ext; auto using mat_eq_refl.
  - rewrite <- (H2 i j Hi Hj). apply mat_mul_ext; auto using mat_eq_refl.
Qed.
Lemma inverses_ext d A A' B B' : mat_eq d A A' -> mat_eq d B B' -> inverses d A B -> inverses d A' B'.
Proof.
  intros HA HB [H1 H2]. split; intros i j Hi Hj.
  - rewrite <- (H1 i j Hi Hj). apply mat_mul_ext; auto; intros ? ? ? ?; symmetry; auto.
  - rewrite <- (H2 i j Hi Hj). apply mat_mul_ext; auto; intros ? ? ? ?; symmetry; auto.
Qed.
Lemma unitary_of_inverses d A B : inverses d B A -> mat_eq d B (mat_adj A) -> unitary d A.
Proof.
  intros [H1 H2] HB. split; intros i j Hi Hj.
  - rewrite <- (H1 i j Hi Hj). apply mat_mul_ext; auto using mat_eq_refl. intros ? ? ? ?; symmetry; auto.
  - rewrite <- (H2 i j Hi Hj). apply mat_mul_ext; auto using mat_eq_refl. intros ? ? ? ?; symmetry; auto.
Qed.

(** ** Pauli strings *)
Lemma pauli_phase_unit bf pf a : (Cconj (pauli_phase bf pf a) * pauli_phase bf pf a = C1)%C.
Proof.
  unfold pauli_phase, mi_pow, pauli_sign, PHASE_M90ROT. rewrite Cconj_mul.
  destruct (parity _), (popcount (N.land bf pf) mod 4) as [|[[]|[]|]]; c_eq; lra.
Qed.
Section PauliMat.
  Variables bf pf : N.
  Let ts := bits (N.lor bf pf).
  Let d := 2 ^ popcount (N.lor bf pf).
  Let P := pauli_textbook bf pf ts.
  Let lts : 2 ^ N.of_nat (length ts) = d.
  Proof. unfold ts, d. now rewrite bits_length. Qed.
  Let rep i : i < d -> i = gather ts (scatter ts i 0).
  Proof. intros H. symmetry. apply gather_scatter; [apply bits_NoDup|]. rewrite lts. assumption. Qed.
  Lemma pauli_entry i j : i < d -> j < d ->
    P i j = if j =? N.lxor i (gather ts bf) then pauli_phase bf pf (scatter ts i 0) else C0.
  Proof.
    intros Hi Hj. unfold P, pauli_textbook. rewrite (rep i Hi) at 1 2. apply tensor_entry; [apply covers_bits|].
    fold ts. now rewrite lts.
  Qed.
  Lemma pauli_flip_lt i : i < d -> N.lxor i (gather ts bf) < d.
  Proof.
    intros Hi. apply lt_pow2_testbit. intros q Hq. rewrite N.lxor_spec.
    pose proof (gather_lt ts bf) as Hg. rewrite lts in Hg. unfold d in *.
    now rewrite (testbit_high i _ _ Hi), (testbit_high _ _ _ Hg).
  Qed.
  Lemma scatter_flip i : i < d -> scatter ts (N.lxor i (gather ts bf)) 0 = N.lxor (scatter ts i 0) bf.
  Proof.
    intros Hi. pose proof (pauli_flip_lt i Hi) as Hf.
    assert (E : gather ts (scatter ts (N.lxor i (gather ts bf)) 0) = gather ts (N.lxor (scatter ts i 0) bf)).
    { rewrite <- rep by assumption. rewrite gather_lxor, <- rep by assumption. reflexivity. }
    apply N.bits_inj. intros q. destruct (in_dec_N q ts) as [Hq|Hq].
    - apply In_nth_error in Hq. destruct Hq as [k Hk].
      assert (E' := f_equal (fun x => N.testbit x (N.of_nat k)) E). cbv beta in E'. rewrite !gather_tb, Hk in E'. exact E'.
    - rewrite N.lxor_spec, !scatter_out by assumption.
      destruct (N.testbit bf q) eqn:Eb; [|reflexivity]. exfalso. apply Hq. apply in_bits.
      now rewrite N.lor_spec, Eb.
  Qed.
  Lemma pauli_square : mat_eq d (mat_mul d P P) mat_id.
  Proof.
    intros i j Hi Hj. unfold mat_mul. pose proof (pauli_flip_lt i Hi) as Hf.
    rewrite (Csum_single _ _ (N.lxor i (gather ts bf))); [|assumption|].
    - rewrite !pauli_entry by assumption. rewrite N.eqb_refl.
      replace (N.lxor (N.lxor i (gather ts bf)) (gather ts bf)) with i
        by (rewrite N.lxor_assoc, N.lxor_nilpotent, N.lxor_0_r; reflexivity).
      unfold mat_id. rewrite (N.eqb_sym i j). destruct (N.eqb_spec j i); [|ring].
      rewrite scatter_flip by assumption. apply pauli_phase_sq.
    - intros k Hk Hne. rewrite (pauli_entry i k) by assumption. destruct (N.eqb_spec k (N.lxor i (gather ts bf))); [contradiction|ring].
  Qed.
  Lemma pauli_hermitian : mat_eq d (mat_adj P) P.
  Proof.
    intros i j Hi Hj. unfold mat_adj. rewrite !pauli_entry by assumption.
    assert (Ei : (i =? N.lxor j (gather ts bf)) = (j =? N.lxor i (gather ts bf))).
    { apply eq_iff_eq_true. rewrite !N.eqb_eq. split; intros ->; rewrite N.lxor_assoc, N.lxor_nilpotent, N.lxor_0_r; reflexivity. }
    rewrite Ei. destruct (N.eqb_spec j (N.lxor i (gather ts bf))) as [->|]; [|apply Cconj_0].
    rewrite scatter_flip by assumption. set (x := scatter ts i 0).
    pose proof (pauli_phase_sq bf pf x) as H. pose proof (pauli_phase_unit bf pf (N.lxor x bf)) as H1.
    set (a := pauli_phase bf pf x) in *. set (b := pauli_phase bf pf (N.lxor x bf)) in *.
    transitivity (a * b * Cconj b)%C; [rewrite H; ring|]. transitivity (a * (Cconj b * b))%C; [ring|]. rewrite H1. ring.
  Qed.
End PauliMat.

(** ** Rotations: exp(-ihP) *)
Lemma Ccos_neg h : Ccos (- h) = Ccos h.
Proof. unfold Ccos. c_eq; rewrite ?cos_neg, ?sin_neg; unfold cosh, sinh; rewrite ?Ropp_involutive; lra. Qed.
Lemma Csin_neg h : Csin (- h) = (- Csin h)%C.
Proof. unfold Csin. c_eq; rewrite ?cos_neg, ?sin_neg; unfold cosh, sinh; rewrite ?Ropp_involutive; lra. Qed.
Lemma cosh2 y : (cosh y * cosh y - sinh y * sinh y = 1)%R.
Proof.
  unfold cosh, sinh. assert (H : (exp y * exp (- y) = 1)%R).
  { rewrite <- exp_plus. replace (y + - y)%R with 0%R by lra. apply exp_0. }
  nra.
Qed.
Lemma Ccs2 h : (Ccos h * Ccos h + Csin h * Csin h = C1)%C.
Proof.
  destruct h as [x y]. unfold Ccos, Csin. simpl. pose proof (cosh2 y). pose proof (cos2sin2 x). c_eq; [|ring].
  transitivity ((cos x * cos x + sin x * sin x) * (cosh y * cosh y - sinh y * sinh y))%R; [ring|]. rewrite H, H0. ring.
Qed.
Definition rot_mat (h : C) (P : matrix) : matrix := fun i j => (Ccos h * mat_id i j - Ci * Csin h * P i j)%C.
Lemma mat_id_lt d i j : i < d -> Csum d (fun k => (mat_id i k * mat_id k j)%C) = mat_id i j.
Proof.
  intros Hi. rewrite (Csum_single _ _ i); [|assumption|].
  - unfold mat_id at 1. rewrite N.eqb_refl. ring.
  - intros k _ Hk. unfold mat_id at 1. destruct (N.eqb_spec i k); [congruence|ring].
Qed.
Lemma mat_id_mul_l d A : mat_eq d (mat_mul d mat_id A) A.
Proof.
  intros i j Hi Hj. unfold mat_mul. rewrite (Csum_single _ _ i); [|assumption|].
  - unfold mat_id. rewrite N.eqb_refl. ring.
  - intros k _ Hk. unfold mat_id. destruct (N.eqb_spec i k); [congruence|ring].
Qed.
Lemma mat_id_mul_r d A : mat_eq d (mat_mul d A mat_id) A.
Proof.
  intros i j Hi Hj. unfold mat_mul. rewrite (Csum_single _ _ j); [|assumption|].
  - unfold mat_id. rewrite N.eqb_refl. ring.
  - intros k _ Hk. unfold mat_id. destruct (N.eqb_spec k j); [congruence|ring].
Qed.
Lemma rot_mat_mul d h k P : mat_eq d (mat_mul d P P) mat_id ->
  mat_eq d (mat_mul d (rot_mat h P) (rot_mat k P))
    (fun i j => ((Ccos h * Ccos k - Csin h * Csin k) * mat_id i j - Ci * (Ccos h * Csin k + Csin h * Ccos k) * P i j)%C).
Proof.
  intros HP i j Hi Hj. unfold mat_mul, rot_mat.
  transitivity ((Ccos h * Ccos k) * mat_mul d mat_id mat_id i j + (- (Ci * Ccos h * Csin k)) * mat_mul d mat_id P i j
               + (- (Ci * Csin h * Ccos k)) * mat_mul d P mat_id i j + (- (Csin h * Csin k)) * mat_mul d P P i j)%C.
  - unfold mat_mul. rewrite <- !Csum_mul_l, <- !Csum_add. apply Csum_ext. intros q _.
    assert (HC : (Ci * Ci = - C1)%C) by (c_eq; lra). ring [HC].
  - rewrite !mat_id_mul_l, mat_id_mul_r, HP by assumption. ring.
Qed.
Lemma rot_inverses d h P : mat_eq d (mat_mul d P P) mat_id -> inverses d (rot_mat (- h) P) (rot_mat h P).
Proof.
  intros HP. pose proof (Ccs2 h) as HC. split; intros i j Hi Hj; rewrite rot_mat_mul by assumption; rewrite Ccos_neg, Csin_neg.
  - transitivity ((Ccos h * Ccos h + Csin h * Csin h) * mat_id i j)%C; [ring|]. rewrite HC. ring.
  - transitivity ((Ccos h * Ccos h + Csin h * Csin h) * mat_id i j)%C; [ring|]. rewrite HC. ring.
Qed.
Lemma rot_adj d h P : snd h = 0%R -> mat_eq d (mat_adj P) P -> mat_eq d (rot_mat (- h) P) (mat_adj (rot_mat h P)).
Proof.
  intros Hr HP i j Hi Hj. unfold rot_mat, mat_adj. rewrite Ccos_neg, Csin_neg.
  rewrite Cconj_sub, !Cconj_mul. specialize (HP i j Hi Hj). unfold mat_adj in HP. rewrite HP.
  assert (HI : Cconj (mat_id j i) = mat_id i j).
  { unfold mat_id. rewrite N.eqb_sym. destruct (i =? j); c_eq; lra. }
  rewrite HI. assert (H1 : Cconj (Ccos h) = Ccos h).
  { destruct h as [x y]. simpl in Hr. subst y. unfold Ccos. cbn [fst snd]. rewrite sinh_0. c_eq; lra. }
  assert (H2 : Cconj (Csin h) = Csin h).
  { destruct h as [x y]. simpl in Hr. subst y. unfold Csin. cbn [fst snd]. rewrite sinh_0. c_eq; lra. }
  rewrite H1, H2, Cconj_i. ring.
Qed.

(** ** Permutations *)
Lemma nth_set_nth {T} (l : list T) : forall k v i dflt,
  nth i (set_nth k v l) dflt = if (i =? k)%nat then (if (k <? length l)%nat then v else dflt) else nth i l dflt.
Proof.
  induction l as [|x l IH]; intros k v i dflt; simpl.
  - destruct k; destruct i; reflexivity || (destruct (_ =? _)%nat; reflexivity).
  - destruct k as [|k]; destruct i as [|i]; simpl; try reflexivity. rewrite IH. reflexivity.
Qed.
Lemma set_nth_length {T} (l : list T) : forall k v, length (set_nth k v l) = length l.
Proof. induction l; intros [|k] v; simpl; auto. Qed.
Lemma fold_set_length (l : list (N * N)) : forall inv,
  length (fold_left (fun inv qd => set_nth (N.to_nat (snd qd)) (fst qd) inv) l inv) = length inv.
Proof. induction l as [|qd l IH]; intros inv; simpl; [reflexivity|]. rewrite IH. apply set_nth_length. Qed.
Lemma fold_set_out (l : list (N * N)) : forall inv d, ~ In d (map snd l) ->
  nth (N.to_nat d) (fold_left (fun inv qd => set_nth (N.to_nat (snd qd)) (fst qd) inv) l inv) 0 = nth (N.to_nat d) inv 0.
Proof.
  induction l as [|[q d0] l IH]; intros inv d H; simpl; [reflexivity|]. rewrite IH by (intros E; apply H; now right).
  rewrite nth_set_nth. destruct (Nat.eqb_spec (N.to_nat d) (N.to_nat d0)) as [E|]; [|reflexivity].
  exfalso. apply H. left. simpl. lia.
Qed.
Lemma fold_set_in (l : list (N * N)) : forall inv q d, NoDup (map snd l) -> In (q, d) l -> (N.to_nat d < length inv)%nat ->
  nth (N.to_nat d) (fold_left (fun inv qd => set_nth (N.to_nat (snd qd)) (fst qd) inv) l inv) 0 = q.
Proof.
  induction l as [|[q0 d0] l IH]; intros inv q d Hnd Hin Hl; [destruct Hin|]. inversion Hnd; subst. destruct Hin as [E|Hin].
  - injection E as -> ->. cbn [fold_left fst snd]. rewrite fold_set_out by assumption. rewrite nth_set_nth, Nat.eqb_refl.
    now replace (N.to_nat d <? length inv)%nat with true by lia.
  - cbn [fold_left]. apply IH; try assumption. now rewrite set_nth_length.
Qed.
Lemma map_snd_combine_seqN (l : list N) : map snd (combine (seqN (N.of_nat (length l))) l) = l.
Proof.
  unfold seqN. rewrite Nat2N.id. generalize 0%nat as s. induction l as [|x l IH]; intros s; simpl; [reflexivity|]. now rewrite IH.
Qed.
Lemma perm_inverse_length dst : length (perm_inverse dst) = length dst.
Proof. unfold perm_inverse. rewrite fold_set_length. apply repeat_length. Qed.
Lemma perm_inverse_at dst i : is_perm dst -> i < N.of_nat (length dst) -> dst_at (perm_inverse dst) (dst_at dst i) = i.
Proof.
  intros HP Hi. unfold dst_at at 1. unfold perm_inverse. apply fold_set_in.
  - rewrite map_snd_combine_seqN. apply HP.
  - apply in_combine_seqN. auto.
  - rewrite repeat_length. pose proof (dst_at_lt dst i HP Hi). lia.
Qed.
Lemma perm_inverse_perm dst : is_perm dst -> (length dst < 64)%nat -> is_perm (perm_inverse dst).
Proof.
  intros HP Hl64. assert (Hval : forall j, j < N.of_nat (length dst) -> dst_at (perm_inverse dst) j < N.of_nat (length dst) /\
    dst_at dst (dst_at (perm_inverse dst) j) = j).
  { intros j Hj. destruct (dst_at_surj dst HP Hl64 j Hj) as (i & Hi & <-). rewrite perm_inverse_at by assumption. auto. }
  split.
  - apply NoDup_nth with (d := 0). intros i j Hi Hj E. rewrite perm_inverse_length in Hi, Hj.
    destruct (Hval (N.of_nat i)) as [_ H1]; [lia|]. destruct (Hval (N.of_nat j)) as [_ H2]; [lia|].
    unfold dst_at in H1 at 2. unfold dst_at in H2 at 2. rewrite Nat2N.id in H1, H2. rewrite E in H1. lia.
  - apply Forall_forall. intros x Hx. apply (In_nth _ _ 0) in Hx. destruct Hx as (i & Hi & <-).
    rewrite perm_inverse_length in *. destruct (Hval (N.of_nat i)) as [H1 _]; [lia|]. unfold dst_at in H1.
    now rewrite Nat2N.id in H1.
Qed.
Lemma perm_index_inverse dst x : is_perm dst -> (length dst < 64)%nat -> x < 2 ^ N.of_nat (length dst) ->
  perm_dst_index (perm_inverse dst) (perm_dst_index dst x) = x.
Proof.
  intros HP Hl Hx. pose proof (perm_inverse_perm dst HP Hl) as HP'. pose proof (perm_inverse_length dst) as Hle.
  apply N.bits_inj. intros i. destruct (N.lt_ge_cases i (N.of_nat (length dst))) as [Hi|Hi].
  - rewrite <- (perm_inverse_at dst i HP Hi) at 1. rewrite perm_dst_index_tb; [|assumption|lia|rewrite Hle; now apply dst_at_lt].
    now apply perm_dst_index_tb.
  - rewrite (testbit_high x _ i Hx Hi). eapply testbit_high; [|exact Hi]. rewrite <- Hle. apply perm_dst_index_lt; [assumption|lia].
Qed.
Lemma perm_inverse_invol dst : is_perm dst -> (length dst < 64)%nat -> perm_inverse (perm_inverse dst) = dst.
Proof.
  intros HP Hl. pose proof (perm_inverse_perm dst HP Hl) as HP'. apply nth_ext with (d := 0) (d' := 0).
  - now rewrite !perm_inverse_length.
  - intros i Hi. rewrite !perm_inverse_length in Hi.
    assert (Hj : N.of_nat i < N.of_nat (length dst)) by lia.
    pose proof (perm_inverse_at (perm_inverse dst) (dst_at dst (N.of_nat i)) HP') as H.
    rewrite perm_inverse_length in H. specialize (H (dst_at_lt dst _ HP Hj)). rewrite (perm_inverse_at dst _ HP Hj) in H.
    unfold dst_at in H. now rewrite Nat2N.id in H.
Qed.
Lemma perm_index_inverse' dst x : is_perm dst -> (length dst < 64)%nat -> x < 2 ^ N.of_nat (length dst) ->
  perm_dst_index dst (perm_dst_index (perm_inverse dst) x) = x.
Proof.
  intros HP Hl Hx. rewrite <- (perm_inverse_invol dst HP Hl) at 1.
  apply perm_index_inverse; rewrite ?perm_inverse_length; auto using perm_inverse_perm.
Qed.
Lemma perm_matrix_entry dst i j : (length dst < 64)%nat -> j < 2 ^ N.of_nat (length dst) ->
  perm_matrix dst i j = if i =? perm_dst_index dst j then C1 else C0.
Proof.
  intros Hl Hj. with_strategy transparent [perm_matrix] unfold perm_matrix. rewrite perm_matrix_fold. rewrite shl64_one by lia.
  replace (memN j (seqN _)) with true; [reflexivity|]. symmetry. apply memN_spec. now apply in_seqN.
Qed.
Lemma perm_mul dst d : is_perm dst -> (length dst < 64)%nat -> d = 2 ^ N.of_nat (length dst) ->
  mat_eq d (mat_mul d (perm_matrix (perm_inverse dst)) (perm_matrix dst)) mat_id.
Proof.
  intros HP Hl -> i j Hi Hj. unfold mat_mul.
  rewrite (Csum_single _ _ (perm_dst_index dst j)); [|now apply perm_dst_index_lt|].
  - rewrite !perm_matrix_entry; rewrite ?perm_inverse_length; try assumption; [|now apply perm_dst_index_lt].
    rewrite perm_index_inverse, N.eqb_refl by assumption. unfold mat_id. destruct (i =? j); ring.
  - intros k Hk Hne. rewrite (perm_matrix_entry dst k j) by assumption. destruct (N.eqb_spec k (perm_dst_index dst j)); [contradiction|ring].
Qed.
Lemma perm_inverses dst d : is_perm dst -> (length dst < 64)%nat -> d = 2 ^ N.of_nat (length dst) ->
  inverses d (perm_matrix (perm_inverse dst)) (perm_matrix dst).
Proof.
  intros HP Hl Hd. split; [now apply perm_mul|].
  pose proof (perm_mul (perm_inverse dst) d (perm_inverse_perm dst HP Hl)) as H. rewrite perm_inverse_length, perm_inverse_invol in H by assumption.
  now apply H.
Qed.
Lemma perm_adj dst d : is_perm dst -> (length dst < 64)%nat -> d = 2 ^ N.of_nat (length dst) ->
  mat_eq d (perm_matrix (perm_inverse dst)) (mat_adj (perm_matrix dst)).
Proof.
  intros HP Hl -> i j Hi Hj. unfold mat_adj. rewrite !perm_matrix_entry; rewrite ?perm_inverse_length; try assumption.
  assert (E : (i =? perm_dst_index (perm_inverse dst) j) = (j =? perm_dst_index dst i)).
  { apply eq_iff_eq_true. rewrite !N.eqb_eq. split; intros ->; [now rewrite perm_index_inverse'|now rewrite perm_index_inverse]. }
  rewrite E. destruct (j =? _); c_eq; lra.
Qed.

(** ** Two-qubit gates *)
Lemma mat_mul_4 A B i j : mat_mul 4 A B i j = (A i 0 * B 0 j + A i 1 * B 1 j + A i 2 * B 2 j + A i 3 * B 3 j)%C.
Proof. unfold mat_mul. apply Csum_4. Qed.
Lemma swap_self b : inverses 4 (m_at (get_matrix (ESwap b))) (m_at (get_matrix (ESwap b))) /\
  mat_eq 4 (m_at (get_matrix (ESwap b))) (mat_adj (m_at (get_matrix (ESwap b)))).
Proof.
  split; [split|]; mat4_cases; rewrite ?mat_mul_4; unfold mat_id, mat_adj; simpl; c_eq; lra.
Qed.
Lemma ecr_self b p q : p <> q -> let M := m_at (get_matrix (EEcr b (2 ^ p) (2 ^ q))) in inverses 4 M M /\ mat_eq 4 M (mat_adj M).
Proof.
  intros Hne. assert (Hcase : 2 ^ p < 2 ^ q \/ 2 ^ q < 2 ^ p).
  { destruct (N.lt_gt_cases p q) as [H _]. destruct (H Hne); [left|right]; apply N.pow_lt_mono_r; lia. }
  pose proof isqrt2_sq as Hs. cbn zeta. cbn [get_matrix m_at]. destruct Hcase as [H|H].
  - replace (2 ^ p <? 2 ^ q) with true by lia.
    split; [split|]; mat4_cases; rewrite ?mat_mul_4; unfold mat_id, mat_adj, mat4; simpl; rewrite ?inv_sqrt2; c_eq; lra.
  - replace (2 ^ p <? 2 ^ q) with false by lia. replace (2 ^ q <? 2 ^ p) with true by lia.
    split; [split|]; mat4_cases; rewrite ?mat_mul_4; unfold mat_id, mat_adj, mat4; simpl; rewrite ?inv_sqrt2; c_eq; lra.
Qed.

(** ** get_inverse *)
Definition inverse_ok (g : egate) : Prop :=
  match g with
  | EPauli _ p => (p_coef p * p_coef p = C1)%C
  | EDense _ M _ => unitary (m_rows M) (m_at M)
  | _ => True
  end.
Lemma make_base_same b : base_ok b -> make_base (g_t b) (g_c b) (g_cv b) = Ok b.
Proof. intros (H & _). unfold make_base. rewrite H. destruct b. reflexivity. Qed.
Lemma make_pauli_base_same b p : base_ok b -> g_t b = N.lor (p_bf p) (p_pf p) -> make_pauli_base p (g_c b) (g_cv b) = Ok b.
Proof.
  intros Hb Ht. unfold make_pauli_base. destruct Hb as (H & _ & H64 & _). rewrite pauli_mask by (rewrite <- Ht; assumption).
  cbn [bindR]. unfold make_base. rewrite <- Ht, H. destruct b. reflexivity.
Qed.
Lemma popcount_ones k : popcount (2 ^ k - 1) = k.
Proof. rewrite <- bits_length, bits_ones, length_seqN. lia. Qed.
Lemma make_permutation_impl_ok dst : is_perm dst -> (length dst < 64)%nat ->
  make_permutation_impl dst = Ok (EPermutation (GBase (2 ^ N.of_nat (length dst) - 1) 0 0) dst (perm_schedule dst)).
Proof.
  intros HP Hl. unfold make_permutation_impl.
  assert (Hm : vector_to_mask dst = Ok (2 ^ N.of_nat (length dst) - 1)).
  { apply vector_to_mask_ok. split; [|split; [apply HP|]].
    - destruct HP as [_ HF]. eapply Forall_impl; [|exact HF]. intros a Ha. simpl in Ha. lia.
    - intros i. rewrite <- in_bits, bits_ones, in_seqN. split.
      + intros Hi. destruct (dst_at_surj dst HP Hl i Hi) as (j & Hj & <-). now apply dst_at_in.
      + intros Hi. destruct HP as [_ HF]. rewrite Forall_forall in HF. auto. }
  rewrite Hm. cbn [bindR]. replace (64 <=? N.of_nat (length dst)) with false by lia. rewrite bound_value by lia.
  rewrite N.eqb_refl. cbn [negb]. unfold make_base. rewrite N.land_0_r. reflexivity.
Qed.
Lemma fits_popcount n g : gate_fits n g -> popcount (g_t (g_base g)) <= n.
Proof. intros [Ht _]. now apply popcount_le. Qed.

Lemma inverse_correct n g g' : n < 64 -> gate_wf g -> gate_fits n g -> get_inverse g = Ok g' -> inverse_ok g ->
  gate_wf g' /\ g_base g' = g_base g /\
  inverses (2 ^ popcount (g_t (g_base g))) (m_at (get_matrix g')) (m_at (get_matrix g)).
Proof.
  intros Hn Hw Hf H Hi. pose proof (fits_popcount n g Hf) as Hpc. destruct Hw as [Hb Hw].
  destruct g as [|b ph|k b|b|b pc pt|b dst s|b p|b p a|b M u|b Sp].
  - injection H as <-. split; [split; assumption|]. split; [reflexivity|]. simpl. change (popcount 0) with 0. change (2 ^ 0) with 1.
    split; intros i j Hi' Hj; apply mat_id_lt; assumption.
  - cbn [get_inverse g_base] in *. rewrite make_base_same in H by assumption. injection H as <-.
    split; [split; assumption|]. split; [reflexivity|]. cbn [g_base]. rewrite Hw. change (popcount 0) with 0. change (2 ^ 0) with 1.
    cbn [get_matrix m_at]. split; intros i j Hi' Hj; assert (i = 0) by lia; assert (j = 0) by lia; subst; unfold mat_mul; rewrite Csum_1;
      unfold mat_id; simpl.
    + transitivity (Cexpi (- ph) * Cexpi (- - ph))%C; [rewrite Ropp_involutive; ring|]. apply Cexpi_inv.
    + transitivity (Cexpi ph * Cexpi (- ph))%C; [ring|]. apply Cexpi_inv.
  - cbn [get_inverse g_base] in *. destruct (std1_inverse k) as [k'| |] eqn:Ek; try discriminate. cbn [bindR] in H.
    rewrite make_base_same in H by assumption. injection H as <-. split; [split; assumption|]. split; [reflexivity|].
    destruct Hw as [q Hq]. cbn [g_base]. rewrite Hq, popcount_pow2. change (2 ^ 1) with 2. cbn [get_matrix m_at].
    apply inverses_adj; [apply std1_unitary; eauto|now apply std1_inverse_adj].
  - injection H as <-. split; [split; assumption|]. split; [reflexivity|]. destruct Hw as (p & q & Hpq & Ht).
    assert (E : popcount (g_t (g_base (ESwap b))) = 2).
    { rewrite Ht. rewrite <- bits_length. rewrite bits_two by assumption. reflexivity. }
    rewrite E. apply swap_self.
  - injection H as <-. split; [split; assumption|]. split; [reflexivity|]. destruct Hw as (p & q & Hpq & -> & -> & Ht).
    assert (E : popcount (g_t (g_base (EEcr b (2 ^ p) (2 ^ q)))) = 2).
    { rewrite Ht. rewrite <- bits_length. destruct (N.lt_ge_cases p q).
      - rewrite bits_two by assumption. reflexivity.
      - rewrite N.lor_comm, bits_two by lia. reflexivity. }
    rewrite E. apply ecr_self. assumption.
  - destruct Hw as (HP & Hl & -> & ->). cbn [get_inverse g_base g_t] in *.
    assert (HP' := perm_inverse_perm dst HP Hl). pose proof (perm_inverse_length dst) as Hle.
    rewrite make_permutation_impl_ok in H by (auto; lia). injection H as <-. rewrite Hle.
    split; [split; [assumption|]|]. { cbn. rewrite Hle. auto. }
    split; [reflexivity|]. rewrite popcount_ones. cbn [get_matrix m_at]. now apply perm_inverses.
  - injection H as <-. split; [split; assumption|]. split; [reflexivity|]. cbn [g_base inverse_ok] in *. rewrite Hw in *.
    assert (H64 : N.lor (p_bf p) (p_pf p) < two64) by (rewrite <- Hw; apply Hb).
    set (d := 2 ^ popcount _). cbn [get_matrix m_at].
    assert (HT : mat_eq d (fun i j => (p_coef p * pauli_textbook (p_bf p) (p_pf p) (bits (N.lor (p_bf p) (p_pf p))) i j)%C) (pauli_get_matrix p)).
    { intros i j Hi' Hj. symmetry. apply pauli_get_matrix_textbook; try assumption. lia. }
    eapply inverses_ext; [exact HT|exact HT|].
    assert (HH : forall i j, i < d -> j < d -> mat_mul d (fun i j => (p_coef p * pauli_textbook (p_bf p) (p_pf p) (bits (N.lor (p_bf p) (p_pf p))) i j)%C)
       (fun i j => (p_coef p * pauli_textbook (p_bf p) (p_pf p) (bits (N.lor (p_bf p) (p_pf p))) i j)%C) i j = mat_id i j).
    { intros i j Hi' Hj. rewrite <- (pauli_square (p_bf p) (p_pf p) i j Hi' Hj). fold d. unfold mat_mul. apply Csum_ext. intros k Hk.
      ring [Hi]. }
    split; exact HH.
  - cbn [get_inverse g_base] in *. rewrite make_pauli_base_same in H by assumption. injection H as <-.
    split; [split; assumption|]. split; [reflexivity|]. cbn [g_base]. rewrite Hw in *.
    assert (H64 : N.lor (p_bf p) (p_pf p) < two64) by (rewrite <- Hw; apply Hb).
    set (d := 2 ^ popcount _). cbn [get_matrix m_at].
    set (h := Cscale (/ 2) (Cscale a (p_coef p))). replace (Cscale (/ 2) (Cscale (- a) (p_coef p))) with (- h)%C by (unfold h; c_eq; ring).
    set (P := pauli_textbook (p_bf p) (p_pf p) (bits (N.lor (p_bf p) (p_pf p)))).
    assert (HT : mat_eq d (pauli_get_matrix_ignoring_coef p) P).
    { intros i j Hi' Hj. apply pauli_get_matrix_ignoring_textbook; try assumption. lia. }
    apply inverses_ext with (rot_mat (- h) P) (rot_mat h P).
    + intros i j Hi' Hj. rewrite HT by assumption. unfold rot_mat. rewrite !Ccos_neg, !Csin_neg. ring.
    + intros i j Hi' Hj. rewrite HT by assumption. unfold rot_mat. rewrite !Ccos_neg, !Csin_neg. ring.
    + apply rot_inverses. apply pauli_square.
  - cbn [get_inverse g_base] in *. destruct u; [|discriminate]. rewrite make_base_same in H by assumption. injection H as <-.
    destruct Hw as [Hr Hc]. cbn [inverse_ok] in Hi. split; [split; [assumption|]|]. { cbn. auto. }
    split; [reflexivity|]. cbn [get_matrix m_at g_base]. rewrite <- Hr. apply inverses_adj; [assumption|apply mat_eq_refl].
  - discriminate.
Qed.
Lemma gate_sem_inverse n g g' psi x : n < 64 -> gate_wf g -> gate_fits n g -> get_inverse g = Ok g' -> inverse_ok g ->
  gate_sem g' (gate_sem g psi) x = psi x /\ gate_sem g (gate_sem g' psi) x = psi x.
Proof.
  intros Hn Hw Hf H Hi. destruct (inverse_correct n g g' Hn Hw Hf H Hi) as (Hw' & Hb & H1 & H2).
  pose proof (gate_ops_wf n g Hw Hf) as Hops. unfold gate_sem. rewrite Hb.
  split; eapply apply_mat_inverse; try exact Hops; cbn [fst gate_ops]; rewrite bits_length; assumption.
Qed.

(** ** Norm *)
Definition gate_unitary (g : egate) : Prop :=
  match g with
  | EStd GP0 _ | EStd GP1 _ => False
  | EPauli _ p => (Cconj (p_coef p) * p_coef p = C1)%C
  | EPauliRotation _ p _ => snd (p_coef p) = 0%R
  | EDense _ M _ => unitary (m_rows M) (m_at M)
  | ESparse _ Sp => unitary (csr_rows Sp) (csr_to_dense Sp)
  | _ => True
  end.
Lemma unitary_correct n g : n < 64 -> gate_wf g -> gate_fits n g -> gate_unitary g ->
  unitary (2 ^ popcount (g_t (g_base g))) (m_at (get_matrix g)).
Proof.
  intros Hn Hw Hf Hu. pose proof (fits_popcount n g Hf) as Hpc. destruct Hw as [Hb Hw].
  destruct g as [|b ph|k b|b|b pc pt|b dst s|b p|b p a|b M u|b Sp]; cbn [g_base] in *.
  - simpl. change (popcount 0) with 0. change (2 ^ 0) with 1.
    split; intros i j Hi Hj; assert (i = 0) by lia; assert (j = 0) by lia; subst; unfold mat_mul, mat_adj; rewrite Csum_1; unfold mat_id; simpl; c_eq; lra.
  - rewrite Hw. change (popcount 0) with 0. change (2 ^ 0) with 1. cbn [get_matrix m_at].
    split; intros i j Hi Hj; assert (i = 0) by lia; assert (j = 0) by lia; subst; unfold mat_mul, mat_adj; rewrite Csum_1; unfold mat_id; simpl;
      rewrite Cconj_mul, Cexpi_conj, Cconj_1.
    + transitivity (Cexpi (- ph) * Cexpi (- - ph))%C; [rewrite Ropp_involutive; ring|]. apply Cexpi_inv.
    + transitivity (Cexpi ph * Cexpi (- ph))%C; [ring|]. apply Cexpi_inv.
  - destruct Hw as [q Hq]. rewrite Hq, popcount_pow2. change (2 ^ 1) with 2. cbn [get_matrix m_at]. apply std1_unitary.
    destruct k; try (now destruct Hu); eexists; reflexivity.
  - destruct Hw as (p & q & Hpq & Ht). rewrite Ht. rewrite <- bits_length. rewrite bits_two by assumption. change (2 ^ N.of_nat (length [p; q])) with 4.
    destruct (swap_self b). eapply unitary_of_inverses; eassumption.
  - destruct Hw as (p & q & Hpq & -> & -> & Ht).
    assert (E : popcount (g_t b) = 2).
    { rewrite Ht. rewrite <- bits_length. destruct (N.lt_ge_cases p q).
      - rewrite bits_two by assumption. reflexivity.
      - rewrite N.lor_comm, bits_two by lia. reflexivity. }
    rewrite E. change (2 ^ 2) with 4. destruct (ecr_self b p q Hpq). eapply unitary_of_inverses; eassumption.
  - destruct Hw as (HP & Hl & -> & ->). cbn [g_t]. rewrite popcount_ones. cbn [get_matrix m_at].
    eapply unitary_of_inverses; [now apply perm_inverses|now apply perm_adj].
  - rewrite Hw in *. assert (H64 : N.lor (p_bf p) (p_pf p) < two64) by (rewrite <- Hw; apply Hb).
    set (d := 2 ^ popcount _). cbn [get_matrix m_at]. cbn [gate_unitary] in Hu.
    set (P := pauli_textbook (p_bf p) (p_pf p) (bits (N.lor (p_bf p) (p_pf p)))).
    apply unitary_ext with (fun i j => (p_coef p * P i j)%C).
    { intros i j Hi' Hj. symmetry. apply pauli_get_matrix_textbook; try assumption. lia. }
    assert (HP2 : mat_eq d (mat_mul d P P) mat_id) by apply pauli_square.
    assert (HPh : mat_eq d (mat_adj P) P) by apply pauli_hermitian.
    split; intros i j Hi Hj; rewrite <- (HP2 i j Hi Hj); unfold mat_mul, mat_adj; apply Csum_ext; intros k Hk; rewrite Cconj_mul.
    + specialize (HPh i k Hi Hk). unfold mat_adj in HPh. rewrite HPh. ring [Hu].
    + specialize (HPh k j Hk Hj). unfold mat_adj in HPh. rewrite HPh. ring [Hu].
  - rewrite Hw in *. assert (H64 : N.lor (p_bf p) (p_pf p) < two64) by (rewrite <- Hw; apply Hb).
    set (d := 2 ^ popcount _). cbn [get_matrix m_at]. cbn [gate_unitary] in Hu.
    set (h := Cscale (/ 2) (Cscale a (p_coef p))).
    assert (Hh : snd h = 0%R) by (unfold h, Cscale; simpl; rewrite Hu; lra).
    set (P := pauli_textbook (p_bf p) (p_pf p) (bits (N.lor (p_bf p) (p_pf p)))).
    assert (HT : mat_eq d (pauli_get_matrix_ignoring_coef p) P).
    { intros i j Hi' Hj. apply pauli_get_matrix_ignoring_textbook; try assumption. lia. }
    apply unitary_ext with (rot_mat h P).
    { intros i j Hi' Hj. rewrite HT by assumption. unfold rot_mat. rewrite !Ccos_neg, !Csin_neg. ring. }
    eapply unitary_of_inverses; [apply rot_inverses, pauli_square|]. apply rot_adj; [assumption|apply pauli_hermitian].
  - destruct Hw as [Hr _]. rewrite <- Hr. exact Hu.
  - destruct Hw as [Hr _]. rewrite <- Hr. exact Hu.
Qed.
Lemma gate_sem_norm n g psi : n < 64 -> gate_wf g -> gate_fits n g -> gate_unitary g ->
  norm2 n (gate_sem g psi) = norm2 n psi.
Proof.
  intros Hn Hw Hf Hu. pose proof (gate_ops_wf n g Hw Hf) as Hops. unfold norm2, gate_sem.
  eapply apply_mat_unitary_inner; [exact Hops|]. cbn [fst gate_ops]. rewrite bits_length. now apply (unitary_correct n g).
Qed.
