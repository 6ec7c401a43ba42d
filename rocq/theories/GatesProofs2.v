(** Target order, matrices of Pauli gates, sparse storage. *)
From Verif Require Export GatesProofs PermProofs.
From Coq Require Import ZifyBool ZifyN ZifyNat Permutation Sorting.Sorted FunctionalExtensionality.

(** ** Controls *)
Lemma ctrl_ok_set cs cs' x : (forall p, In p cs <-> In p cs') -> ctrl_ok cs x = ctrl_ok cs' x.
Proof.
  intros H. unfold ctrl_ok. apply eq_iff_eq_true. rewrite !forallb_forall.
  split; intros G p Hp; apply G; now apply H.
Qed.
Lemma in_ctrls c cv q b : In (q, b) (ctrls c cv) <-> N.testbit c q = true /\ b = N.testbit cv q.
Proof.
  unfold ctrls. rewrite in_map_iff. split.
  - intros (i & [= <- <-] & Hi). split; [now apply in_bits|reflexivity].
  - intros [Hc ->]. exists q. split; [reflexivity|now apply in_bits].
Qed.
Lemma apply_mat_ctrls ts cs cs' M psi x : (forall p, In p cs <-> In p cs') ->
  apply_mat ts cs M psi x = apply_mat ts cs' M psi x.
Proof. intros H. unfold apply_mat. now rewrite (ctrl_ok_set cs cs'). Qed.

(** ** Reordering the targets *)
Lemma gather_inj_ext ts x y : (forall t, In t ts -> N.testbit x t = N.testbit y t) -> gather ts x = gather ts y.
Proof.
  induction ts as [|t ts IH]; intros H; simpl; [reflexivity|].
  rewrite H by now left. rewrite IH; [reflexivity|]. intros; apply H; now right.
Qed.
Lemma gather_eq_tb ts x y t : gather ts x = gather ts y -> In t ts -> N.testbit x t = N.testbit y t.
Proof.
  intros H Hin. apply In_nth_error in Hin. destruct Hin as [k Hk].
  pose proof (gather_tb ts x k) as Hx. pose proof (gather_tb ts y k) as Hy. rewrite Hk in Hx, Hy. congruence.
Qed.
Lemma apply_mat_reorder ts ts' cs M M' psi x : NoDup ts -> NoDup ts' -> (forall t, In t ts <-> In t ts') ->
  (forall y z, M' (gather ts' y) (gather ts' z) = M (gather ts y) (gather ts z)) ->
  apply_mat ts' cs M' psi x = apply_mat ts cs M psi x.
Proof.
  intros Hnd Hnd' Hset HM. unfold apply_mat. destruct (ctrl_ok cs x); [|reflexivity].
  assert (Hlen : length ts = length ts').
  { apply Permutation_length, NoDup_Permutation; assumption. }
  set (h := fun j => gather ts (scatter ts' j 0)).
  rewrite <- (Csum_reindex (2 ^ N.of_nat (length ts')) (2 ^ N.of_nat (length ts)) h).
  - apply Csum_ext. intros j Hj. unfold h.
    rewrite <- (gather_scatter ts' j 0) at 1 by assumption. rewrite HM. f_equal. f_equal.
    apply N.bits_inj. intros i. destruct (in_dec_N i ts') as [Hi|Hi].
    + assert (Hi' := proj2 (Hset i) Hi). apply In_nth_error in Hi, Hi'. destruct Hi as [k Hk], Hi' as [k' Hk'].
      rewrite (scatter_in ts' _ _ k) by assumption. rewrite (scatter_in ts _ _ k') by assumption.
      rewrite gather_tb, Hk'. now rewrite (scatter_in ts' _ _ k).
    + rewrite !scatter_out; [reflexivity| |assumption]. now rewrite Hset.
  - intros j Hj. apply gather_lt.
  - intros i j Hi Hj E. unfold h in E. rewrite <- (gather_scatter ts' i 0), <- (gather_scatter ts' j 0) by assumption.
    apply gather_inj_ext. intros t Ht. apply (gather_eq_tb ts); [exact E|]. now apply Hset.
  - intros k Hk. exists (gather ts' (scatter ts k 0)). split; [apply gather_lt|]. unfold h.
    rewrite <- (gather_scatter ts k 0) at 2 by assumption. apply gather_inj_ext. intros t Ht.
    apply (gather_eq_tb ts'); [|now apply Hset]. apply gather_scatter; [assumption|apply gather_lt].
Qed.

Lemma insert_sorted_in x l y : In y (insert_sorted x l) <-> y = x \/ In y l.
Proof.
  induction l as [|z l IH]; simpl; [intuition|]. destruct (x <=? z); simpl; [intuition|]. rewrite IH. intuition.
Qed.
Lemma insert_sorted_incr x l : incr l -> ~ In x l -> incr (insert_sorted x l).
Proof.
  induction l as [|z l IH]; intros Hs Hx; simpl; [repeat constructor|].
  inversion Hs as [|? ? Hs' Hf]; subst. destruct (N.leb_spec x z) as [Hle|Hlt].
  - assert (x < z) by (assert (x <> z) by (intros ->; apply Hx; now left); lia).
    constructor; [assumption|]. constructor; [assumption|]. eapply Forall_impl; [|exact Hf]. simpl. intros; lia.
  - constructor; [apply IH; [assumption|intros H; apply Hx; now right]|].
    apply Forall_forall. intros y Hy. apply insert_sorted_in in Hy. destruct Hy as [->|Hy]; [assumption|].
    rewrite Forall_forall in Hf. auto.
Qed.
Lemma sortN_in l y : In y (sortN l) <-> In y l.
Proof. induction l as [|x l IH]; simpl; [tauto|]. rewrite insert_sorted_in, IH. intuition. Qed.
Lemma sortN_incr l : NoDup l -> incr (sortN l).
Proof.
  induction 1 as [|x l Hx Hnd IH]; simpl; [constructor|]. apply insert_sorted_incr; [assumption|]. now rewrite sortN_in.
Qed.
Lemma sortN_length l : length (sortN l) = length l.
Proof.
  induction l as [|x l IH]; [reflexivity|]. simpl. rewrite <- IH. generalize (sortN l). clear.
  induction l as [|z l IH]; simpl; [reflexivity|]. destruct (x <=? z); simpl; [reflexivity|]. now rewrite IH.
Qed.
Lemma lower_bound_nth l x : incr l -> In x l -> nth_error l (N.to_nat (lower_bound l x)) = Some x.
Proof.
  induction l as [|y l IH]; intros Hs Hin; [destruct Hin|]. simpl. inversion Hs as [|? ? Hs' Hf]; subst.
  destruct (N.ltb_spec y x) as [Hlt|Hge].
  - destruct Hin as [->|Hin]; [lia|]. rewrite <- (IH Hs' Hin). rewrite N2Nat.inj_add. reflexivity.
  - destruct Hin as [->|Hin]; [reflexivity|]. rewrite Forall_forall in Hf. specialize (Hf _ Hin). lia.
Qed.
Lemma transformed_index_gather ts x : NoDup ts -> (length ts <= 64)%nat ->
  transformed_index ts (gather (sortN ts) x) = gather ts x.
Proof.
  intros Hnd Hlen. unfold transformed_index.
  set (l := map (lower_bound (sortN ts)) ts).
  assert (E : forall l0 acc, fold_left (fun acc jo => N.lor acc (shl64 (N.land (N.shiftr (gather (sortN ts) x) (snd jo)) 1) (fst jo))) l0 acc
     = or_bits (map (fun jo => (snd jo, fst jo)) l0) (gather (sortN ts) x) acc).
  { induction l0 as [|[j o] l0 IH]; intros acc; [reflexivity|]. simpl. rewrite IH. reflexivity. }
  rewrite E. apply bits_eq_N. intros k. rewrite or_bits_tb, N.bits_0, gather_tb. simpl.
  - assert (Hl : length l = length ts) by (unfold l; apply map_length). rewrite <- Hl.
    assert (Hpos : forall j, j < N.of_nat (length l) ->
       N.testbit (gather (sortN ts) x) (nth (N.to_nat j) l 0) = N.testbit x (nth (N.to_nat j) ts 0)).
    { intros j Hj. set (t := nth (N.to_nat j) ts 0). assert (Ht : In t ts) by (apply nth_In; lia).
      replace (nth (N.to_nat j) l 0) with (lower_bound (sortN ts) t).
      - rewrite <- (N2Nat.id (lower_bound (sortN ts) t)), gather_tb.
        rewrite lower_bound_nth; [reflexivity|now apply sortN_incr|now apply sortN_in].
      - unfold l, t. rewrite (nth_indep (map (lower_bound (sortN ts)) ts) 0 (lower_bound (sortN ts) 0)) by (rewrite map_length; lia).
        now rewrite map_nth. }
    apply eq_iff_eq_true. rewrite existsb_exists. destruct (nth_error ts k) as [t|] eqn:Ek.
    + assert (Hk : (k < length ts)%nat) by (apply nth_error_Some; congruence).
      apply nth_error_nth with (d := 0) in Ek. split.
      * intros ([o j] & Hin & H). apply in_map_iff in Hin. destruct Hin as ([j' o'] & [= -> ->] & Hin).
        apply in_combine_seqN in Hin. destruct Hin as [Hj ->]. simpl in H. apply andb_true_iff in H. destruct H as [H1 H2].
        apply N.eqb_eq in H1. subst j. rewrite Hpos in H2 by lia. now rewrite Nat2N.id, Ek in H2.
      * intros H. exists (nth k l 0, N.of_nat k). split.
        -- apply in_map_iff. exists (N.of_nat k, nth k l 0). split; [reflexivity|]. apply in_combine_seqN.
           split; [lia|]. now rewrite Nat2N.id.
        -- simpl. rewrite N.eqb_refl. simpl. specialize (Hpos (N.of_nat k) ltac:(lia)). rewrite Nat2N.id in Hpos.
           rewrite Hpos, Ek. exact H.
    + apply nth_error_None in Ek. split; [|discriminate]. intros ([o j] & Hin & H).
      apply in_map_iff in Hin. destruct Hin as ([j' o'] & [= -> ->] & Hin).
      apply in_combine_seqN in Hin. destruct Hin as [Hj ->]. simpl in H. lia.
  - rewrite Forall_forall. intros [o j] Hin. apply in_map_iff in Hin. destruct Hin as ([j' o'] & [= -> ->] & Hin).
    rewrite <- (map_length (lower_bound (sortN ts)) ts) in Hin. apply in_combine_seqN in Hin. destruct Hin as [Hj _].
    unfold l in Hj. rewrite map_length in Hj. simpl. lia.
Qed.
Lemma is_sorted_incr l : is_sorted l = true -> NoDup l -> incr l.
Proof.
  induction l as [|x l IH]; intros Hs Hnd; [constructor|]. inversion Hnd as [|? ? Hx Hnd']; subst.
  destruct l as [|y r]; [repeat constructor|]. cbn [is_sorted] in Hs. apply andb_true_iff in Hs. destruct Hs as [H1 H2].
  specialize (IH H2 Hnd'). constructor; [assumption|]. inversion IH as [|? ? _ Hf]; subst.
  assert (x < y) by (assert (x <> y) by (intros ->; apply Hx; now left); lia).
  constructor; [assumption|]. eapply Forall_impl; [|exact Hf]. simpl. intros; lia.
Qed.
Lemma bits_of_targets t ts : NoDup ts -> (forall i, N.testbit t i = true <-> In i ts) -> bits t = sortN ts.
Proof.
  intros Hnd H. apply bits_unique; [now apply sortN_incr|]. intros i. rewrite sortN_in. symmetry. apply H.
Qed.
Lemma transform_apply ts t cs M psi x : NoDup ts -> (length ts <= 64)%nat ->
  (forall i, N.testbit t i = true <-> In i ts) ->
  apply_mat (bits t) cs (m_at (transform_dense_matrix_by_order M ts)) psi x = apply_mat ts cs (m_at M) psi x.
Proof.
  intros Hnd Hl Ht. apply apply_mat_reorder; [assumption|apply bits_NoDup| |].
  - intros i. rewrite in_bits, Ht. tauto.
  - intros y z. rewrite (bits_of_targets t ts) by assumption. simpl. now rewrite !transformed_index_gather.
Qed.

(** ** Pauli matrices *)
Lemma mat_of_triplets_fold (f : N -> N) (g : N -> C) (F : C -> C) l : forall (M : matrix) i j,
  fold_left (fun (M : matrix) (t : triplet) => let '(r, c, v) := t in fun i j => if (i =? r) && (j =? c) then F v else M i j)
    (map (fun idx => (idx, f idx, g idx)) l) M i j =
  if memN i l && (j =? f i) then F (g i) else M i j.
Proof.
  induction l as [|s l IH]; intros M i j; [reflexivity|]. cbn [fold_left map]. rewrite IH.
  unfold memN. simpl existsb. destruct (existsb (N.eqb i) l) eqn:El.
  - rewrite orb_true_r. simpl. destruct (j =? f i) eqn:Ej; [reflexivity|].
    destruct (N.eqb_spec i s) as [->|]; [now rewrite Ej|]. reflexivity.
  - rewrite orb_false_r. simpl. destruct (N.eqb_spec i s) as [->|]; reflexivity.
Qed.
Lemma mat_of_triplets_seqN (f : N -> N) (g : N -> C) F d i j : i < d ->
  mat_of_triplets (map (fun idx => (idx, f idx, g idx)) (seqN d)) F i j = if j =? f i then F (g i) else C0.
Proof.
  intros Hi. unfold mat_of_triplets. rewrite mat_of_triplets_fold.
  replace (memN i (seqN d)) with true; [reflexivity|]. symmetry. apply memN_spec. now apply in_seqN.
Qed.
Lemma gather_app l1 l2 x : gather (l1 ++ l2) x = gather l1 x + 2 ^ N.of_nat (length l1) * gather l2 x.
Proof.
  induction l1 as [|t l1 IH]; [simpl; lia|]. simpl app. cbn [gather length]. rewrite IH, Nat2N.inj_succ, N.pow_succ_r'. lia.
Qed.
Lemma gather_snoc l t x : gather (l ++ [t]) x = N.lor (gather l x) (if N.testbit x t then 2 ^ N.of_nat (length l) else 0).
Proof.
  apply bits_eq_N. intros k. rewrite N.lor_spec, !gather_tb.
  assert (E : N.testbit (if N.testbit x t then 2 ^ N.of_nat (length l) else 0) (N.of_nat k) =
     Nat.eqb k (length l) && N.testbit x t).
  { destruct (N.testbit x t); [|now rewrite N.bits_0, andb_false_r]. rewrite pow2_tb, andb_true_r. lia. }
  rewrite E. destruct (Nat.lt_trichotomy k (length l)) as [H|[H|H]].
  - rewrite nth_error_app1 by assumption. replace (Nat.eqb k (length l)) with false by lia. now rewrite orb_false_r.
  - subst k. rewrite nth_error_app2 by lia. rewrite Nat.sub_diag, Nat.eqb_refl. simpl.
    rewrite (proj2 (nth_error_None l (length l))) by lia. reflexivity.
  - rewrite nth_error_app2 by lia. replace (Nat.eqb k (length l)) with false by lia.
    rewrite (proj2 (nth_error_None l k)) by lia. destruct (k - length l)%nat eqn:E2; [lia|]. simpl. now destruct n.
Qed.
Lemma compress_loop_spec fuel bf pf : forall sub pre, sub < two64 -> (length (bits sub) <= fuel)%nat ->
  (length pre + length (bits sub) <= 64)%nat ->
  compress_loop fuel bf pf sub (N.of_nat (length pre)) (gather pre bf) (gather pre pf) =
  (gather (pre ++ bits sub) bf, gather (pre ++ bits sub) pf).
Proof.
  induction fuel as [|f IH]; intros sub pre Hs Hl Hp; simpl.
  - destruct (bits sub); [now rewrite app_nil_r|simpl in Hl; lia].
  - destruct (N.eqb_spec sub 0) as [->|Hnz]; [now rewrite app_nil_r|].
    destruct (bits_step sub ltac:(lia) Hs) as (Hb & _ & Ht).
    assert (Hs' : N.land sub (sub64 sub 1) < two64) by now apply land_lt.
    rewrite Hb in Hl, Hp |- *. simpl in Hl, Hp.
    specialize (IH (N.land sub (sub64 sub 1)) (pre ++ [ctz sub])).
    rewrite app_length in IH. simpl length in IH. replace (N.of_nat (length pre + 1)) with (N.of_nat (length pre) + 1) in IH by lia.
    rewrite <- app_assoc in IH. simpl app in IH. rewrite <- IH; [|assumption|lia|lia].
    clear Ht. f_equal; rewrite gather_snoc, shl64_one by lia;
      [destruct (N.testbit bf (ctz sub))|destruct (N.testbit pf (ctz sub))]; rewrite ?N.lor_0_r; reflexivity.
Qed.
Lemma gather_all_ones m : gather (bits m) m = 2 ^ popcount m - 1.
Proof.
  apply bits_eq_N. intros k. rewrite gather_tb, <- bits_length.
  replace (2 ^ N.of_nat (length (bits m)) - 1) with (N.ones (N.of_nat (length (bits m)))) by (rewrite N.ones_equiv; lia).
  destruct (nth_error (bits m) k) as [t|] eqn:E.
  - assert (Ht : In t (bits m)) by (eapply nth_error_In; eassumption). apply in_bits in Ht. rewrite Ht.
    symmetry. apply N.ones_spec_low. assert (k < length (bits m))%nat by (apply nth_error_Some; congruence). lia.
  - apply nth_error_None in E. symmetry. apply N.ones_spec_high. lia.
Qed.
Lemma bit_width_ones k : bit_width (2 ^ k - 1) = k.
Proof.
  unfold bit_width. destruct (N.eq_dec k 0) as [->|Hk]; [reflexivity|].
  assert (2 <= 2 ^ k) by (change 2 with (2 ^ 1) at 1; apply N.pow_le_mono_r; lia).
  destruct (2 ^ k - 1) eqn:E; [lia|]. rewrite <- E.
  assert (E2 : N.log2 (2 ^ k - 1) = k - 1).
  { apply N.log2_unique; [lia|]. replace (N.succ (k - 1)) with k by lia.
    assert (2 ^ k = 2 * 2 ^ (k - 1)) by (rewrite <- N.pow_succ_r'; f_equal; lia). lia. }
  rewrite E2. lia.
Qed.
Lemma pauli_matrix_entry bf pf i j : N.lor bf pf < two64 -> popcount (N.lor bf pf) < 64 ->
  i < 2 ^ popcount (N.lor bf pf) -> j < 2 ^ popcount (N.lor bf pf) -> forall coef F,
  mat_of_triplets (pauli_triplets (Pauli coef bf pf)) F i j =
  if j =? N.lxor i (gather (bits (N.lor bf pf)) bf)
  then F (rot90 bf pf * pauli_sign (N.land i (gather (bits (N.lor bf pf)) pf)))%C else C0.
Proof.
  intros Hm Hk Hi Hj coef F. unfold pauli_triplets. cbn [p_bf p_pf].
  change (compress_loop 64 bf pf (N.lor bf pf) 0 0 0) with
    (compress_loop 64 bf pf (N.lor bf pf) (N.of_nat (length (@nil N))) (gather [] bf) (gather [] pf)).
  rewrite compress_loop_spec; [|assumption| |].
  - simpl app. set (ts := bits (N.lor bf pf)).
    assert (E : N.lor (gather ts bf) (gather ts pf) = gather ts (N.lor bf pf)).
    { symmetry. apply (gather_bitop N.lor orb); [apply N.lor_spec|reflexivity]. }
    rewrite E. unfold ts. rewrite gather_all_ones, bit_width_ones, shl64_one by assumption.
    rewrite mat_of_triplets_seqN by assumption. reflexivity.
  - pose proof (bits_length (N.lor bf pf)). lia.
  - pose proof (bits_length (N.lor bf pf)). simpl. lia.
Qed.
Lemma pauli_tensor_entry bf pf i j : i < 2 ^ popcount (N.lor bf pf) -> j < 2 ^ popcount (N.lor bf pf) ->
  pauli_textbook bf pf (bits (N.lor bf pf)) i j =
  if j =? N.lxor i (gather (bits (N.lor bf pf)) bf)
  then (rot90 bf pf * pauli_sign (N.land i (gather (bits (N.lor bf pf)) pf)))%C else C0.
Proof.
  intros Hi Hj. set (ts := bits (N.lor bf pf)).
  assert (Hl : 2 ^ N.of_nat (length ts) = 2 ^ popcount (N.lor bf pf)) by (unfold ts; now rewrite bits_length).
  assert (Hg : i = gather ts (scatter ts i 0)) by (symmetry; apply gather_scatter; [apply bits_NoDup|lia]).
  unfold pauli_textbook. rewrite Hg. rewrite tensor_entry; [|apply covers_bits|fold ts; lia]. fold ts.
  rewrite <- (pauli_phase_gather ts) by apply covers_bits. rewrite <- Hg.
  destruct (j =? _); [|reflexivity]. unfold pauli_phase, rot90. f_equal.
  unfold mi_pow. rewrite <- gather_land. rewrite popcount_gather; [reflexivity|apply bits_NoDup|].
  intros q Hq. apply in_bits. rewrite N.land_spec in Hq. rewrite N.lor_spec. destruct (N.testbit bf q); [reflexivity|discriminate].
Qed.
Lemma pauli_get_matrix_textbook p : N.lor (p_bf p) (p_pf p) < two64 -> popcount (N.lor (p_bf p) (p_pf p)) < 64 ->
  mat_eq (2 ^ popcount (N.lor (p_bf p) (p_pf p))) (pauli_get_matrix p)
    (fun i j => (p_coef p * pauli_textbook (p_bf p) (p_pf p) (bits (N.lor (p_bf p) (p_pf p))) i j)%C).
Proof.
  intros H1 H2 i j Hi Hj. destruct p as [coef bf pf]. cbn [p_bf p_pf p_coef] in *. unfold pauli_get_matrix. cbn [p_coef].
  rewrite pauli_matrix_entry, pauli_tensor_entry by assumption. destruct (j =? _); ring.
Qed.
Lemma pauli_get_matrix_ignoring_textbook p : N.lor (p_bf p) (p_pf p) < two64 -> popcount (N.lor (p_bf p) (p_pf p)) < 64 ->
  mat_eq (2 ^ popcount (N.lor (p_bf p) (p_pf p))) (pauli_get_matrix_ignoring_coef p)
    (pauli_textbook (p_bf p) (p_pf p) (bits (N.lor (p_bf p) (p_pf p)))).
Proof.
  intros H1 H2 i j Hi Hj. destruct p as [coef bf pf]. cbn [p_bf p_pf p_coef] in *. unfold pauli_get_matrix_ignoring_coef.
  now rewrite pauli_matrix_entry, pauli_tensor_entry by assumption.
Qed.

(** ** Sparse storage *)
Lemma csr_sum_matrix S i j : csr_sum S i j = csr_matrix S i j.
Proof.
  unfold csr_sum, csr_matrix, csr_entries, csr_row. rewrite !Csuml_map. apply Csuml_ext. intros k Hk. reflexivity.
Qed.
Lemma last_wins_sum (l : list (N * C)) j : NoDup (map fst l) -> forall v0,
  fold_left (fun v e => if fst e =? j then snd e else v) l v0 =
  if memN j (map fst l) then Csuml (fun e => if fst e =? j then snd e else C0) l else v0.
Proof.
  induction l as [|[k v] l IH]; intros Hnd v0; [reflexivity|]. simpl in Hnd. inversion Hnd as [|? ? Hk Hnd']; subst.
  cbn [fold_left fst snd]. rewrite IH by assumption. unfold memN. simpl existsb. rewrite (N.eqb_sym j k).
  unfold Csuml. cbn [fold_right fst snd]. destruct (N.eqb_spec k j) as [->|Hne]; simpl;
    fold (Csuml (fun e : N * C => if fst e =? j then snd e else C0) l).
  - replace (existsb (N.eqb j) (map fst l)) with false.
    + rewrite Csuml_zero; [ring|]. intros [k2 v2] Hin. simpl. destruct (N.eqb_spec k2 j) as [->|]; [|reflexivity].
      exfalso. apply Hk. apply in_map_iff. exists (j, v2). auto.
    + symmetry. apply not_true_is_false. intros H. apply Hk. apply memN_spec. exact H.
  - destruct (existsb (N.eqb j) (map fst l)); [ring|reflexivity].
Qed.
Lemma csr_dense_sum S i j : i < csr_rows S -> csr_ok S -> csr_to_dense S i j = csr_sum S i j.
Proof.
  intros Hi Hok. destruct (Hok i Hi) as [Hnd _]. unfold csr_to_dense, csr_sum. rewrite last_wins_sum by assumption.
  destruct (memN j (map fst (csr_entries S i))) eqn:E; [reflexivity|]. symmetry. apply Csuml_zero.
  intros [k v] Hin. simpl. destruct (N.eqb_spec k j) as [->|]; [|reflexivity]. exfalso.
  apply not_true_iff_false in E. apply E. apply memN_spec. apply in_map_iff. exists (j, v). auto.
Qed.
Lemma csr_ok_wf S : csr_ok S -> csr_wf S.
Proof.
  intros H r [v k] Hr Hin. destruct (H r Hr) as [_ Hf]. rewrite Forall_forall in Hf.
  unfold csr_row in Hin. apply in_map_iff in Hin. destruct Hin as (x & [= <- <-] & Hx). simpl.
  refine (Hf (_, _) _). unfold csr_entries. apply in_map_iff. exists x. split; [reflexivity|assumption].
Qed.

Section SparseView.
  Context {T : Type}.
  Lemma row_ptr_fold (rows : list (list T)) : forall ptr s, last ptr 0 = s -> ptr <> [] ->
    fold_left (fun ptr r => ptr ++ [last ptr 0 + N.of_nat (length r)]) rows ptr =
    ptr ++ map (fun k => s + N.of_nat (length (concat (firstn (S k) rows)))) (seq 0 (length rows)).
  Proof.
    induction rows as [|r rows IH]; intros ptr s Hs Hp; cbn [fold_left length seq map]; [now rewrite app_nil_r|].
    rewrite (IH _ (s + N.of_nat (length r))).
    - rewrite <- app_assoc. cbn [app]. rewrite Hs. f_equal. f_equal.
      + cbn [firstn concat]. rewrite app_nil_r. reflexivity.
      + rewrite <- seq_shift, map_map. apply map_ext. intros k. cbn [firstn concat]. rewrite app_length.
        cbn [firstn concat] in *. destruct rows; cbn [firstn concat]; rewrite ?app_length; lia.
    - rewrite last_last. now rewrite Hs.
    - intros H. apply app_eq_nil in H. destruct H. discriminate.
  Qed.
  Lemma row_ptr_nth (rows : list (list T)) k : (k <= length rows)%nat ->
    nth k (fold_left (fun ptr r => ptr ++ [last ptr 0 + N.of_nat (length r)]) rows [0]) 0 =
    N.of_nat (length (concat (firstn k rows))).
  Proof.
    intros Hk. rewrite (row_ptr_fold rows [0] 0) by (try reflexivity; discriminate).
    destruct k as [|k]; [reflexivity|]. cbn [app nth].
    rewrite (nth_indep _ 0 (0 + N.of_nat (length (concat (firstn 1 rows))))) by (rewrite map_length, seq_length; lia).
    rewrite (map_nth (fun k => 0 + N.of_nat (length (concat (firstn (S k) rows)))) (seq 0 (length rows)) 0%nat k).
    rewrite seq_nth by lia. simpl. reflexivity.
  Qed.
  Lemma concat_nth (rows : list (list T)) d : forall r k, (r < length rows)%nat -> (k < length (nth r rows []))%nat ->
    nth (length (concat (firstn r rows)) + k) (concat rows) d = nth k (nth r rows []) d.
  Proof.
    induction rows as [|x rows IH]; intros r k Hr Hk; [simpl in Hr; lia|]. destruct r as [|r].
    - simpl in *. now rewrite app_nth1.
    - cbn [firstn concat nth] in *. rewrite app_length, app_nth2 by lia.
      rewrite <- (IH r k) by (simpl in Hr; lia). f_equal. lia.
  Qed.
  Lemma concat_firstn_S (rows : list (list T)) r : (r < length rows)%nat ->
    length (concat (firstn (S r) rows)) = (length (concat (firstn r rows)) + length (nth r rows []))%nat.
  Proof.
    revert r. induction rows as [|x rows IH]; intros r Hr; [simpl in Hr; lia|]. destruct r as [|r].
    - simpl. rewrite app_nil_r. reflexivity.
    - cbn [length] in Hr. specialize (IH r ltac:(lia)). cbn [firstn concat nth] in *. rewrite !app_length.
      destruct rows; [simpl in Hr; lia|]. cbn [firstn concat] in *. lia.
  Qed.
End SparseView.
Definition sv_row (M : dmat) (r : N) : list (N * C) :=
  filter (fun jv => nz (snd jv)) (map (fun j => (j, m_at M r j)) (seqN (m_cols M))).
Lemma sparse_view_entries M r : r < m_rows M -> csr_entries (sparse_view M) r = sv_row M r.
Proof.
  intros Hr. unfold csr_entries, sparse_view. cbn [csr_row_ptr csr_col_idx csr_vals].
  fold (sv_row M). change (fun r0 : N => filter (fun jv : N * C => nz (snd jv)) (map (fun j => (j, m_at M r0 j)) (seqN (m_cols M)))) with (sv_row M).
  set (rows := map (sv_row M) (seqN (m_rows M))).
  assert (Hlen : length rows = N.to_nat (m_rows M)) by (unfold rows; now rewrite map_length, length_seqN).
  assert (Hn : nth (N.to_nat r) rows [] = sv_row M r).
  { unfold rows. rewrite (nth_indep _ [] (sv_row M 0)) by (rewrite map_length, length_seqN; lia).
    rewrite map_nth. f_equal. rewrite nth_seqN by lia. lia. }
  rewrite !row_ptr_nth by lia. replace (N.to_nat (r + 1)) with (S (N.to_nat r)) by lia.
  rewrite concat_firstn_S by lia. rewrite Hn.
  set (lo := length (concat (firstn (N.to_nat r) rows))).
  replace (N.of_nat (lo + length (sv_row M r)) - N.of_nat lo) with (N.of_nat (length (sv_row M r))) by lia.
  transitivity (map (fun k => nth (N.to_nat k) (sv_row M r) (0, C0)) (seqN (N.of_nat (length (sv_row M r))))).
  - apply map_ext_in. intros k Hk. apply in_seqN in Hk.
    replace (N.to_nat (N.of_nat lo + k)) with (lo + N.to_nat k)%nat by lia.
    rewrite (map_nth fst (concat rows) (0, C0)), (map_nth snd (concat rows) (0, C0)).
    unfold lo. rewrite concat_nth by (rewrite ?Hn; lia). rewrite Hn.
    destruct (nth (N.to_nat k) (sv_row M r) (0, C0)). reflexivity.
  - generalize (sv_row M r). clear. intros l. apply nth_ext with (d := (0, C0)) (d' := (0, C0)).
    + rewrite map_length, length_seqN. lia.
    + intros i Hi. rewrite map_length, length_seqN in Hi.
      rewrite (nth_indep _ (0, C0) (nth (N.to_nat 0) l (0, C0))) by (rewrite map_length, length_seqN; lia).
      rewrite (map_nth (fun k => nth (N.to_nat k) l (0, C0))). f_equal. rewrite nth_seqN by lia. lia.
Qed.
Lemma map_fst_filter_NoDup (l : list (N * C)) p : NoDup (map fst l) -> NoDup (map fst (filter p l)).
Proof.
  induction l as [|x l IH]; intros H; simpl; [constructor|]. simpl in H. inversion H as [|? ? Hx H']; subst.
  destruct (p x); [|auto]. simpl. constructor; [|auto]. intros Hin. apply Hx. apply in_map_iff in Hin.
  destruct Hin as (y & Ey & Hy). apply filter_In in Hy. apply in_map_iff. exists y. tauto.
Qed.
Lemma map_map_fst (l : list N) (f : N -> C) : map fst (map (fun j => (j, f j)) l) = l.
Proof. rewrite map_map. simpl. apply map_id. Qed.
Lemma sparse_view_ok M : m_rows M = m_cols M -> csr_ok (sparse_view M).
Proof.
  intros Hsq r Hr. change (csr_rows (sparse_view M)) with (m_rows M) in *. rewrite sparse_view_entries by assumption.
  unfold sv_row. split.
  - apply map_fst_filter_NoDup. rewrite map_map_fst. apply NoDup_seqN.
  - apply Forall_forall. intros [j v] Hin. apply filter_In in Hin. destruct Hin as [Hin _].
    apply in_map_iff in Hin. destruct Hin as (k & [= <- <-] & Hk). apply in_seqN in Hk. simpl. lia.
Qed.
Lemma nz_false v : nz v = false -> v = C0.
Proof.
  unfold nz. destruct (Req_EM_T (fst v) 0); [|discriminate]. destruct (Req_EM_T (snd v) 0); [|discriminate].
  intros _. apply C_eq; assumption.
Qed.
Lemma sparse_view_sum M i j : i < m_rows M -> j < m_cols M -> csr_sum (sparse_view M) i j = m_at M i j.
Proof.
  intros Hi Hj. unfold csr_sum. rewrite sparse_view_entries by assumption. unfold sv_row.
  rewrite <- Csuml_filter, Csuml_map. simpl. fold (Csum (m_cols M) (fun x => if nz (m_at M i x) then if x =? j then m_at M i x else C0 else C0)).
  rewrite (Csum_single _ _ j); [|assumption|].
  - rewrite N.eqb_refl. destruct (nz (m_at M i j)) eqn:E; [reflexivity|]. now rewrite nz_false.
  - intros k Hk Hne. replace (k =? j) with false by lia. now destruct (nz _).
Qed.
