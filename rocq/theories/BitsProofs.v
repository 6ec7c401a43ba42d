(** Facts about the bit helpers of Bits.v. *)
From Verif Require Export Bits.
From Coq Require Import Sorting.Sorted Permutation.
From Coq Require Import ZifyBool ZifyN ZifyNat.

(** ** testbit toolbox *)
Lemma shiftl_tb a n i : N.testbit (N.shiftl a n) i = (n <=? i) && N.testbit a (i - n).
Proof.
  destruct (N.leb_spec n i); simpl.
  - apply N.shiftl_spec_high'; assumption.
  - apply N.shiftl_spec_low; assumption.
Qed.
Lemma shiftr_tb a n i : N.testbit (N.shiftr a n) i = N.testbit a (i + n).
Proof. apply N.shiftr_spec'. Qed.
Lemma ones_tb n i : N.testbit (N.ones n) i = (i <? n).
Proof.
  destruct (N.ltb_spec i n); [apply N.ones_spec_low | apply N.ones_spec_high]; assumption.
Qed.
Lemma shl64_tb a n i : N.testbit (shl64 a n) i = (i <? 64) && ((n <=? i) && N.testbit a (i - n)).
Proof. unfold shl64. now rewrite wrap_testbit, shiftl_tb. Qed.
Lemma pow2_tb n i : N.testbit (2 ^ n) i = (i =? n).
Proof. rewrite N.pow2_bits_eqb. apply N.eqb_sym. Qed.
Lemma one_tb i : N.testbit 1 i = (i =? 0).
Proof. change 1 with (2^0). apply pow2_tb. Qed.

Global Hint Rewrite N.lor_spec N.land_spec N.ldiff_spec N.lxor_spec shiftl_tb shiftr_tb ones_tb shl64_tb pow2_tb
  wrap_testbit not64_testbit N.bits_0 one_tb : tb.

Lemma bool_lt_spec a b : (a <? b) = true <-> a < b. Proof. lia. Qed.

(** Bit-level equality: reduces to a propositional statement and splits on comparisons. *)
Ltac cmp_cases :=
  repeat match goal with
  | |- context [?a <? ?b] => destruct (N.ltb_spec a b)
  | |- context [?a <=? ?b] => destruct (N.leb_spec a b)
  | |- context [?a =? ?b] => destruct (N.eqb_spec a b)
  end.
Ltac bool_solve :=
  repeat match goal with |- context [N.testbit ?x ?i] => destruct (N.testbit x i) end; reflexivity.
Ltac same_idx :=
  repeat match goal with
  | |- context [N.testbit ?x ?i] =>
    match goal with |- context [N.testbit x ?j] =>
      tryif constr_eq i j then fail else (replace j with i by lia)
    end
  end.
Ltac bitwise i := apply N.bits_inj; intro i; autorewrite with tb.
Ltac tbsolve := cmp_cases; subst; simpl; try lia; rewrite ?andb_true_r, ?andb_false_r, ?orb_false_r, ?orb_true_r;
  try reflexivity; try (f_equal; lia); try (same_idx; bool_solve).

Lemma lt_two64_tb x : x < two64 -> forall i, 64 <= i -> N.testbit x i = false.
Proof. intros H i Hi. eapply testbit_high; [exact H|exact Hi]. Qed.

Lemma pow2_pos n : 0 < 2 ^ n.
Proof. apply N.neq_0_lt_0, N.pow_nonzero; lia. Qed.
Lemma shiftr_lt a n B : N.shiftr a n < B <-> a < B * 2 ^ n.
Proof.
  rewrite N.shiftr_div_pow2. pose proof (pow2_pos n).
  split; intros.
  - destruct (N.lt_ge_cases a (B * 2^n)); [assumption|].
    assert (B <= a / 2 ^ n) by (apply N.div_le_lower_bound; lia). lia.
  - apply N.div_lt_upper_bound; lia.
Qed.
Lemma lt_mul_pow2_le a B n m : a < B * 2 ^ n -> B * 2 ^ n <= m -> a < m.
Proof. lia. Qed.

(** ** Strictly increasing lists *)
Notation incr := (StronglySorted N.lt).

Lemma incr_NoDup l : incr l -> NoDup l.
Proof.
  induction 1; constructor; auto. intros Hin. rewrite Forall_forall in H0. specialize (H0 _ Hin). lia.
Qed.
Lemma incr_ext l1 l2 : incr l1 -> incr l2 -> (forall x, In x l1 <-> In x l2) -> l1 = l2.
Proof.
  intros H1; revert l2; induction H1 as [|a l1 Hl1 IH Ha]; intros l2 H2 Hin.
  - destruct l2 as [|b l2]; [reflexivity|]. exfalso. apply (proj2 (Hin b)). now left.
  - inversion H2 as [|b l2' Hl2 Hb]; subst.
    + exfalso. apply (proj1 (Hin a)). now left.
    + rewrite Forall_forall in Ha, Hb.
      assert (a = b).
      { assert (Ia : In a (b :: l2')) by (apply Hin; now left).
        assert (Ib : In b (a :: l1)) by (apply Hin; now left).
        destruct Ia as [->|Ia]; [reflexivity|]. destruct Ib as [->|Ib]; [reflexivity|].
        specialize (Ha _ Ib). specialize (Hb _ Ia). lia. }
      subst b. f_equal. apply IH; [assumption|].
      intros x; split; intros Hx.
      * assert (In x (a :: l2')) as [->|] by (apply Hin; now right); [|assumption].
        specialize (Ha _ Hx). lia.
      * assert (In x (a :: l1)) as [->|] by (apply Hin; now right); [|assumption].
        specialize (Hb _ Hx). lia.
Qed.
Lemma incr_len l : forall n p, incr (p :: l) -> Forall (fun x => x < n) (p :: l) ->
  p + N.of_nat (length l) < n.
Proof.
  induction l as [|q l IH]; intros n p Hs Hf; simpl.
  - inversion Hf; subst. lia.
  - inversion Hs as [|? ? Hs' Hp]; subst. inversion Hf as [|? ? _ Hf']; subst.
    inversion Hp; subst. specialize (IH n q Hs' Hf'). lia.
Qed.
Lemma incr_length_le l n : incr l -> Forall (fun x => x < n) l -> N.of_nat (length l) <= n.
Proof.
  destruct l as [|p l]; simpl; [lia|]. intros Hs Hf.
  pose proof (incr_len l n p Hs Hf). lia.
Qed.

(** ** bits *)
Lemma bits_pos_spec p : forall k,
  incr (bits_pos k p) /\ (forall i, In i (bits_pos k p) <-> k <= i /\ N.testbit (Npos p) (i - k) = true)
  /\ N.of_nat (length (bits_pos k p)) = popcount_pos p.
Proof.
  induction p as [q IH|q IH|]; intros k; cbn [bits_pos popcount_pos].
  - destruct (IH (k + 1)) as (S1 & I1 & L1). split; [|split].
    + constructor; [assumption|]. apply Forall_forall. intros x Hx. apply I1 in Hx. lia.
    + intros i. simpl. rewrite I1. change (N.pos q~1) with (2 * N.pos q + 1).
      destruct (N.eq_dec i k) as [->|Hne].
      * rewrite N.sub_diag, N.testbit_odd_0. split; [lia|auto].
      * split.
        -- intros [->|[H1 H2]]; [lia|]. split; [lia|].
           replace (i - k) with (N.succ (i - (k + 1))) by lia. rewrite N.testbit_odd_succ by lia. assumption.
        -- intros [H1 H2]. right. split; [lia|].
           replace (i - k) with (N.succ (i - (k + 1))) in H2 by lia. rewrite N.testbit_odd_succ in H2 by lia. assumption.
    + simpl. lia.
  - destruct (IH (k + 1)) as (S1 & I1 & L1). split; [|split]; [assumption| |assumption].
    intros i. rewrite I1. change (N.pos q~0) with (2 * N.pos q).
    destruct (N.eq_dec i k) as [->|Hne].
    * rewrite N.sub_diag, N.testbit_even_0. split; [lia|intros [_ H]; discriminate].
    * split.
      -- intros [H1 H2]. split; [lia|].
         replace (i - k) with (N.succ (i - (k + 1))) by lia. rewrite N.testbit_even_succ by lia. assumption.
      -- intros [H1 H2]. split; [lia|].
         replace (i - k) with (N.succ (i - (k + 1))) in H2 by lia. rewrite N.testbit_even_succ in H2 by lia. assumption.
  - split; [|split]; [repeat constructor| |reflexivity].
    intros i. rewrite one_tb. simpl. split.
    + intros [->|[]]. split; [lia|]. lia.
    + intros [H1 H2]. left. lia.
Qed.

Lemma bits_incr x : incr (bits x).
Proof. destruct x; simpl; [constructor|]. apply bits_pos_spec. Qed.
Lemma in_bits x i : In i (bits x) <-> N.testbit x i = true.
Proof.
  destruct x; simpl.
  - rewrite N.bits_0. split; [intros []|discriminate].
  - destruct (bits_pos_spec p 0) as (_ & H & _). rewrite H, N.sub_0_r. intuition lia.
Qed.
Lemma bits_length x : N.of_nat (length (bits x)) = popcount x.
Proof. destruct x; simpl; [reflexivity|]. apply bits_pos_spec. Qed.
Lemma bits_lt x n : x < 2 ^ n -> Forall (fun i => i < n) (bits x).
Proof.
  intros H. apply Forall_forall. intros i Hi. apply in_bits in Hi.
  destruct (N.lt_ge_cases i n); [assumption|]. now rewrite (testbit_high x n) in Hi.
Qed.
Lemma bits_NoDup x : NoDup (bits x).
Proof. apply incr_NoDup, bits_incr. Qed.
Lemma popcount_le x n : x < 2 ^ n -> popcount x <= n.
Proof. intros. rewrite <- bits_length. apply incr_length_le; [apply bits_incr|now apply bits_lt]. Qed.
Lemma bits_unique x l : incr l -> (forall i, In i l <-> N.testbit x i = true) -> bits x = l.
Proof.
  intros Hs Hl. apply incr_ext; [apply bits_incr|assumption|].
  intros i. now rewrite in_bits, Hl.
Qed.

(** ** Lowest set bit *)
Lemma ctz_decomp p : exists q, N.pos p = 2 ^ (ctz_pos p) * (2 * q + 1).
Proof.
  induction p as [q IH|q [r IH]|]; cbn [ctz_pos].
  - exists (N.pos q). change (2 ^ 0) with 1. lia.
  - exists r. change (N.pos q~0) with (2 * N.pos q). rewrite IH, N.pow_add_r. change (2^1) with 2. lia.
  - exists 0. change (2^0) with 1. lia.
Qed.
Lemma ctz_odd_tb k q i : N.testbit (2 ^ k * (2 * q + 1)) i =
  if i <? k then false else if i =? k then true else N.testbit q (i - k - 1).
Proof.
  rewrite N.mul_comm, <- N.shiftl_mul_pow2, shiftl_tb.
  destruct (N.ltb_spec i k); destruct (N.leb_spec k i); try lia; simpl; try reflexivity.
  destruct (N.eqb_spec i k).
  - subst. rewrite N.sub_diag. apply N.testbit_odd_0.
  - replace (i - k) with (N.succ (i - k - 1)) at 1 by lia. apply N.testbit_odd_succ; lia.
Qed.
Lemma ctz_pred_tb k q i : N.testbit (2 ^ k * (2 * q + 1) - 1) i =
  if i <? k then true else if i =? k then false else N.testbit q (i - k - 1).
Proof.
  replace (2 ^ k * (2 * q + 1) - 1) with (N.lor (N.shiftl (2 * q) k) (N.ones k)).
  - autorewrite with tb.
    destruct (N.ltb_spec i k); destruct (N.leb_spec k i); try (exfalso; lia); simpl; try reflexivity.
    rewrite orb_false_r. destruct (N.eqb_spec i k).
    + subst. rewrite N.sub_diag. apply N.testbit_even_0.
    + replace (i - k) with (N.succ (i - k - 1)) at 1 by lia. apply N.testbit_even_succ; lia.
  - assert (Hd : N.land (N.shiftl (2 * q) k) (N.ones k) = 0) by (bitwise i0; tbsolve).
    rewrite <- N.lxor_lor, <- N.add_nocarry_lxor by assumption.
    rewrite N.shiftl_mul_pow2, N.ones_equiv, N.pred_sub. pose proof (pow2_pos k). nia.
Qed.

Lemma sub64_pred x : 0 < x -> x < two64 -> sub64 x 1 = x - 1.
Proof.
  intros. unfold sub64. unfold wrap.
  replace (x + (two64 - 1)) with ((x - 1) + 1 * two64) by (unfold two64 in *; lia).
  rewrite N.mod_add by (unfold two64; lia). apply N.mod_small. lia.
Qed.

(** One round of the "loop through set bits" idiom. *)
Lemma bits_step bm : 0 < bm -> bm < two64 ->
  bits bm = ctz bm :: bits (N.land bm (sub64 bm 1)) /\
  N.land (not64 bm) (sub64 bm 1) = N.ones (ctz bm) /\
  N.testbit bm (ctz bm) = true.
Proof.
  intros H0 H64. rewrite sub64_pred by assumption.
  destruct bm as [|p]; [lia|]. simpl ctz. destruct (ctz_decomp p) as [q Hq]. rewrite Hq in *.
  set (k := ctz_pos p) in *.
  split; [|split].
  - apply bits_unique.
    + constructor; [apply bits_incr|]. apply Forall_forall. intros i Hi. apply in_bits in Hi.
      rewrite N.land_spec, ctz_odd_tb, ctz_pred_tb in Hi.
      destruct (N.ltb_spec i k); simpl in Hi; [discriminate|].
      destruct (N.eqb_spec i k); simpl in Hi; [discriminate|]. lia.
    + intros i. simpl. rewrite in_bits, N.land_spec, ctz_odd_tb, ctz_pred_tb.
      destruct (N.ltb_spec i k); destruct (N.eqb_spec i k); simpl; try (exfalso; lia);
        destruct (N.testbit q (i - k - 1)); simpl; split; intros Hx; try reflexivity; try discriminate;
        try (destruct Hx as [Hx|Hx]; try discriminate; exfalso; lia);
        first [left; congruence | right; reflexivity].
  - assert (k < 64).
    { destruct (N.lt_ge_cases k 64); [assumption|].
      assert (N.testbit (2 ^ k * (2 * q + 1)) k = false) by (eapply lt_two64_tb; eassumption).
      rewrite ctz_odd_tb in H1. rewrite N.ltb_irrefl, N.eqb_refl in H1. discriminate. }
    apply N.bits_inj; intro i. rewrite N.land_spec, not64_testbit, ones_tb.
    assert (Hh : 64 <= i -> N.testbit (2 ^ k * (2 * q + 1)) i = false) by (intros; eapply lt_two64_tb; eassumption).
    rewrite ctz_pred_tb. rewrite ctz_odd_tb in *.
    destruct (N.ltb_spec i k); destruct (N.eqb_spec i k); destruct (N.ltb_spec i 64); simpl; try (exfalso; lia); try reflexivity.
    + destruct (N.testbit q (i - k - 1)); reflexivity.
    + now rewrite Hh.
  - rewrite ctz_odd_tb, N.ltb_irrefl, N.eqb_refl. reflexivity.
Qed.
Lemma land_pred_u64 bm : bm < two64 -> N.land bm (sub64 bm 1) < two64.
Proof.
  intros H. apply lt_pow2_testbit. intros i Hi. rewrite N.land_spec.
  rewrite (lt_two64_tb bm) by assumption. reflexivity.
Qed.
Lemma bits_nil x : bits x = [] -> x = 0.
Proof.
  intros H. apply N.bits_inj_0. intros i. destruct (N.testbit x i) eqn:E; [|reflexivity].
  apply in_bits in E. rewrite H in E. destruct E.
Qed.
Lemma bits_length_64 x : x < two64 -> (length (bits x) <= 64)%nat.
Proof.
  intros H. pose proof (incr_length_le (bits x) 64 (bits_incr x) (bits_lt x 64 H)). lia.
Qed.

(** ** mask_to_vector *)
Lemma mask_to_vector_loop_bits fuel : forall m, m < two64 -> (length (bits m) <= fuel)%nat ->
  mask_to_vector_loop fuel m = bits m.
Proof.
  induction fuel as [|f IH]; intros m Hm Hl; simpl.
  - destruct (bits m); [reflexivity|simpl in Hl; lia].
  - destruct (N.eqb_spec m 0) as [->|Hnz]; [reflexivity|].
    destruct (bits_step m) as (Hb & _ & _); [lia|assumption|].
    rewrite Hb. f_equal. apply IH; [now apply land_pred_u64|]. rewrite Hb in Hl. simpl in Hl. lia.
Qed.
Lemma mask_to_vector_bits m : m < two64 -> mask_to_vector m = bits m.
Proof. intros. apply mask_to_vector_loop_bits; [assumption|now apply bits_length_64]. Qed.

Lemma mask_to_values_loop_bits fuel : forall m v, m < two64 -> (length (bits m) <= fuel)%nat ->
  mask_to_values_loop fuel m v = map (fun i => N.b2n (N.testbit v i)) (bits m).
Proof.
  induction fuel as [|f IH]; intros m v Hm Hl; simpl.
  - destruct (bits m); [reflexivity|simpl in Hl; lia].
  - destruct (N.eqb_spec m 0) as [->|Hnz]; [reflexivity|].
    destruct (bits_step m) as (Hb & _ & _); [lia|assumption|].
    rewrite Hb. simpl. f_equal. apply IH; [now apply land_pred_u64|]. rewrite Hb in Hl. simpl in Hl. lia.
Qed.
Lemma mask_to_values_bits m v : m < two64 ->
  mask_to_values m v = map (fun i => N.b2n (N.testbit v i)) (bits m).
Proof. intros. apply mask_to_values_loop_bits; [assumption|now apply bits_length_64]. Qed.

(** ** Inserting and removing zero bits *)
Definition ins1 (p x : N) : N := N.lor (N.shiftl (N.shiftr x p) (p + 1)) (N.land x (N.ones p)).
Definition rem1 (p x : N) : N := N.lor (N.shiftl (N.shiftr x (p + 1)) p) (N.land x (N.ones p)).
Fixpoint ins_list (l : list N) (x : N) : N :=
  match l with [] => x | p :: r => ins_list r (ins1 p x) end.
Fixpoint rem_list (l : list N) (x : N) : N :=
  match l with [] => x | p :: r => rem1 p (rem_list r x) end.

Lemma ins1_tb p x i : N.testbit (ins1 p x) i =
  if i <? p then N.testbit x i else if i =? p then false else N.testbit x (i - 1).
Proof. unfold ins1. autorewrite with tb. tbsolve. Qed.
Lemma rem1_tb p x i : N.testbit (rem1 p x) i = if i <? p then N.testbit x i else N.testbit x (i + 1).
Proof. unfold rem1. autorewrite with tb. tbsolve. Qed.
Lemma rem1_ins1 p x : rem1 p (ins1 p x) = x.
Proof.
  apply N.bits_inj; intro i. rewrite rem1_tb, !ins1_tb. tbsolve.
Qed.
Lemma ins1_rem1 p x : N.testbit x p = false -> ins1 p (rem1 p x) = x.
Proof.
  intros H. apply N.bits_inj; intro i. rewrite ins1_tb, !rem1_tb.
  destruct (N.ltb_spec i p); [reflexivity|]. destruct (N.eqb_spec i p); [subst; auto|].
  destruct (N.ltb_spec (i - 1) p); [lia|]. f_equal; lia.
Qed.
Lemma ins_list_low l : forall x i, Forall (fun p => i < p) l -> N.testbit (ins_list l x) i = N.testbit x i.
Proof.
  induction l as [|p l IH]; intros x i Hf; simpl; [reflexivity|].
  inversion Hf; subst. rewrite IH by assumption. rewrite ins1_tb.
  destruct (N.ltb_spec i p); [reflexivity|lia].
Qed.
Lemma rem_list_low l : forall x i, Forall (fun p => i < p) l -> N.testbit (rem_list l x) i = N.testbit x i.
Proof.
  induction l as [|p l IH]; intros x i Hf; simpl; [reflexivity|].
  inversion Hf; subst. rewrite rem1_tb. destruct (N.ltb_spec i p); [|lia]. now apply IH.
Qed.
Lemma ins_list_zero l : forall x p, incr l -> In p l -> N.testbit (ins_list l x) p = false.
Proof.
  induction l as [|q l IH]; intros x p Hs Hin; [destruct Hin|].
  inversion Hs as [|? ? Hs' Hq]; subst. simpl. destruct Hin as [->|Hin].
  - rewrite ins_list_low by assumption. rewrite ins1_tb, N.ltb_irrefl, N.eqb_refl. reflexivity.
  - now apply IH.
Qed.
Lemma rem_ins_list l x : rem_list l (ins_list l x) = x.
Proof.
  revert x; induction l as [|p l IH]; intros x; simpl; [reflexivity|]. rewrite IH. apply rem1_ins1.
Qed.
Lemma ins_rem_list l x : incr l -> (forall p, In p l -> N.testbit x p = false) -> ins_list l (rem_list l x) = x.
Proof.
  revert x; induction l as [|p l IH]; intros x Hs Hz; simpl; [reflexivity|].
  inversion Hs as [|? ? Hs' Hp]; subst. rewrite ins1_rem1.
  - apply IH; [assumption|]. intros; apply Hz; now right.
  - rewrite rem_list_low by assumption. apply Hz; now left.
Qed.
Lemma ins1_shiftr p x n : p < n -> N.shiftr (ins1 p x) n = N.shiftr x (n - 1).
Proof.
  intros H. bitwise i. rewrite ins1_tb. tbsolve.
Qed.
Lemma ins_list_shiftr l : forall x n, incr l -> Forall (fun p => p < n) l ->
  N.shiftr (ins_list l x) n = N.shiftr x (n - N.of_nat (length l)).
Proof.
  induction l as [|p l IH]; intros x n Hs Hf; simpl.
  - rewrite N.sub_0_r. reflexivity.
  - pose proof (incr_len l n p Hs Hf). inversion Hs; inversion Hf; subst.
    rewrite IH by assumption. rewrite ins1_shiftr by lia. f_equal; lia.
Qed.
Lemma ins_list_bound l x n B : incr l -> Forall (fun p => p < n) l ->
  (ins_list l x < B * 2 ^ n <-> x < B * 2 ^ (n - N.of_nat (length l))).
Proof. intros. rewrite <- !shiftr_lt, ins_list_shiftr by assumption. reflexivity. Qed.
Lemma ins1_le p x : x <= ins1 p x.
Proof.
  unfold ins1. rewrite <- N.lxor_lor, <- N.add_nocarry_lxor by (bitwise i; tbsolve).
  rewrite N.land_ones, N.shiftl_mul_pow2, N.shiftr_div_pow2, N.pow_add_r. change (2^1) with 2.
  pose proof (N.div_mod x (2 ^ p) (N.pow_nonzero 2 p ltac:(lia))).
  generalize dependent (x / 2 ^ p). generalize (x mod 2 ^ p). generalize (2 ^ p). intros P r q Hq.
  rewrite Hq at 1. nia.
Qed.
Lemma ins_list_le l x : x <= ins_list l x.
Proof.
  revert x; induction l as [|p l IH]; intros x; simpl; [lia|].
  etransitivity; [apply ins1_le|apply IH].
Qed.

Lemma insert_step k x : k < 64 -> ins1 k x < two64 ->
  N.lor (shl64 (N.land x (not64 (N.ones k))) 1) (N.land x (N.ones k)) = ins1 k x.
Proof.
  intros Hk Hx. apply N.bits_inj; intro i.
  assert (Hh : 64 <= i -> N.testbit (ins1 k x) i = false) by (intros; eapply lt_two64_tb; eassumption).
  rewrite ins1_tb in *. autorewrite with tb.
  cmp_cases; subst; simpl in *; try lia; rewrite ?andb_false_r, ?andb_true_r, ?orb_false_r; try reflexivity.
  all: symmetry; auto.
Qed.

Lemma insert_zero_loop_spec fuel : forall m x, m < two64 -> (length (bits m) <= fuel)%nat ->
  ins_list (bits m) x < two64 -> insert_zero_loop fuel m x = ins_list (bits m) x.
Proof.
  induction fuel as [|f IH]; intros m x Hm Hl Hx; simpl.
  - destruct (bits m); [reflexivity|simpl in Hl; lia].
  - destruct (N.eqb_spec m 0) as [->|Hnz]; [reflexivity|].
    destruct (bits_step m) as (Hb & Hlow & Ht); [lia|assumption|].
    rewrite Hb in *. simpl in *. rewrite Hlow.
    assert (ctz m < 64).
    { destruct (N.lt_ge_cases (ctz m) 64); [assumption|]. now rewrite (lt_two64_tb m) in Ht. }
    rewrite insert_step.
    + apply IH; [now apply land_pred_u64|lia|assumption].
    + assumption.
    + eapply N.le_lt_trans; [apply ins_list_le|eassumption].
Qed.

(** The machine loop equals the mathematical insertion whenever the result fits in 64 bits. *)
Lemma insert_zero_spec m x n B : m < 2 ^ n -> B * 2 ^ n <= two64 -> m < two64 ->
  x < B * 2 ^ (n - popcount m) ->
  insert_zero_at_mask_positions x m = ins_list (bits m) x.
Proof.
  intros Hm HB Hm64 Hx.
  assert (ins_list (bits m) x < B * 2 ^ n).
  { apply ins_list_bound; [apply bits_incr|now apply bits_lt|]. now rewrite bits_length. }
  apply insert_zero_loop_spec; [assumption|now apply bits_length_64|lia].
Qed.

(** The enumeration computed by the kernels: [ [0, B*2^(n-|m|)) ] onto the indices below [B*2^n] that are
    zero at every position of the mask. *)
Lemma insert_zero_range m x n B : m < 2 ^ n -> B * 2 ^ n <= two64 -> m < two64 ->
  x < B * 2 ^ (n - popcount m) ->
  insert_zero_at_mask_positions x m < B * 2 ^ n /\ N.land (insert_zero_at_mask_positions x m) m = 0.
Proof.
  intros Hm HB Hm64 Hx. rewrite (insert_zero_spec m x n B) by assumption. split.
  - apply ins_list_bound; [apply bits_incr|now apply bits_lt|]. now rewrite bits_length.
  - bitwise i. destruct (N.testbit m i) eqn:E; [|now rewrite andb_false_r].
    rewrite ins_list_zero; [reflexivity|apply bits_incr|now apply in_bits].
Qed.
Lemma insert_zero_inj m x y n B : m < 2 ^ n -> B * 2 ^ n <= two64 -> m < two64 ->
  x < B * 2 ^ (n - popcount m) -> y < B * 2 ^ (n - popcount m) ->
  insert_zero_at_mask_positions x m = insert_zero_at_mask_positions y m -> x = y.
Proof.
  intros Hm HB Hm64 Hx Hy. rewrite !(insert_zero_spec m _ n B) by assumption. intros H.
  rewrite <- (rem_ins_list (bits m) x), H. apply rem_ins_list.
Qed.
Lemma insert_zero_surj m i n B : m < 2 ^ n -> B * 2 ^ n <= two64 -> m < two64 ->
  i < B * 2 ^ n -> N.land i m = 0 ->
  rem_list (bits m) i < B * 2 ^ (n - popcount m) /\
  insert_zero_at_mask_positions (rem_list (bits m) i) m = i.
Proof.
  intros Hm HB Hm64 Hi Hz.
  assert (Hins : ins_list (bits m) (rem_list (bits m) i) = i).
  { apply ins_rem_list; [apply bits_incr|]. intros p Hp. apply in_bits in Hp.
    assert (N.testbit (N.land i m) p = false) by (rewrite Hz; apply N.bits_0).
    rewrite N.land_spec, Hp, andb_true_r in H. assumption. }
  assert (Hr : rem_list (bits m) i < B * 2 ^ (n - popcount m)).
  { rewrite <- bits_length. apply (ins_list_bound (bits m) _ n B (bits_incr m) (bits_lt _ _ Hm)).
    now rewrite Hins. }
  split; [assumption|]. now rewrite (insert_zero_spec m _ n B).
Qed.

(** Order is preserved. *)
Lemma shiftr_pred_le x y p : x < y -> N.shiftr x p <= N.shiftr y p.
Proof. intros. rewrite !N.shiftr_div_pow2. apply N.div_le_mono; [apply N.pow_nonzero; lia|lia]. Qed.
Lemma ins1_mono p x y : x < y -> ins1 p x < ins1 p y.
Proof.
  intros H. unfold ins1. rewrite <- !N.lxor_lor, <- !N.add_nocarry_lxor by (bitwise i; tbsolve).
  rewrite !N.land_ones, !N.shiftl_mul_pow2, !N.shiftr_div_pow2, N.pow_add_r. change (2^1) with 2.
  pose proof (N.div_mod x (2 ^ p) (N.pow_nonzero 2 p ltac:(lia))).
  pose proof (N.div_mod y (2 ^ p) (N.pow_nonzero 2 p ltac:(lia))).
  pose proof (N.mod_upper_bound x (2 ^ p) (N.pow_nonzero 2 p ltac:(lia))).
  pose proof (N.mod_upper_bound y (2 ^ p) (N.pow_nonzero 2 p ltac:(lia))).
  assert (x / 2 ^ p <= y / 2 ^ p) by (apply N.div_le_mono; lia).
  set (P := 2 ^ p) in *. set (qx := x / P) in *. set (qy := y / P) in *.
  set (rx := x mod P) in *. set (ry := y mod P) in *.
  clearbody qx qy rx ry P. subst x y. nia.
Qed.
Lemma ins_list_mono l x y : x < y -> ins_list l x < ins_list l y.
Proof. revert x y; induction l; intros; simpl; [assumption|]. apply IHl. now apply ins1_mono. Qed.

(** insert_zero_to_basis_index is the one-bit case. *)
Lemma insert_zero_to_basis_index_ins1 x k : k < 63 -> ins1 k x < two64 ->
  insert_zero_to_basis_index x k = ins1 k x.
Proof.
  intros Hk Hx. unfold insert_zero_to_basis_index.
  assert (shl64 1 k = 2 ^ k).
  { unfold shl64. rewrite N.shiftl_1_l. apply wrap_small. apply N.pow_lt_mono_r; lia. }
  rewrite H. rewrite sub64_pred by (try apply pow2_pos; apply N.pow_lt_mono_r; lia).
  replace (2 ^ k - 1) with (N.ones k) by (rewrite N.ones_equiv; apply N.pred_sub).
  apply N.bits_inj; intro i.
  assert (Hh : 64 <= i -> N.testbit (ins1 k x) i = false) by (intros; eapply lt_two64_tb; eassumption).
  rewrite ins1_tb in *. autorewrite with tb.
  cmp_cases; subst; simpl in *; try lia; rewrite ?andb_false_r, ?andb_true_r, ?orb_false_r; try reflexivity.
  all: first [f_equal; lia | symmetry; auto].
Qed.

(** ** vector_to_mask *)
Lemma shl64_one k : k < 64 -> shl64 1 k = 2 ^ k.
Proof.
  intros. unfold shl64. rewrite N.shiftl_1_l. apply wrap_small. apply N.pow_lt_mono_r; lia.
Qed.
Lemma lor_pow2_u64 m k : m < two64 -> k < 64 -> N.lor m (2 ^ k) < two64.
Proof.
  intros Hm Hk. apply lt_pow2_testbit. intros i Hi. autorewrite with tb.
  rewrite (lt_two64_tb m) by assumption. simpl. lia.
Qed.
Lemma vector_to_mask_aux_ok l : forall m r, m < two64 -> vector_to_mask_aux m l = Ok r ->
  Forall (fun x => x < 64) l /\ NoDup l /\ (forall x, In x l -> N.testbit m x = false) /\ r < two64 /\
  (forall i, N.testbit r i = true <-> N.testbit m i = true \/ In i l).
Proof.
  induction l as [|x l IH]; intros m r Hm; simpl.
  - intros [= <-]. repeat split; auto; try constructor; try tauto.
  - destruct (N.leb_spec 64 x); [discriminate|]. destruct (N.testbit m x) eqn:E; [discriminate|].
    rewrite shl64_one by assumption. intros Hr.
    apply IH in Hr; [|now apply lor_pow2_u64]. destruct Hr as (F & D & Z & U & T).
    repeat split.
    + constructor; assumption.
    + constructor; [|assumption]. intros Hin. specialize (Z _ Hin). autorewrite with tb in Z. lia.
    + intros y [->|Hy]; [assumption|]. specialize (Z _ Hy). autorewrite with tb in Z.
      now destruct (N.testbit m y).
    + assumption.
    + intros Hi. apply T in Hi. autorewrite with tb in Hi. destruct Hi as [Hi|Hi]; [|tauto].
      destruct (N.testbit m i) eqn:Em; [now left|]. right. left. simpl in Hi. lia.
    + intros Hi. apply T. autorewrite with tb. destruct Hi as [Hi|[->|Hi]].
      * rewrite Hi. now left.
      * left. rewrite N.eqb_refl. apply orb_true_r.
      * now right.
Qed.
Lemma vector_to_mask_aux_total l : forall m, vector_to_mask_aux m l <> UB.
Proof.
  induction l as [|x l IH]; intros m; simpl; [discriminate|].
  destruct (64 <=? x); [discriminate|]. destruct (N.testbit m x); [discriminate|]. apply IH.
Qed.
Lemma vector_to_mask_aux_accept l : forall m, m < two64 -> Forall (fun x => x < 64) l -> NoDup l ->
  (forall x, In x l -> N.testbit m x = false) -> exists r, vector_to_mask_aux m l = Ok r.
Proof.
  induction l as [|x l IH]; intros m Hm HF HD HZ; simpl; [eauto|].
  inversion HF as [|? ? Hx HF']; inversion HD as [|? ? Hn HD']; subst.
  destruct (N.leb_spec 64 x); [lia|]. rewrite HZ by now left. rewrite shl64_one by assumption.
  apply IH; auto using lor_pow2_u64. intros y Hy. autorewrite with tb.
  rewrite HZ by now right. simpl. destruct (N.eqb_spec y x); [subst; contradiction|reflexivity].
Qed.

Lemma vector_to_mask_ok l m : vector_to_mask l = Ok m <->
  Forall (fun x => x < 64) l /\ NoDup l /\ (forall i, N.testbit m i = true <-> In i l).
Proof.
  unfold vector_to_mask. split.
  - intros H. apply vector_to_mask_aux_ok in H; [|unfold two64; lia]. destruct H as (F & D & _ & _ & T).
    repeat split; auto; intros Hi.
    + apply T in Hi. rewrite N.bits_0 in Hi. destruct Hi; [discriminate|assumption].
    + apply T. now right.
  - intros (F & D & T).
    destruct (vector_to_mask_aux_accept l 0 ltac:(unfold two64; lia) F D (fun x _ => N.bits_0 x)) as [r Hr].
    rewrite Hr. f_equal. apply vector_to_mask_aux_ok in Hr; [|unfold two64; lia].
    destruct Hr as (_ & _ & _ & _ & T'). apply N.bits_inj. intros i.
    apply eq_iff_eq_true. rewrite T, T', N.bits_0. intuition discriminate.
Qed.
Lemma vector_to_mask_cases l :
  (exists m, vector_to_mask l = Ok m) \/ vector_to_mask l = Throw.
Proof.
  pose proof (vector_to_mask_aux_total l 0). unfold vector_to_mask.
  destruct (vector_to_mask_aux 0 l); eauto. contradiction.
Qed.
Lemma vector_to_mask_u64 l m : vector_to_mask l = Ok m -> m < two64.
Proof. intros H. apply vector_to_mask_aux_ok in H; [tauto|unfold two64; lia]. Qed.
Lemma vector_to_mask_bits l m : vector_to_mask l = Ok m -> Permutation (bits m) l.
Proof.
  intros H. apply vector_to_mask_ok in H. destruct H as (F & D & T).
  apply NoDup_Permutation; [apply bits_NoDup|assumption|]. intros; now rewrite in_bits, T.
Qed.
Lemma vector_to_mask_bits_eq l m : vector_to_mask l = Ok m -> incr l -> bits m = l.
Proof.
  intros H Hs. apply vector_to_mask_ok in H. destruct H as (F & D & T).
  now apply bits_unique.
Qed.
Lemma mask_to_vector_to_mask m : m < two64 -> vector_to_mask (mask_to_vector m) = Ok m.
Proof.
  intros H. rewrite mask_to_vector_bits by assumption. apply vector_to_mask_ok.
  split; [|split]; [now apply bits_lt|apply bits_NoDup|]. intros; now rewrite in_bits.
Qed.

Lemma vector_to_mask_values_aux_spec l : forall vs m, m < two64 -> Forall (fun x => x < 64) l ->
  length vs = length l ->
  if forallb (fun v => v <? 2) vs then
    exists r, vector_to_mask_values_aux m l vs = Ok r /\ r < two64 /\
      (forall i, N.testbit r i = true <-> N.testbit m i = true \/ In (i, 1) (combine l vs))
  else vector_to_mask_values_aux m l vs = Throw.
Proof.
  induction l as [|x l IH]; intros [|v vs] m Hm HF HL; try discriminate; simpl.
  - exists m. repeat split; auto; tauto.
  - inversion HF as [|? ? Hx HF']; subst. injection HL as HL.
    destruct (N.eqb_spec v 1) as [->|Hv1].
    + simpl. destruct (N.leb_spec 64 x); [lia|]. rewrite shl64_one by assumption.
      specialize (IH vs (N.lor m (2 ^ x)) (lor_pow2_u64 _ _ Hm Hx) HF' HL).
      destruct (forallb (fun v => v <? 2) vs); [|assumption].
      destruct IH as (r & Hr & Hu & Ht). exists r. repeat split; auto.
      * intros Hi. apply Ht in Hi. autorewrite with tb in Hi. destruct Hi as [Hi|Hi]; [|tauto].
        destruct (N.testbit m i); [now left|]. right. left. f_equal. simpl in Hi. lia.
      * intros Hi. apply Ht. autorewrite with tb. destruct Hi as [Hi|[Hi|Hi]].
        -- rewrite Hi; now left.
        -- injection Hi as ->. rewrite N.eqb_refl, orb_true_r. now left.
        -- now right.
    + destruct (N.eqb_spec v 0) as [->|Hv0].
      * simpl. specialize (IH vs m Hm HF' HL). destruct (forallb (fun v => v <? 2) vs); [|assumption].
        destruct IH as (r & Hr & Hu & Ht). exists r. repeat split; auto; intros Hi.
        -- apply Ht in Hi; tauto.
        -- apply Ht. destruct Hi as [Hi|[Hi|Hi]]; auto. discriminate.
      * destruct (N.ltb_spec v 2); [lia|]. reflexivity.
Qed.
Lemma vector_to_mask_values_ok l vs : Forall (fun x => x < 64) l -> length vs = length l ->
  Forall (fun v => v < 2) vs ->
  exists r, vector_to_mask_values l vs = Ok r /\ r < two64 /\
      (forall i, N.testbit r i = true <-> In (i, 1) (combine l vs)).
Proof.
  intros HF HL HV. pose proof (vector_to_mask_values_aux_spec l vs 0 ltac:(unfold two64; lia) HF HL) as H.
  replace (forallb (fun v => v <? 2) vs) with true in H.
  - destruct H as (r & Hr & Hu & Ht). exists r. split; [assumption|]. split; [assumption|].
    intros i. rewrite Ht, N.bits_0. intuition discriminate.
  - symmetry. apply forallb_forall. rewrite Forall_forall in HV. intros x Hx. specialize (HV x Hx). lia.
Qed.
Lemma vector_to_mask_values_throw l vs : Forall (fun x => x < 64) l -> length vs = length l ->
  ~ Forall (fun v => v < 2) vs -> vector_to_mask_values l vs = Throw.
Proof.
  intros HF HL HV. pose proof (vector_to_mask_values_aux_spec l vs 0 ltac:(unfold two64; lia) HF HL) as H.
  replace (forallb (fun v => v <? 2) vs) with false in H; [exact H|].
  symmetry. apply not_true_is_false. intros HH. apply HV. apply Forall_forall.
  rewrite forallb_forall in HH. intros x Hx. specialize (HH x Hx). lia.
Qed.

Lemma in_combine_unique {A B} (l : list A) (vs : list B) k v1 v2 :
  NoDup l -> In (k, v1) (combine l vs) -> In (k, v2) (combine l vs) -> v1 = v2.
Proof.
  revert vs; induction l as [|x l IH]; intros [|v vs] HD H1 H2; simpl in *; try contradiction.
  inversion HD; subst. destruct H1 as [H1|H1], H2 as [H2|H2].
  - congruence.
  - injection H1 as -> ->. apply in_combine_l in H2. contradiction.
  - injection H2 as -> ->. apply in_combine_l in H1. contradiction.
  - eapply IH; eassumption.
Qed.
(** Reading the values back: the value stored for control [k] is the one supplied with it. *)
Lemma vector_to_mask_values_read l vs r k v : NoDup l -> Forall (fun x => x < 64) l ->
  length vs = length l -> Forall (fun v => v < 2) vs ->
  vector_to_mask_values l vs = Ok r -> In (k, v) (combine l vs) -> N.b2n (N.testbit r k) = v.
Proof.
  intros HD HF HL HV Hr Hin.
  destruct (vector_to_mask_values_ok l vs HF HL HV) as (r' & Hr' & _ & Ht).
  assert (r' = r) by congruence. subst r'.
  assert (v < 2). { rewrite Forall_forall in HV. apply HV. eapply in_combine_r; eassumption. }
  destruct (N.testbit r k) eqn:E.
  - apply Ht in E. rewrite (in_combine_unique l vs k v 1 HD Hin E). reflexivity.
  - destruct (N.eq_dec v 1) as [->|]; [|simpl; lia]. apply Ht in Hin. congruence.
Qed.
Lemma vector_to_mask_values_sub l vs r m : Forall (fun x => x < 64) l ->
  length vs = length l -> Forall (fun v => v < 2) vs ->
  vector_to_mask_values l vs = Ok r -> vector_to_mask l = Ok m -> N.land r m = r.
Proof.
  intros HF HL HV Hr Hm. destruct (vector_to_mask_values_ok l vs HF HL HV) as (r' & Hr' & _ & Ht).
  assert (r' = r) by congruence. subst r'. apply vector_to_mask_ok in Hm. destruct Hm as (_ & _ & T).
  bitwise i. destruct (N.testbit r i) eqn:E; [|reflexivity]. apply Ht, in_combine_l in E.
  apply T in E. now rewrite E.
Qed.
