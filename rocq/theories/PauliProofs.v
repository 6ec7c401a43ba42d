(** Correctness of the Pauli kernels. *)
From Verif Require Export Pauli PauliSpec KernelsProofs KernelsProofs2 KernelsProofs4.
From Verif Require Import BitsProofs.
From Coq Require Import Permutation ZifyBool ZifyN ZifyNat FunctionalExtensionality.

(** ** popcount and parity *)
Lemma popcount_double x : popcount (N.double x) = popcount x.
Proof. destruct x; reflexivity. Qed.
Lemma popcount_succ_double x : popcount (N.succ_double x) = 1 + popcount x.
Proof. destruct x; reflexivity. Qed.
Lemma popcount_div2 x : popcount x = N.b2n (N.odd x) + popcount (N.div2 x).
Proof. destruct x as [|[p|p|]]; try reflexivity. Qed.
Lemma div2_land a b : N.div2 (N.land a b) = N.land (N.div2 a) (N.div2 b).
Proof. rewrite !N.div2_spec. apply N.shiftr_land. Qed.
Lemma div2_lor a b : N.div2 (N.lor a b) = N.lor (N.div2 a) (N.div2 b).
Proof. rewrite !N.div2_spec. apply N.shiftr_lor. Qed.
Lemma div2_lxor a b : N.div2 (N.lxor a b) = N.lxor (N.div2 a) (N.div2 b).
Proof. rewrite !N.div2_spec. apply N.shiftr_lxor. Qed.
Lemma odd_land a b : N.odd (N.land a b) = N.odd a && N.odd b.
Proof. rewrite <- !N.bit0_odd. apply N.land_spec. Qed.
Lemma odd_lor a b : N.odd (N.lor a b) = N.odd a || N.odd b.
Proof. rewrite <- !N.bit0_odd. apply N.lor_spec. Qed.
Lemma odd_lxor a b : N.odd (N.lxor a b) = xorb (N.odd a) (N.odd b).
Proof. rewrite <- !N.bit0_odd. apply N.lxor_spec. Qed.

(** Induction over two numbers, bit by bit. *)
Lemma two_ind (P : N -> N -> Prop) : P 0 0 -> (forall a b, P (N.div2 a) (N.div2 b) -> P a b) -> forall a b, P a b.
Proof.
  intros H0 HS a b.
  assert (G : forall k a b, a < 2 ^ N.of_nat k -> b < 2 ^ N.of_nat k -> P a b).
  { induction k as [|k IH]; intros x y Hx Hy.
    - change (2 ^ N.of_nat 0) with 1 in *. replace x with 0 by lia. now replace y with 0 by lia.
    - rewrite Nat2N.inj_succ, N.pow_succ_r' in *. apply HS. apply IH; rewrite N.div2_div; apply N.div_lt_upper_bound; lia. }
  pose proof (N.size_gt a). pose proof (N.size_gt b).
  apply (G (N.to_nat (N.max (N.size a) (N.size b)))); rewrite N2Nat.id.
  - eapply N.lt_le_trans; [eassumption|]. apply N.pow_le_mono_r; lia.
  - eapply N.lt_le_trans; [eassumption|]. apply N.pow_le_mono_r; lia.
Qed.
Lemma odd_b2n_add b x : N.odd (N.b2n b + x) = xorb b (N.odd x).
Proof. rewrite N.odd_add. destruct b; reflexivity. Qed.
Lemma parity_div2 x : parity x = xorb (N.odd x) (parity (N.div2 x)).
Proof. unfold parity. rewrite popcount_div2 at 1. apply odd_b2n_add. Qed.
Lemma parity_0 : parity 0 = false. Proof. reflexivity. Qed.
Lemma parity_lxor a b : parity (N.lxor a b) = xorb (parity a) (parity b).
Proof.
  revert a b. apply two_ind; [reflexivity|]. intros a b IH.
  rewrite parity_div2, (parity_div2 a), (parity_div2 b), div2_lxor, odd_lxor, IH.
  destruct (N.odd a), (N.odd b), (parity (N.div2 a)), (parity (N.div2 b)); reflexivity.
Qed.
Lemma land_lxor_distr a b c : N.land (N.lxor a b) c = N.lxor (N.land a c) (N.land b c).
Proof. bitwise i. destruct (N.testbit a i), (N.testbit b i), (N.testbit c i); reflexivity. Qed.
Lemma parity_popcount x : N.odd (popcount x) = parity x. Proof. reflexivity. Qed.

(** ** Powers of -i *)
Definition mi_pow (k : N) : C := PHASE_M90ROT (k mod 4).
Lemma mod4_cases k : k mod 4 = 0 \/ k mod 4 = 1 \/ k mod 4 = 2 \/ k mod 4 = 3.
Proof. pose proof (N.mod_lt k 4). lia. Qed.
Lemma mi_pow_add a b : mi_pow (a + b) = (mi_pow a * mi_pow b)%C.
Proof.
  unfold mi_pow. rewrite N.add_mod by lia.
  destruct (mod4_cases a) as [-> |[-> |[-> | ->]]]; destruct (mod4_cases b) as [-> |[-> |[-> | ->]]];
    (match goal with |- context [(?x + ?y) mod 4] => let v := eval vm_compute in ((x + y) mod 4) in
       change ((x + y) mod 4) with v end); simpl; apply C_eq; Cunfold; simpl; ring.
Qed.
Lemma mi_pow_0 : mi_pow 0 = C1. Proof. reflexivity. Qed.
Lemma mi_pow_1 : mi_pow 1 = (- Ci)%C. Proof. reflexivity. Qed.
Lemma mi_pow_2b b : mi_pow (N.b2n b * 2) = if b then (- C1)%C else C1.
Proof. now destruct b. Qed.
(** (-i)^(2k) = (-1)^k *)
Lemma mi_pow_double k : mi_pow (2 * k) = if N.odd k then (- C1)%C else C1.
Proof.
  unfold mi_pow. rewrite (N.div_mod k 2) at 1 by lia.
  replace (2 * (2 * (k / 2) + k mod 2)) with (2 * (k mod 2) + k / 2 * 4) by lia.
  rewrite N.mod_add by lia. rewrite <- N.bit0_mod, N.bit0_odd.
  destruct (N.odd k); reflexivity.
Qed.

(** ** The tensor product in terms of masks *)
Definition has_x (id : N) : bool := (id =? 1) || (id =? 2).
Definition has_z (id : N) : bool := negb (id =? 0) && negb (id =? 1).
Fixpoint ids_mask (f : N -> bool) (ids : list N) : N :=
  match ids with [] => 0 | id :: r => N.b2n (f id) + 2 * ids_mask f r end.
Definition pauli_phase (bf pf i : N) : C :=
  (mi_pow (popcount (N.land bf pf)) * pauli_sign (N.land i pf))%C.
Lemma odd_b2n2 b x : N.odd (N.b2n b + 2 * x) = b.
Proof. rewrite N.odd_add_mul_2. now destruct b. Qed.
Lemma div2_b2n2 b x : N.div2 (N.b2n b + 2 * x) = x.
Proof. rewrite N.add_comm. destruct b; simpl N.b2n; [rewrite <- N.succ_double_spec; apply N.div2_succ_double|rewrite N.add_0_r, <- N.double_spec; apply N.div2_double]. Qed.
Lemma pauli_sign_mul a b : pauli_sign (N.lxor a b) = (pauli_sign a * pauli_sign b)%C.
Proof. unfold pauli_sign. rewrite parity_lxor. destruct (parity a), (parity b); simpl; ring. Qed.
Lemma pauli_sign_div2 x : pauli_sign x = ((if N.odd x then - C1 else C1) * pauli_sign (N.div2 x))%C.
Proof. unfold pauli_sign. rewrite parity_div2. destruct (N.odd x), (parity (N.div2 x)); simpl; ring. Qed.
Lemma div2_eq_iff a b : a = b <-> N.odd a = N.odd b /\ N.div2 a = N.div2 b.
Proof.
  split; [intros ->; auto|]. intros [H1 H2]. rewrite (N.div2_odd a), (N.div2_odd b), H1, H2. reflexivity.
Qed.
Lemma eqb_div2 a b : (a =? b) = Bool.eqb (N.odd a) (N.odd b) && (N.div2 a =? N.div2 b).
Proof.
  destruct (N.eqb_spec a b) as [-> |H].
  - now rewrite eqb_reflx, N.eqb_refl.
  - destruct (Bool.eqb (N.odd a) (N.odd b)) eqn:E1; [|reflexivity].
    destruct (N.eqb_spec (N.div2 a) (N.div2 b)); [|reflexivity]. exfalso. apply H.
    apply div2_eq_iff. split; [now apply eqb_prop|assumption].
Qed.
Lemma pauli_phase_cons x z B Z i : pauli_phase (N.b2n x + 2 * B) (N.b2n z + 2 * Z) i =
  ((if x && z then - Ci else C1) * (if N.odd i && z then - C1 else C1) * pauli_phase B Z (N.div2 i))%C.
Proof.
  unfold pauli_phase. rewrite (popcount_div2 (N.land (_ + _) _)), div2_land, odd_land, !odd_b2n2, !div2_b2n2, mi_pow_add.
  rewrite (pauli_sign_div2 (N.land i _)), div2_land, odd_land, odd_b2n2, div2_b2n2.
  destruct x, z, (N.odd i); simpl N.b2n; simpl andb; rewrite ?mi_pow_0, ?mi_pow_1; cbn iota; ring.
Qed.
Lemma tensor_masks ids : Forall (fun id => id < 4) ids -> forall i j,
  i < 2 ^ N.of_nat (length ids) -> j < 2 ^ N.of_nat (length ids) ->
  tensor ids i j = if j =? N.lxor i (ids_mask has_x ids)
                   then pauli_phase (ids_mask has_x ids) (ids_mask has_z ids) i else C0.
Proof.
  induction ids as [|id ids IH]; intros HF i j Hi Hj.
  - change (2 ^ N.of_nat (length (@nil N))) with 1 in *. replace i with 0 by lia. replace j with 0 by lia.
    simpl. unfold pauli_phase. vm_compute N.land. simpl. unfold pauli_sign. simpl. rewrite mi_pow_0. ring.
  - inversion HF as [|? ? Hid HF']; subst. simpl length in *. rewrite Nat2N.inj_succ, N.pow_succ_r' in *.
    simpl tensor. rewrite IH; [|assumption|rewrite N.div2_div; apply N.div_lt_upper_bound; lia|rewrite N.div2_div; apply N.div_lt_upper_bound; lia].
    simpl ids_mask. rewrite (eqb_div2 j), div2_lxor, odd_lxor, odd_b2n2, div2_b2n2.
    rewrite pauli_phase_cons.
    destruct (N.div2 j =? N.lxor (N.div2 i) (ids_mask has_x ids)).
    + rewrite andb_true_r.
      assert (Hc : id = 0 \/ id = 1 \/ id = 2 \/ id = 3) by lia.
      destruct Hc as [-> |[-> |[-> | ->]]]; destruct (N.odd i), (N.odd j);
        cbv [has_x has_z N.eqb N.compare Pos.eqb orb andb negb xorb N.b2n Bool.eqb pauli1 Pos.compare Pos.compare_cont];
        rewrite ?mi_pow_0, ?mi_pow_1; try ring.
    + rewrite andb_false_r. ring.
Qed.

(** ** From the tensor product to the action on amplitudes *)
Lemma pauli_id_of_lt bf pf q : pauli_id_of bf pf q < 4.
Proof. unfold pauli_id_of. destruct (N.testbit bf q), (N.testbit pf q); lia. Qed.
Lemma ids_mask_x bf pf ts : ids_mask has_x (map (pauli_id_of bf pf) ts) = gather ts bf.
Proof.
  induction ts as [|t ts IH]; simpl; [reflexivity|]. rewrite IH. f_equal. f_equal.
  unfold pauli_id_of. destruct (N.testbit bf t), (N.testbit pf t); reflexivity.
Qed.
Lemma ids_mask_z bf pf ts : ids_mask has_z (map (pauli_id_of bf pf) ts) = gather ts pf.
Proof.
  induction ts as [|t ts IH]; simpl; [reflexivity|]. rewrite IH. f_equal. f_equal.
  unfold pauli_id_of. destruct (N.testbit bf t), (N.testbit pf t); reflexivity.
Qed.
Lemma gather_bitop (f : N -> N -> N) (g : bool -> bool -> bool) :
  (forall a b i, N.testbit (f a b) i = g (N.testbit a i) (N.testbit b i)) -> g false false = false ->
  forall ts a b, gather ts (f a b) = f (gather ts a) (gather ts b).
Proof.
  intros Hf Hg ts a b. apply bits_eq_N. intros k. rewrite Hf, !gather_tb.
  destruct (nth_error ts k); [apply Hf|now rewrite Hg].
Qed.
Lemma gather_lxor ts a b : gather ts (N.lxor a b) = N.lxor (gather ts a) (gather ts b).
Proof. apply (gather_bitop N.lxor xorb); [apply N.lxor_spec|reflexivity]. Qed.
Lemma gather_land ts a b : gather ts (N.land a b) = N.land (gather ts a) (gather ts b).
Proof. apply (gather_bitop N.land andb); [apply N.land_spec|reflexivity]. Qed.
Lemma popcount_gather_filter ts x : popcount (gather ts x) = N.of_nat (length (filter (N.testbit x) ts)).
Proof.
  induction ts as [|t ts IH]; simpl; [reflexivity|].
  rewrite popcount_div2, odd_b2n2, div2_b2n2, IH. destruct (N.testbit x t); simpl length; simpl N.b2n; lia.
Qed.
Lemma popcount_gather ts x : NoDup ts -> (forall i, N.testbit x i = true -> In i ts) ->
  popcount (gather ts x) = popcount x.
Proof.
  intros Hnd Hin. rewrite popcount_gather_filter, <- bits_length. f_equal.
  apply Permutation_length. apply NoDup_Permutation.
  - now apply NoDup_filter.
  - apply bits_NoDup.
  - intros i. rewrite filter_In, in_bits. split; [tauto|]. intros H. split; [now apply Hin|assumption].
Qed.
Lemma parity_gather ts x : NoDup ts -> (forall i, N.testbit x i = true -> In i ts) ->
  parity (gather ts x) = parity x.
Proof. intros. unfold parity. now rewrite popcount_gather. Qed.

Definition covers (ts : list N) (bf pf : N) : Prop :=
  NoDup ts /\ forall i, N.testbit bf i = true \/ N.testbit pf i = true -> In i ts.
Lemma pauli_phase_gather ts bf pf a : covers ts bf pf ->
  pauli_phase (gather ts bf) (gather ts pf) (gather ts a) = pauli_phase bf pf a.
Proof.
  intros [Hnd Hc]. unfold pauli_phase. rewrite <- !gather_land.
  rewrite popcount_gather; [|assumption|intros i; rewrite N.land_spec, andb_true_iff; intros [H _]; apply Hc; auto].
  unfold pauli_sign. rewrite parity_gather; [reflexivity|assumption|].
  intros i; rewrite N.land_spec, andb_true_iff; intros [_ H]; apply Hc; auto.
Qed.
(** A matrix with one non-zero entry per row, at column [row xor gather bf]. *)
Lemma apply_mat_flip ts cs M bf (ph : N -> C) (psi : state) a : NoDup ts ->
  (forall i, N.testbit bf i = true -> In i ts) ->
  (forall j, j < 2 ^ N.of_nat (length ts) -> M (gather ts a) j =
     if j =? N.lxor (gather ts a) (gather ts bf) then ph a else C0) ->
  apply_mat ts cs M psi a = if ctrl_ok cs a then (ph a * psi (N.lxor a bf))%C else psi a.
Proof.
  intros Hnd Hc HM. unfold apply_mat. destruct (ctrl_ok cs a); [|reflexivity].
  assert (Hj : N.lxor (gather ts a) (gather ts bf) = gather ts (N.lxor a bf)) by (now rewrite gather_lxor).
  rewrite (Csum_single _ _ (gather ts (N.lxor a bf))).
  - rewrite HM by apply gather_lt. rewrite <- Hj, N.eqb_refl. f_equal. f_equal. rewrite Hj.
    rewrite <- (scatter_gather ts (N.lxor a bf)) at 2 by assumption. apply scatter_ext; [assumption|].
    intros i Hi. rewrite N.lxor_spec. destruct (N.testbit bf i) eqn:E; [|now rewrite xorb_false_r].
    exfalso. apply Hi. now apply Hc.
  - apply gather_lt.
  - intros j Hlt Hne. rewrite HM by assumption. rewrite Hj. destruct (N.eqb_spec j (gather ts (N.lxor a bf))); [contradiction|].
    ring.
Qed.
Lemma tensor_entry ts bf pf a j : covers ts bf pf -> j < 2 ^ N.of_nat (length ts) ->
  tensor (map (pauli_id_of bf pf) ts) (gather ts a) j =
  if j =? N.lxor (gather ts a) (gather ts bf) then pauli_phase bf pf a else C0.
Proof.
  intros Hc Hj. rewrite tensor_masks.
  - rewrite ids_mask_x, ids_mask_z. rewrite pauli_phase_gather by assumption. reflexivity.
  - apply Forall_forall. intros x Hx. apply in_map_iff in Hx. destruct Hx as (q & <- & _). apply pauli_id_of_lt.
  - rewrite map_length. apply gather_lt.
  - now rewrite map_length.
Qed.
Lemma apply_mat_pauli ts cs bf pf coef (psi : state) a : covers ts bf pf ->
  apply_mat ts cs (fun i j => (coef * tensor (map (pauli_id_of bf pf) ts) i j)%C) psi a =
  if ctrl_ok cs a then (coef * pauli_phase bf pf a * psi (N.lxor a bf))%C else psi a.
Proof.
  intros Hc. apply (apply_mat_flip ts cs _ bf (fun a => (coef * pauli_phase bf pf a)%C)).
  - apply Hc.
  - intros i Hi. apply Hc. auto.
  - intros j Hj. rewrite tensor_entry by assumption. destruct (j =? _); ring.
Qed.
Lemma covers_bits bf pf : covers (bits (N.lor bf pf)) bf pf.
Proof.
  split; [apply bits_NoDup|]. intros i Hi. apply in_bits. rewrite N.lor_spec. apply orb_true_iff. tauto.
Qed.
Lemma covers_seqN bf pf n : bf < 2 ^ n -> pf < 2 ^ n -> covers (seqN n) bf pf.
Proof.
  intros H1 H2. split; [apply NoDup_seqN|]. intros i Hi. apply in_seqN.
  destruct (N.ltb_spec i n); [assumption|]. exfalso.
  destruct Hi as [Hi|Hi]; [rewrite (testbit_high bf n) in Hi|rewrite (testbit_high pf n) in Hi]; auto; discriminate.
Qed.

(** ** The pair kernel *)
Lemma pivot_spec bf : bf <> 0 -> N.testbit bf (bit_width bf - 1) = true /\ bit_width bf - 1 = N.log2 bf.
Proof.
  intros H. assert (E : bit_width bf - 1 = N.log2 bf).
  { unfold bit_width. destruct bf; [contradiction|]. lia. }
  rewrite E. split; [now apply N.bit_log2|reflexivity].
Qed.
Section Pair.
  Variables (n B bf c cv : N).
  Hypothesis Hn : n <= 64.
  Hypothesis HB : B * 2 ^ n <= two64.
  Hypothesis Hbf : bf < 2 ^ n.
  Hypothesis Hbf0 : bf <> 0.
  Hypothesis Hc : c < 2 ^ n.
  Hypothesis Hd : N.land bf c = 0.
  Hypothesis Hcv : N.land cv c = cv.
  Let D := B * 2 ^ n.
  Let q := bit_width bf - 1.
  Let fold_idx (a : N) : N := if N.testbit a q then N.lxor a bf else a.

  Lemma q_lt : q < n.
  Proof.
    unfold q. destruct (pivot_spec bf Hbf0) as [H _].
    destruct (N.ltb_spec (bit_width bf - 1) n); [assumption|]. rewrite (testbit_high bf n) in H by assumption. discriminate.
  Qed.
  Lemma q_pow : 2 ^ q < 2 ^ n. Proof. apply N.pow_lt_mono_r; [lia|apply q_lt]. Qed.
  Lemma q_bf : N.testbit bf q = true. Proof. apply pivot_spec, Hbf0. Qed.
  Lemma q_disj : N.land (2 ^ q) c = 0.
  Proof.
    bitwise i. destruct (N.eqb_spec i q); [|reflexivity]. subst i. simpl.
    apply (land0_tb bf c); [assumption|apply q_bf].
  Qed.
  Lemma fold_flip a : fold_idx (N.lxor a bf) = fold_idx a.
  Proof.
    unfold fold_idx. rewrite N.lxor_spec, q_bf. destruct (N.testbit a q) eqn:E; simpl; [reflexivity|].
    rewrite N.lxor_assoc, N.lxor_nilpotent, N.lxor_0_r. reflexivity.
  Qed.
  Lemma flip_dom a : gdom n B c cv a = true -> gdom n B c cv (N.lxor a bf) = true.
  Proof.
    intros H. apply valid_gdom in H. destruct H as [H1 H2]. apply gdom_intro.
    - apply (flat_lt_low a); [assumption|]. intros i Hi. rewrite N.lxor_spec, (testbit_high bf n) by assumption. apply xorb_false_r.
    - rewrite <- H2. bitwise i. destruct (N.testbit c i) eqn:E; [|now rewrite !andb_false_r].
      rewrite N.land_comm in Hd. rewrite (land0_tb c bf i Hd E). now rewrite xorb_false_r.
  Qed.
  Lemma fold_dom a : gdom n B c cv a = true -> gdom n B c cv (fold_idx a) = true.
  Proof. intros H. unfold fold_idx. destruct (N.testbit a q); [now apply flip_dom|assumption]. Qed.
  Lemma fold_q a : N.testbit (fold_idx a) q = false.
  Proof. unfold fold_idx. destruct (N.testbit a q) eqn:E; [|assumption]. rewrite N.lxor_spec, E, q_bf. reflexivity. Qed.
  Lemma fold_ldiff a : N.ldiff (fold_idx a) (2 ^ q) = fold_idx a.
  Proof.
    bitwise i. destruct (N.eqb_spec i q); simpl; [|now rewrite andb_true_r]. subst i. now rewrite fold_q.
  Qed.

  Lemma pair_computes (P : N -> cprog) (body : N -> cprog) m :
    (forall it, body it = P (N.lor (insert_zero_at_mask_positions it (N.lor c (shl64 1 q))) cv)) ->
    (forall b, foot (fun a => a = b \/ a = N.lxor b bf) (fun a => a = b \/ a = N.lxor b bf) (P b)) ->
    kcomputes N.eqb (fun a => a <? D) (Kernel (N.shiftr D (popcount c + 1)) body) m
      (fun a => if gdom n B c cv a then run1 N.eqb (P (fold_idx a)) m a else m a).
  Proof.
    intros Hbody Hfoot. unfold kcomputes. cbn [k_iters k_body].
    assert (Hq64 : shl64 1 q = 2 ^ q) by (apply shl64_1; pose proof q_lt; lia).
    assert (Hcnt : N.shiftr D (popcount c + 1) = gcnt n B (2 ^ q) c).
    { unfold gcnt. fold D. f_equal. rewrite popcount_lor_disj by apply q_disj.
      rewrite <- (bits_length (2 ^ q)), bits_pow2. simpl length. lia. }
    rewrite Hcnt.
    assert (Hb : forall it, body it = P (gbase (2 ^ q) c cv it)).
    { intros it. rewrite Hbody, Hq64. unfold gbase. now rewrite N.lor_comm with (a := c). }
    assert (Howner : forall a, gdom n B c cv a = true ->
              gowner (2 ^ q) c (fold_idx a) < gcnt n B (2 ^ q) c /\
              gbase (2 ^ q) c cv (gowner (2 ^ q) c (fold_idx a)) = fold_idx a).
    { intros a Ha. destruct (gowner_base n B (2 ^ q) c cv Hn HB q_pow Hc q_disj Hcv (fold_idx a)) as [H1 H2].
      - now apply fold_dom.
      - split; [assumption|]. rewrite H2. apply fold_ldiff. }
    assert (Hown2 : forall it a, it < gcnt n B (2 ^ q) c ->
              a = gbase (2 ^ q) c cv it \/ a = N.lxor (gbase (2 ^ q) c cv it) bf ->
              gdom n B c cv a = true /\ gowner (2 ^ q) c (fold_idx a) = it).
    { intros it a Hit Ha.
      destruct (gbase_owner n B (2 ^ q) c cv Hn HB q_pow Hc q_disj Hcv it 0 Hit eq_refl) as [H1 H2].
      rewrite N.lor_0_r in H1, H2.
      assert (Hf : fold_idx (gbase (2 ^ q) c cv it) = gbase (2 ^ q) c cv it).
      { unfold fold_idx. rewrite (gbase_tb n B (2 ^ q) c cv Hn HB q_pow Hc q_disj Hcv it q Hit).
        - destruct (N.testbit cv q) eqn:E; [|reflexivity]. exfalso.
          apply (cv_tb c cv Hcv) in E. pose proof q_disj as Hq. apply (land0_tb _ _ q) in Hq; [congruence|apply N.pow2_bits_true].
        - rewrite N.lor_spec, N.pow2_bits_true. reflexivity. }
      destruct Ha as [-> | ->].
      - now rewrite Hf.
      - rewrite fold_flip, Hf. split; [now apply flip_dom|assumption]. }
    eapply par_computes_ext; [|apply (owned_par_computes C N N.eqb neqb_spec (fun a => a <? D) (gcnt n B (2 ^ q) c) body m
       (fun _ => false) (gdom n B c cv) (fun a => gowner (2 ^ q) c (fold_idx a)))].
    - intros a. cbn beta. destruct (gdom n B c cv a) eqn:E; [|reflexivity]. rewrite Hb.
      now rewrite (proj2 (Howner a E)).
    - intros a Ha. destruct (Howner a Ha). apply valid_gdom in Ha. split; [now apply N.ltb_lt|]. auto.
    - discriminate.
    - intros it Hit. rewrite Hb. eapply foot_mono; [| |apply Hfoot].
      + intros a Ha. right. now apply Hown2.
      + intros a Ha. now apply Hown2.
  Qed.

  Lemma bf_neq b : b <> N.lxor b bf.
  Proof. intros H. apply (f_equal (fun x => N.testbit x q)) in H. rewrite N.lxor_spec, q_bf in H. destruct (N.testbit b q); discriminate. Qed.

  (** Conclusion in closed form: each amplitude becomes f a * old(a) + g a * old(a xor bf). *)
  Lemma pair_computes_linear (body : N -> cprog) (f g : N -> C) m :
    (forall it, body it = let b0 := N.lor (insert_zero_at_mask_positions it (N.lor c (shl64 1 q))) cv in
                          let b1 := N.lxor b0 bf in
                          Rd b0 (fun v0 => Rd b1 (fun v1 =>
                            Wr b0 (f b0 * v0 + g b0 * v1)%C (Wr b1 (f b1 * v1 + g b1 * v0)%C Ret)))) ->
    kcomputes N.eqb (fun a => a <? D) (Kernel (N.shiftr D (popcount c + 1)) body) m
      (fun a => if a <? D then (if N.land a c =? cv then (f a * m a + g a * m (N.lxor a bf))%C else m a) else m a).
  Proof.
    intros Hbody.
    set (P := fun b0 => let b1 := N.lxor b0 bf in
                Rd b0 (fun v0 => Rd b1 (fun v1 =>
                            Wr b0 (f b0 * v0 + g b0 * v1)%C (Wr b1 (f b1 * v1 + g b1 * v0)%C Ret)))).
    unfold kcomputes. cbn [k_iters k_body].
    eapply par_computes_ext; [|apply (pair_computes P body m)].
    - intros a. cbn beta. unfold gdom. fold D. destruct (a <? D); [|reflexivity]. cbn [andb].
      destruct (N.land a c =? cv); [|reflexivity].
      unfold P, fold_idx. destruct (N.testbit a q) eqn:E.
      + simpl. unfold upd. rewrite N.lxor_assoc, N.lxor_nilpotent, N.lxor_0_r, N.eqb_refl. reflexivity.
      + simpl. unfold upd. rewrite N.eqb_refl. destruct (N.eqb_spec a (N.lxor a bf)) as [H|H]; [|reflexivity].
        exfalso. now apply (bf_neq a).
    - intros it. rewrite Hbody. reflexivity.
    - intros b. unfold P. simpl. tauto.
  Qed.
End Pair.

Section PauliKernels.
  Variables (n B bf pf c cv : N).
  Hypothesis Hn : n <= 64.
  Hypothesis HB : B * 2 ^ n <= two64.
  Hypothesis Hbf : bf < 2 ^ n.
  Hypothesis Hc : c < 2 ^ n.
  Hypothesis Hd : N.land bf c = 0.
  Hypothesis Hcv : N.land cv c = cv.
  Let D := B * 2 ^ n.

  Lemma diag_computes (f : N -> C) (body : N -> cprog) m :
    (forall i, body i = let s := N.lor (insert_zero_at_mask_positions i c) cv in mul_at s (f s) Ret) ->
    kcomputes N.eqb (fun a => a <? D) (Kernel (N.shiftr D (popcount c)) body) m
      (fun a => if a <? D then (if N.land a c =? cv then (f a * m a)%C else m a) else m a).
  Proof.
    intros Hb. unfold kcomputes. cbn [k_iters k_body].
    replace (N.shiftr D (popcount c)) with (gcnt n B 0 c) by (unfold gcnt; now rewrite N.lor_0_l).
    eapply par_computes_ext;
      [|apply (group_computes n B 0 c cv Hn HB (pow2_pos n) Hc (N.land_0_l c) Hcv (fun b => mul_at b (f b) Ret) body m)].
    - intros a. cbn beta. unfold gdom. fold D. destruct (a <? D); [|reflexivity]. cbn [andb].
      destruct (N.land a c =? cv); [|reflexivity]. rewrite N.ldiff_0_r. simpl. unfold upd. rewrite N.eqb_refl. ring.
    - intros it _. rewrite Hb. unfold gbase. now rewrite N.lor_0_l.
    - intros b _. simpl. split; [|split; [|exact I]]; exists 0; (split; [reflexivity|now rewrite N.lor_0_r]).
  Qed.

  Lemma apply_pauli_computes coef m :
    kcomputes N.eqb (fun a => a <? D) (apply_pauli D c cv bf pf coef) m
      (fun a => if a <? D then (if N.land a c =? cv then (coef * pauli_phase bf pf a * m (N.lxor a bf))%C else m a) else m a).
  Proof.
    unfold apply_pauli. destruct (N.eqb_spec bf 0) as [E|E].
    - unfold kcomputes. eapply par_computes_ext; [|apply (diag_computes (fun a => coef * pauli_phase bf pf a)%C)].
      + intros a. cbn beta. now rewrite E, N.lxor_0_r.
      + intros i. cbn zeta. rewrite E. unfold pauli_phase. rewrite N.land_0_l. change (popcount 0) with 0. rewrite mi_pow_0.
        unfold pauli_sign. destruct (parity _); f_equal; ring.
    - unfold kcomputes. eapply par_computes_ext;
        [|apply (pair_computes_linear n B bf c cv Hn HB Hbf E Hc Hd Hcv _ (fun _ => C0) (fun a => coef * pauli_phase bf pf a)%C)].
      + intros a. cbn beta. fold D. destruct (a <? D); [|reflexivity]. destruct (N.land a c =? cv); [|reflexivity]. ring.
      + intros it. cbn zeta. f_equal. apply functional_extensionality. intros v0. f_equal. apply functional_extensionality. intros v1.
        unfold pauli_phase, pauli_sign. fold (mi_pow (popcount (N.land bf pf))).
        f_equal; [|f_equal]; destruct (parity _); ring.
  Qed.

  Lemma apply_pauli_rotation_computes coef angle m :
    let h := Cscale (/ 2)%R (Cscale angle coef) in
    kcomputes N.eqb (fun a => a <? D) (apply_pauli_rotation D c cv bf pf coef angle) m
      (fun a => if a <? D then (if N.land a c =? cv
                                then (Ccos (- h) * m a + Ci * Csin (- h) * pauli_phase bf pf a * m (N.lxor a bf))%C
                                else m a) else m a).
  Proof.
    intros h. unfold apply_pauli_rotation. fold h. generalize (Ccos (- h)) (Csin (- h)). intros cs sn.
    destruct (N.eqb_spec bf 0) as [E|E].
    - unfold kcomputes. eapply par_computes_ext; [|apply (diag_computes (fun a => cs + Ci * sn * pauli_phase bf pf a)%C)].
      + intros a. cbn beta. rewrite E, N.lxor_0_r. destruct (a <? D); [|reflexivity]. destruct (N.land a c =? cv); [|reflexivity]. ring.
      + intros i. cbn zeta. rewrite E. unfold pauli_phase. rewrite N.land_0_l. change (popcount 0) with 0. rewrite mi_pow_0.
        unfold pauli_sign. destruct (parity _); f_equal; ring.
    - unfold kcomputes. eapply par_computes_ext;
        [|apply (pair_computes_linear n B bf c cv Hn HB Hbf E Hc Hd Hcv _ (fun _ => cs) (fun a => Ci * sn * pauli_phase bf pf a)%C)].
      + intros a. cbn beta. fold D. reflexivity.
      + intros it. cbn zeta. f_equal. apply functional_extensionality. intros v0. f_equal. apply functional_extensionality. intros v1.
        unfold pauli_phase, pauli_sign.
        repeat match goal with |- context [PHASE_M90ROT ((?a + ?b) mod 4)] => change (PHASE_M90ROT ((a + b) mod 4)) with (mi_pow (a + b)) end.
        rewrite !mi_pow_add, !mi_pow_2b.
        f_equal; [|f_equal]; destruct (parity _); ring.
  Qed.
End PauliKernels.
