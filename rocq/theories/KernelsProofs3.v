(** SIMD paths, the general dense kernel with a second buffer, and the sparse kernel. *)
From Verif Require Export KernelsProofs2.
From Coq Require Import ZifyBool ZifyN ZifyNat Permutation Sorting.Sorted.

Lemma simd_coef_mul_eq m v : simd_coef_mul m v = (m * v)%C.
Proof. unfold simd_coef_mul, simd_multiply_by_i. apply C_eq; Cunfold; simpl; ring. Qed.

(** ** Lanes *)
Lemma run_load k : forall a cont m, run1 N.eqb (load_lanes k a cont) m =
  run1 N.eqb (cont (map (fun j => m (a + N.of_nat j)) (seq 0 k))) m.
Proof.
  induction k as [|k IH]; intros a cont m; [reflexivity|].
  simpl. rewrite IH. rewrite N.add_0_r. rewrite <- seq_shift, map_map.
  f_equal. f_equal. f_equal. apply map_ext. intros j. f_equal. lia.
Qed.
Lemma foot_load (R W : N -> Prop) k : forall a cont, (forall j, (j < k)%nat -> R (a + N.of_nat j)) ->
  (forall vs, length vs = k -> foot R W (cont vs)) -> foot R W (load_lanes k a cont).
Proof.
  induction k as [|k IH]; intros a cont HR HW; simpl; [now apply HW|]. split.
  - specialize (HR 0%nat ltac:(lia)). now rewrite N.add_0_r in HR.
  - intros v. apply IH.
    + intros j Hj. replace (a + 1 + N.of_nat j) with (a + N.of_nat (S j)) by lia. apply HR. lia.
    + intros vs Hvs. apply HW. simpl. congruence.
Qed.
Lemma foot_store (R W : N -> Prop) vs : forall a p, (forall j, (j < length vs)%nat -> W (a + N.of_nat j)) ->
  foot R W p -> foot R W (store_lanes a vs p).
Proof.
  induction vs as [|v vs IH]; intros a p HW Hp; simpl; [assumption|]. split.
  - specialize (HW 0%nat ltac:(simpl; lia)). now rewrite N.add_0_r in HW.
  - apply IH; [|assumption]. intros j Hj. replace (a + 1 + N.of_nat j) with (a + N.of_nat (S j)) by lia.
    apply HW. simpl. lia.
Qed.
Definition store_mem (a : N) (vs : list C) (m : N -> C) : N -> C :=
  fun b => if (a <=? b) && (b <? a + N.of_nat (length vs)) then nth (N.to_nat (b - a)) vs C0 else m b.
Lemma run_store vs : forall a p m, (forall x, run1 N.eqb (store_lanes a vs p) m x = run1 N.eqb p (store_mem a vs m) x).
Proof.
  induction vs as [|v vs IH]; intros a p m x; simpl.
  - apply run1_ext; [apply neqb_spec|]. intros b. unfold store_mem. simpl.
    destruct (N.leb_spec a b), (N.ltb_spec b (a + N.of_nat 0)); simpl; try reflexivity. lia.
  - rewrite IH. apply run1_ext; [apply neqb_spec|]. intros b. unfold store_mem, upd. simpl length.
    destruct (N.eqb_spec b a) as [->|Hne].
    + replace (a + 1 <=? a) with false by lia. replace (a <=? a) with true by lia.
      replace (a <? a + N.of_nat (S (length vs))) with true by lia. simpl. now rewrite N.sub_diag.
    + destruct (N.leb_spec (a + 1) b) as [H|H].
      * replace (a <=? b) with true by lia.
        replace (b <? a + N.of_nat (S (length vs))) with (b <? a + 1 + N.of_nat (length vs)) by lia. simpl.
        destruct (b <? _); [|reflexivity]. replace (N.to_nat (b - a)) with (S (N.to_nat (b - (a + 1)))) by lia. reflexivity.
      * replace (a <=? b) with false by lia. reflexivity.
Qed.
Lemma store_mem_in a vs m j : (j < length vs)%nat -> store_mem a vs m (a + N.of_nat j) = nth j vs C0.
Proof.
  intros H. unfold store_mem. replace (a <=? a + N.of_nat j) with true by lia.
  replace (a + N.of_nat j <? a + N.of_nat (length vs)) with true by lia. simpl. f_equal. lia.
Qed.
Lemma store_mem_out a vs m b : (forall j, (j < length vs)%nat -> b <> a + N.of_nat j) -> store_mem a vs m b = m b.
Proof.
  intros H. unfold store_mem. destruct (N.leb_spec a b); [|reflexivity].
  destruct (N.ltb_spec b (a + N.of_nat (length vs))); [|reflexivity]. exfalso.
  apply (H (N.to_nat (b - a))); lia.
Qed.
Lemma length_map2C f l1 l2 : length (map2C f l1 l2) = Nat.min (length l1) (length l2).
Proof. unfold map2C. now rewrite map_length, combine_length. Qed.
Lemma nth_map2C f l1 : forall l2 j, (j < length l1)%nat -> (j < length l2)%nat ->
  nth j (map2C f l1 l2) C0 = f (nth j l1 C0) (nth j l2 C0).
Proof.
  induction l1 as [|x l1 IH]; intros [|y l2] j H1 H2; simpl in *; try lia.
  destruct j; [reflexivity|]. apply IH; lia.
Qed.
Lemma nth_map0 (f : C -> C) l j : (j < length l)%nat -> nth j (map f l) C0 = f (nth j l C0).
Proof. intros H. rewrite (nth_indep _ C0 (f C0)) by now rewrite map_length. apply map_nth. Qed.
Lemma nth_map_seq (g : nat -> C) k j : (j < k)%nat -> nth j (map g (seq 0 k)) C0 = g j.
Proof.
  intros H. rewrite (nth_indep _ C0 (g 0%nat)) by now rewrite map_length, seq_length.
  rewrite map_nth, seq_nth by assumption. reflexivity.
Qed.

Lemma lor_add_disj a b : N.land a b = 0 -> N.lor a b = a + b.
Proof. intros H. rewrite <- N.lxor_lor by assumption. symmetry. now apply N.add_nocarry_lxor. Qed.

Section Simd.
  Variables (n B t c cv l : N).
  Hypothesis Hn : n <= 64.
  Hypothesis HB : B * 2 ^ n <= two64.
  Hypothesis Ht : t < 2 ^ n.
  Hypothesis Hc : c < 2 ^ n.
  Hypothesis Hd : N.land t c = 0.
  Hypothesis Hcv : N.land cv c = cv.
  Let D := B * 2 ^ n.
  Let L := 2 ^ l.
  Let msk := N.lor t c.
  Hypothesis Hspan : L <= 2 ^ (n - popcount msk).
  Hypothesis Hlow : N.land msk (L - 1) = 0.

  Let cnt := gcnt n B t c.
  Let base := gbase t c cv.

  Lemma low_clear i : i < l -> N.testbit msk i = false.
  Proof.
    intros Hi. pose proof (eq_tb _ _ Hlow i) as E. unfold L in E.
    replace (2 ^ l - 1) with (N.ones l) in E by (rewrite N.ones_equiv; lia).
    rewrite N.land_spec, ones_tb, N.bits_0 in E. replace (i <? l) with true in E by lia.
    now rewrite andb_true_r in E.
  Qed.
  Lemma l_le : l <= n - popcount msk.
  Proof.
    destruct (N.le_gt_cases l (n - popcount msk)); [assumption|]. exfalso.
    assert (2 ^ (n - popcount msk) < 2 ^ l) by (apply N.pow_lt_mono_r; lia). unfold L in Hspan. lia.
  Qed.
  Lemma cnt_div : cnt = cnt / L * L.
  Proof.
    unfold cnt. rewrite gcnt_eq by assumption. fold msk.
    replace (n - popcount msk) with ((n - popcount msk - l) + l) by (pose proof l_le; lia).
    rewrite N.pow_add_r, N.mul_assoc. fold L. rewrite N.div_mul; [reflexivity|]. apply N.pow_nonzero; lia.
  Qed.
  Lemma ins_list_tb_low lst : forall x i, Forall (fun p => l <= p) lst -> i < l -> N.testbit (ins_list lst x) i = N.testbit x i.
  Proof. intros x i Hf Hi. apply ins_list_low. eapply Forall_impl; [|exact Hf]. simpl; lia. Qed.
  Lemma ins_list_lanes lst : forall x y, Forall (fun p => l <= p) lst -> (forall i, l <= i -> N.testbit x i = N.testbit y i) ->
    forall i, l <= i -> N.testbit (ins_list lst x) i = N.testbit (ins_list lst y) i.
  Proof.
    induction lst as [|p lst IH]; intros x y Hf Hxy i Hi; simpl; [now apply Hxy|].
    inversion Hf; subst. apply IH; [assumption| |assumption]. intros k Hk. rewrite !ins1_tb.
    destruct (N.ltb_spec k p); [now apply Hxy|]. destruct (N.eqb_spec k p); [reflexivity|]. apply Hxy. lia.
  Qed.
  Lemma lane_lt g j : g < cnt / L -> j < L -> g * L + j < cnt.
  Proof. intros Hg Hj. rewrite cnt_div. nia. Qed.
  Lemma bits_ge : Forall (fun p => l <= p) (bits msk).
  Proof.
    apply Forall_forall. intros p Hp. apply in_bits in Hp. destruct (N.le_gt_cases l p); [assumption|].
    rewrite low_clear in Hp by assumption. discriminate.
  Qed.
  Lemma base_lane g j : g < cnt / L -> j < L -> base (g * L + j) = base (g * L) + j /\ N.land (base (g * L)) (L - 1) = 0.
  Proof.
    intros Hg Hj.
    assert (Hmn : msk < 2 ^ n) by now apply msk_lt.
    assert (Hm64 : msk < two64) by (eapply N.lt_le_trans; [exact Hmn|now apply two64_pow]).
    pose proof (lane_lt g j Hg Hj) as H1. pose proof (lane_lt g 0 Hg (pow2_pos l)) as H2. rewrite N.add_0_r in H2.
    pose proof H1 as H1'. pose proof H2 as H2'.
    unfold cnt in H1', H2'. rewrite gcnt_eq in H1', H2' by assumption.
    unfold base, gbase. fold msk.
    rewrite (insert_zero_spec msk _ n B), (insert_zero_spec msk (g * L) n B) by assumption.
    assert (Elow : N.ones l = L - 1) by (rewrite N.ones_equiv; unfold L; lia).
    assert (HgL : forall i, i < l -> N.testbit (g * L) i = false).
    { intros i Hi. unfold L. rewrite N.mul_pow2_bits_low by assumption. reflexivity. }
    assert (Hjh : forall i, l <= i -> N.testbit j i = false) by (intros i Hi; eapply testbit_high; [exact Hj|exact Hi]).
    assert (Eadd : g * L + j = N.lor (g * L) j).
    { symmetry. apply lor_add_disj. bitwise i. destruct (N.lt_ge_cases i l); [now rewrite HgL|]. rewrite Hjh by assumption. apply andb_false_r. }
    assert (Hz : N.land (N.lor (ins_list (bits msk) (g * L)) cv) (L - 1) = 0).
    { rewrite <- Elow. bitwise i. destruct (N.ltb_spec i l) as [Hi|Hi]; [|now rewrite andb_false_r].
      rewrite ins_list_tb_low by (try apply bits_ge; assumption). rewrite HgL by assumption.
      destruct (N.testbit cv i) eqn:Ev; [|reflexivity].
      apply (cv_tb c cv Hcv) in Ev. pose proof (low_clear i Hi) as Em. unfold msk in Em.
      rewrite N.lor_spec, Ev, orb_true_r in Em. discriminate. }
    split; [|exact Hz].
    rewrite Eadd. rewrite <- lor_add_disj.
    - bitwise i. destruct (N.lt_ge_cases i l) as [Hi|Hi].
      + rewrite !ins_list_tb_low by (try apply bits_ge; assumption). rewrite N.lor_spec, HgL by assumption. simpl.
        destruct (N.testbit j i), (N.testbit cv i); reflexivity.
      + rewrite (Hjh i Hi), orb_false_r. f_equal. apply ins_list_lanes; [apply bits_ge| |assumption].
        intros k Hk. rewrite N.lor_spec, Hjh by assumption. apply orb_false_r.
    - apply N.bits_inj. intro i. rewrite N.land_spec, N.bits_0. pose proof (eq_tb _ _ Hz i) as E.
      rewrite <- Elow in E. rewrite N.land_spec, ones_tb, N.bits_0 in E. destruct (N.ltb_spec i l) as [Hi|Hi].
      + rewrite andb_true_r in E. rewrite E. reflexivity.
      + rewrite Hjh by assumption. apply andb_false_r.
  Qed.
  Lemma base_lane_t g j : g < cnt / L -> j < L -> N.lor (base (g * L + j)) t = N.lor (base (g * L)) t + j.
  Proof.
    intros Hg Hj. destruct (base_lane g j Hg Hj) as [E Hz]. rewrite E.
    assert (Hjh : forall i, l <= i -> N.testbit j i = false) by (intros i Hi; eapply testbit_high; [exact Hj|exact Hi]).
    assert (Elow : N.ones l = L - 1) by (rewrite N.ones_equiv; unfold L; lia).
    assert (Hb : forall i, i < l -> N.testbit (base (g * L)) i = false).
    { intros i Hi. pose proof (eq_tb _ _ Hz i) as F. rewrite <- Elow in F. rewrite N.land_spec, ones_tb, N.bits_0 in F.
      replace (i <? l) with true in F by lia. now rewrite andb_true_r in F. }
    assert (Htl : forall i, i < l -> N.testbit t i = false).
    { intros i Hi. pose proof (low_clear i Hi) as Em. unfold msk in Em. rewrite N.lor_spec in Em.
      apply orb_false_iff in Em. tauto. }
    rewrite <- !lor_add_disj.
    - bitwise i. bool_solve.
    - bitwise i. destruct (N.lt_ge_cases i l) as [Hi|Hi]; [rewrite Hb, Htl by assumption; reflexivity|].
      rewrite Hjh by assumption. apply andb_false_r.
    - bitwise i. destruct (N.lt_ge_cases i l) as [Hi|Hi]; [rewrite Hb by assumption; reflexivity|].
      rewrite Hjh by assumption. apply andb_false_r.
  Qed.

  (** A vectorised body that covers the groups g*L .. g*L+L-1. *)
  Lemma simd_group_computes (ts : list N) (body : N -> cprog) M m :
    (forall g, g < cnt / L ->
       let X a := exists j s, j < L /\ N.land s t = s /\ a = N.lor (base (g * L + j)) s in foot X X (body g)) ->
    (forall g j s, g < cnt / L -> j < L -> N.land s t = s ->
       let a := N.lor (base (g * L + j)) s in
       run1 N.eqb (body g) m a =
       Csum (2 ^ N.of_nat (length ts)) (fun j => (M (gather ts a) j * m (scatter ts j a))%C)) ->
    kcomputes N.eqb (fun a => a <? D) (Kernel (cnt / L) body) m
      (fun a => if a <? D then apply_mat ts (ctrls c cv) M m a else m a).
  Proof.
    intros Hfoot Hrun. unfold kcomputes. simpl. pose proof (pow2_pos l) as HL0. fold L in HL0.
    eapply par_computes_ext; [|apply (owned_par_computes C N N.eqb neqb_spec (fun a => a <? D) (cnt / L) body m
      (fun _ => false) (gdom n B c cv) (fun a => gowner t c a / L))].
    - intros a. simpl. unfold gdom. fold D. destruct (a <? D) eqn:ED; [|reflexivity]. simpl.
      unfold apply_mat. rewrite ctrl_ok_ctrls by assumption.
      destruct (N.land a c =? cv) eqn:Ec; [|reflexivity].
      assert (Hg : gdom n B c cv a = true) by (unfold gdom; fold D; rewrite ED, Ec; reflexivity).
      destruct (gowner_base n B t c cv Hn HB Ht Hc Hd Hcv a Hg) as [Hlt Hb].
      set (it := gowner t c a) in *. fold cnt in Hlt.
      assert (Hit : it = it / L * L + it mod L) by (rewrite (N.div_mod it L) at 1; lia).
      assert (Hga : a = N.lor (base (it / L * L + it mod L)) (N.land a t)).
      { rewrite <- Hit. unfold base. rewrite Hb. bitwise i. bool_solve. }
      specialize (Hrun (it / L) (it mod L) (N.land a t)). cbv zeta in Hrun. rewrite <- Hga in Hrun. apply Hrun.
      + apply N.div_lt_upper_bound; [lia|]. rewrite N.mul_comm, <- cnt_div. assumption.
      + apply N.mod_lt. lia.
      + bitwise i. bool_solve.
    - intros a Ha. pose proof (valid_gdom n B c cv a Ha) as [HaD _]. split; [now apply N.ltb_lt|]. split; [|reflexivity].
      destruct (gowner_base n B t c cv Hn HB Ht Hc Hd Hcv a Ha) as [Hlt _].
      apply N.div_lt_upper_bound; [lia|]. rewrite N.mul_comm, <- cnt_div. assumption.
    - discriminate.
    - intros g Hg.
      assert (HX : forall a, (exists j s, j < L /\ N.land s t = s /\ a = N.lor (base (g * L + j)) s) ->
         gdom n B c cv a = true /\ gowner t c a / L = g).
      { intros a (j & s & Hj & Hs & ->).
        destruct (gbase_owner n B t c cv Hn HB Ht Hc Hd Hcv (g * L + j) s (lane_lt g j Hg Hj) Hs) as [G1 G2].
        split; [exact G1|]. unfold base. rewrite G2. rewrite N.div_add_l by lia. rewrite N.div_small by assumption. lia. }
      eapply foot_mono; [| |apply (Hfoot g Hg)].
      + intros a Ha. right. now apply HX.
      + exact HX.
  Qed.
End Simd.

Lemma in_row_true n D l a p : l <= n -> N.land a (2 ^ l - 1) = 0 -> lanes_in_row n D (2 ^ l) a p = p.
Proof.
  intros Hl Ha. unfold lanes_in_row. pose proof (pow2_pos n) as Hn. pose proof (pow2_pos l) as Hl0.
  assert (E : forall k x, N.land x (2 ^ k - 1) = x mod 2 ^ k).
  { intros k x. rewrite <- N.land_ones, N.ones_equiv. f_equal. pose proof (pow2_pos k). lia. }
  rewrite E in Ha. rewrite E. destruct (N.leb_spec (a mod 2 ^ n + 2 ^ l) (2 ^ n)) as [H|H]; [reflexivity|]. exfalso.
  assert (Hd : 2 ^ n = 2 ^ l * 2 ^ (n - l)) by (rewrite <- N.pow_add_r; f_equal; lia).
  pose proof (N.div_mod a (2 ^ n) ltac:(lia)) as D1. pose proof (N.div_mod a (2 ^ l) ltac:(lia)) as D2. rewrite Ha in D2.
  pose proof (N.mod_lt a (2 ^ n) ltac:(lia)) as Hlt.
  set (r := a mod 2 ^ n) in *. set (q := a / 2 ^ n) in *. set (k := a / 2 ^ l) in *. set (w := 2 ^ (n - l)) in *.
  rewrite Hd in D1, H, Hlt. set (L := 2 ^ l) in *.
  assert (Hr : r = L * (k - w * q)) by (rewrite N.mul_sub_distr_l; lia).
  assert (k - w * q < w) by nia. nia.
Qed.
Lemma pow_le_exp l m n : 2 ^ l <= 2 ^ m -> m <= n -> l <= n.
Proof. intros H Hm. apply N.pow_le_mono_r_iff in H; lia. Qed.

Section SimdKernels.
  Variables (n B c cv l : N).
  Hypothesis Hn : n <= 64.
  Hypothesis HB : B * 2 ^ n <= two64.
  Hypothesis Hc : c < 2 ^ n.
  Hypothesis Hcv : N.land cv c = cv.
  Let D := B * 2 ^ n.
  Let L := 2 ^ l.

  Lemma zero_target_simd_computes s m : L <= 2 ^ (n - popcount c) -> N.land c (L - 1) = 0 ->
    kcomputes N.eqb (fun a => a <? D) (zero_target_dense_matrix_gate_simd n D L c cv s) m
      (fun a => if a <? D then apply_mat [] (ctrls c cv) (fun _ _ => s) m a else m a).
  Proof.
    intros Hspan Hlow. unfold zero_target_dense_matrix_gate_simd.
    assert (E0 : N.lor 0 c = c) by apply N.lor_0_l.
    pose proof (base_lane n B 0 c cv l Hn HB (pow2_pos n) Hc (N.land_0_l c) Hcv) as HbL. rewrite E0 in HbL. specialize (HbL Hspan Hlow).
    unfold gcnt in HbL. rewrite E0 in HbL. fold L D in HbL.
    change (N.shiftr D (popcount c)) with (N.shiftr D (popcount (N.lor 0 c))).
    assert (Hl : l <= n) by (apply (pow_le_exp l (n - popcount c)); [exact Hspan|lia]).
    assert (Hrow : forall g p, g < N.shiftr D (popcount c) / L ->
      lanes_in_row n D L (N.lor (insert_zero_at_mask_positions (g * L) c) cv) p = p).
    { intros g p Hg. apply in_row_true; [assumption|]. pose proof (pow2_pos l) as HL0. destruct (HbL g 0 Hg HL0) as [_ Hz].
      unfold gbase in Hz. rewrite E0 in Hz. exact Hz. }
    apply (simd_group_computes n B 0 c cv l Hn HB (pow2_pos n) Hc (N.land_0_l c) Hcv).
    - rewrite E0. exact Hspan.
    - rewrite E0. exact Hlow.
    - intros g Hg X. unfold gcnt in Hg. rewrite E0 in Hg. fold D L in Hg. rewrite (Hrow g _ Hg).
      assert (HX : forall j, (j < N.to_nat L)%nat -> X (N.lor (insert_zero_at_mask_positions (g * L) c) cv + N.of_nat j)).
      { intros j Hj. exists (N.of_nat j), 0. split; [fold L; lia|]. split; [reflexivity|]. rewrite N.lor_0_r.
        destruct (HbL g (N.of_nat j) Hg ltac:(lia)) as [Eb _]. fold L. rewrite Eb. unfold gbase. now rewrite E0. }
      apply foot_load; [exact HX|]. intros vs Hvs. apply foot_store; [|exact I].
      intros j Hj. rewrite map_length, Hvs in Hj. now apply HX.
    - intros g j s0 Hg Hj Hs a. rewrite N.land_0_r in Hs. subst s0. subst a. rewrite N.lor_0_r.
      unfold gcnt in Hg. rewrite E0 in Hg. fold D L in Hg. fold L in Hj. fold L. rewrite (Hrow g _ Hg).
      destruct (HbL g j Hg Hj) as [Eb _]. rewrite run_load, run_store. simpl. rewrite Eb.
      change (2 ^ N.of_nat 0) with 1. rewrite Csum_1. rewrite <- Eb at 2.
      unfold gbase at 1. rewrite E0. rewrite <- (N2Nat.id j) at 1. rewrite store_mem_in by (rewrite !map_length, seq_length; lia).
      rewrite nth_map0 by (rewrite map_length, seq_length; lia). rewrite nth_map_seq by lia.
      rewrite simd_coef_mul_eq. rewrite N2Nat.id. rewrite Eb. unfold gbase. now rewrite E0.
  Qed.

  Lemma one_target_simd_computes q M m : q < n -> N.testbit c q = false ->
    L <= 2 ^ (n - popcount (N.lor (2 ^ q) c)) -> N.land (N.lor (2 ^ q) c) (L - 1) = 0 ->
    kcomputes N.eqb (fun a => a <? D) (one_target_dense_matrix_gate_simd n D L (2 ^ q) c cv M) m
      (fun a => if a <? D then apply_mat [q] (ctrls c cv) M m a else m a).
  Proof.
    intros Hq Hdq Hspan Hlow. unfold one_target_dense_matrix_gate_simd.
    assert (Ht : 2 ^ q < 2 ^ n) by (apply N.pow_lt_mono_r; lia).
    assert (Hd : N.land (2 ^ q) c = 0).
    { bitwise i. destruct (N.eqb_spec i q); simpl; [subst; assumption|reflexivity]. }
    pose proof (base_lane n B (2 ^ q) c cv l Hn HB Ht Hc Hd Hcv Hspan Hlow) as HbL.
    pose proof (base_lane_t n B (2 ^ q) c cv l Hn HB Ht Hc Hd Hcv Hspan Hlow) as HbT. fold L in HbL, HbT.
    assert (Hl : l <= n) by (apply (pow_le_exp l (n - popcount (N.lor (2 ^ q) c))); [exact Hspan|lia]).
    assert (Hrow : forall g p, g < gcnt n B (2 ^ q) c / L ->
      lanes_in_row n D L (N.lor (insert_zero_at_mask_positions (g * L) (N.lor (2 ^ q) c)) cv) p = p).
    { intros g p Hg. apply in_row_true; [assumption|]. pose proof (pow2_pos l) as HL0. destruct (HbL g 0 Hg HL0) as [_ Hz]. exact Hz. }
    assert (Hrow1 : forall g p, g < gcnt n B (2 ^ q) c / L ->
      lanes_in_row n D L (N.lor (N.lor (insert_zero_at_mask_positions (g * L) (N.lor (2 ^ q) c)) cv) (2 ^ q)) p = p).
    { intros g p Hg. apply in_row_true; [assumption|]. pose proof (pow2_pos l) as HL0. destruct (HbL g 0 Hg HL0) as [_ Hz].
      fold L. rewrite N.land_comm, N.land_lor_distr_r, !(N.land_comm (L - 1)).
      replace (N.land (2 ^ q) (L - 1)) with 0; [rewrite N.lor_0_r; exact Hz|].
      symmetry. rewrite N.land_comm, N.land_lor_distr_r in Hlow. apply N.lor_eq_0_iff in Hlow as [Hlow _]. now rewrite N.land_comm. }
    apply (simd_group_computes n B (2 ^ q) c cv l Hn HB Ht Hc Hd Hcv Hspan Hlow).
    - intros g Hg X. fold L in Hg. rewrite (Hrow g _ Hg), (Hrow1 g _ Hg).
      set (b0 := N.lor (insert_zero_at_mask_positions (g * L) (N.lor (2 ^ q) c)) cv).
      assert (HX0 : forall j, (j < N.to_nat L)%nat -> X (b0 + N.of_nat j)).
      { intros j Hj. exists (N.of_nat j), 0. split; [fold L; lia|]. split; [reflexivity|]. rewrite N.lor_0_r.
        destruct (HbL g (N.of_nat j) Hg ltac:(lia)) as [Eb _]. fold L. rewrite Eb. reflexivity. }
      assert (HX1 : forall j, (j < N.to_nat L)%nat -> X (N.lor b0 (2 ^ q) + N.of_nat j)).
      { intros j Hj. exists (N.of_nat j), (2 ^ q). split; [fold L; lia|]. split; [apply N.land_diag|].
        fold L. rewrite (HbT g (N.of_nat j) Hg ltac:(lia)). reflexivity. }
      apply foot_load; [exact HX0|]. intros v0 Hv0. apply foot_load; [exact HX1|]. intros v1 Hv1.
      apply foot_store; [|apply foot_store; [|exact I]]; intros j Hj; rewrite length_map2C, !map_length, Hv0, Hv1, Nat.min_id in Hj; auto.
    - intros g j s Hg Hj Hs a. fold L in Hg, Hj. rewrite (Hrow g _ Hg), (Hrow1 g _ Hg).
      assert (Hs' : s = 0 \/ s = 2 ^ q).
      { destruct (N.testbit s q) eqn:E; [right|left]; rewrite <- Hs; bitwise i; destruct (N.eqb_spec i q); subst; rewrite ?E; try reflexivity; now rewrite andb_false_r. }
      set (b0 := N.lor (insert_zero_at_mask_positions (g * L) (N.lor (2 ^ q) c)) cv).
      assert (Eb0 : gbase (2 ^ q) c cv (g * L + j) = b0 + j) by (destruct (HbL g j Hg Hj) as [Eb _]; rewrite Eb; reflexivity).
      pose proof (HbT g j Hg Hj) as Eb1.
      change (N.lor (gbase (2 ^ q) c cv (g * L)) (2 ^ q)) with (N.lor b0 (2 ^ q)) in Eb1.
      assert (Hbase : forall it, it < gcnt n B (2 ^ q) c -> N.testbit (gbase (2 ^ q) c cv it) q = false).
      { intros it Hit. rewrite (gbase_tb n B (2 ^ q) c cv Hn HB Ht Hc Hd Hcv it q Hit) by (autorewrite with tb; now rewrite N.eqb_refl).
        destruct (N.testbit cv q) eqn:Ev; [|reflexivity]. apply (cv_tb c cv Hcv) in Ev. congruence. }
      assert (Hit : g * L + j < gcnt n B (2 ^ q) c) by (fold L; eapply lane_lt; eassumption).
      assert (Hld : N.ldiff a (2 ^ q) = b0 + j).
      { rewrite <- Eb0. unfold a. fold L. bitwise i. destruct (N.eqb_spec i q) as [->|].
        - rewrite Hbase by assumption. now rewrite andb_false_r.
        - simpl. rewrite andb_true_r. destruct Hs' as [-> | ->]; autorewrite with tb; [apply orb_false_r|].
          replace (i =? q) with false by lia. apply orb_false_r. }
      assert (Hld1 : N.lor (N.ldiff a (2 ^ q)) (2 ^ q) = N.lor b0 (2 ^ q) + j).
      { rewrite Hld, <- Eb1, <- Eb0. reflexivity. }
      pose proof (one_target_sum m M q a) as OS. rewrite bits_pow2 in OS. rewrite OS. clear OS.
      rewrite Hld1, Hld. clear Hld1.
      rewrite !run_load. rewrite !run_store. simpl run1.
      assert (Hne : forall j', (j' < N.to_nat L)%nat -> b0 + j <> N.lor b0 (2 ^ q) + N.of_nat j').
      { intros j' Hj' E. rewrite <- Eb0 in E.
        pose proof (HbT g (N.of_nat j') Hg ltac:(lia)) as HT.
        change (N.lor (gbase (2 ^ q) c cv (g * L)) (2 ^ q)) with (N.lor b0 (2 ^ q)) in HT. rewrite <- HT in E.
        pose proof (Hbase _ Hit) as F. rewrite E in F. autorewrite with tb in F. rewrite N.eqb_refl, orb_true_r in F. discriminate. }
      destruct Hs' as [-> | ->].
      + assert (Ea : a = b0 + j) by (unfold a; fold L; rewrite N.lor_0_r; exact Eb0).
        assert (Eq : N.testbit a q = false) by (rewrite Ea, <- Eb0; now apply Hbase).
        rewrite Eq. simpl N.b2n. rewrite Ea.
        rewrite store_mem_out.
        2:{ intros j' Hj'. rewrite length_map2C, !map_length, seq_length, Nat.min_id in Hj'. now apply Hne. }
        rewrite <- (N2Nat.id j) at 1. rewrite store_mem_in by (rewrite length_map2C, !map_length, seq_length; lia).
        rewrite nth_map2C by (rewrite !map_length, seq_length; lia).
        rewrite !nth_map0 by (rewrite map_length, seq_length; lia). rewrite !nth_map_seq by lia.
        rewrite !simd_coef_mul_eq, N2Nat.id. reflexivity.
      + assert (Ea : a = N.lor b0 (2 ^ q) + j) by (unfold a; fold L; exact Eb1).
        assert (Eq : N.testbit a q = true).
        { unfold a. autorewrite with tb. rewrite N.eqb_refl. apply orb_true_r. }
        rewrite Eq. simpl N.b2n. rewrite Ea.
        rewrite <- (N2Nat.id j) at 1. rewrite store_mem_in by (rewrite length_map2C, !map_length, seq_length; lia).
        rewrite nth_map2C by (rewrite !map_length, seq_length; lia).
        rewrite !nth_map0 by (rewrite map_length, seq_length; lia). rewrite !nth_map_seq by lia.
        rewrite !simd_coef_mul_eq, N2Nat.id. reflexivity.
  Qed.
End SimdKernels.
