(** Every kernel of Kernels.v computes, under every schedule, the matrix application of Spec.v. *)
From Verif Require Export Kernels BitsProofs.
From Coq Require Import ZifyBool ZifyN ZifyNat Permutation Sorting.Sorted.

(** Keep conversion from unfolding the 64-step loop; [vm_compute] is unaffected. *)
Global Opaque insert_zero_at_mask_positions.

(** Controls described by a mask and a value mask, as a list. *)
Definition ctrls (c cv : N) : list (N * bool) := map (fun i => (i, N.testbit cv i)) (bits c).

Lemma ctrl_ok_ctrls c cv x : N.land cv c = cv -> ctrl_ok (ctrls c cv) x = (N.land x c =? cv).
Proof.
  intros Hcv. unfold ctrl_ok, ctrls. apply eq_iff_eq_true. rewrite forallb_forall, N.eqb_eq. split.
  - intros H. apply N.bits_inj. intros i. rewrite N.land_spec.
    destruct (N.testbit c i) eqn:Ec.
    + specialize (H (i, N.testbit cv i)). rewrite andb_true_r. simpl in H.
      apply Bool.eqb_prop, H. apply in_map_iff. exists i. split; [reflexivity|now apply in_bits].
    + rewrite andb_false_r. rewrite <- Hcv, N.land_spec, Ec, andb_false_r. reflexivity.
  - intros H p Hp. apply in_map_iff in Hp. destruct Hp as (i & <- & Hi). apply in_bits in Hi. simpl.
    rewrite <- H, N.land_spec, Hi, andb_true_r. apply Bool.eqb_reflx.
Qed.
Lemma map_fst_ctrls c cv : map fst (ctrls c cv) = bits c.
Proof. unfold ctrls. rewrite map_map. simpl. apply map_id. Qed.

Lemma land0_tb x y i : N.land x y = 0 -> N.testbit x i = true -> N.testbit y i = false.
Proof.
  intros H Hx. assert (N.testbit (N.land x y) i = false) by (rewrite H; apply N.bits_0).
  rewrite N.land_spec, Hx in H0. assumption.
Qed.
Lemma wf_ops_masks n t c cv : t < 2 ^ n -> c < 2 ^ n -> N.land t c = 0 -> wf_ops n (bits t) (ctrls c cv).
Proof.
  intros Ht Hc Hd. unfold wf_ops. rewrite map_fst_ctrls. split.
  - apply NoDup_app_intro; try apply bits_NoDup. intros i Hi Hj. apply in_bits in Hi, Hj.
    rewrite (land0_tb t c) in Hj by assumption. discriminate.
  - apply Forall_app. split; now apply bits_lt.
Qed.

Lemma popcount_lor_disj a b : N.land a b = 0 -> popcount (N.lor a b) = popcount a + popcount b.
Proof.
  intros H. rewrite <- !bits_length. rewrite <- Nat2N.inj_add, <- app_length. f_equal.
  apply Permutation_length. apply NoDup_Permutation.
  - apply bits_NoDup.
  - apply NoDup_app_intro; try apply bits_NoDup. intros i Hi Hj. apply in_bits in Hi, Hj.
    rewrite (land0_tb a b) in Hj by assumption. discriminate.
  - intros i. rewrite in_app_iff, !in_bits, N.lor_spec, orb_true_iff. reflexivity.
Qed.

Lemma shiftr_flat B n k : k <= n -> N.shiftr (B * 2 ^ n) k = B * 2 ^ (n - k).
Proof.
  intros H. rewrite N.shiftr_div_pow2. replace n with ((n - k) + k) at 1 by lia.
  rewrite N.pow_add_r, N.mul_assoc. apply N.div_mul. apply N.pow_nonzero; lia.
Qed.

Lemma lor_u64_pow2 a b n : a < 2 ^ n -> b < 2 ^ n -> N.lor a b < 2 ^ n.
Proof.
  intros Ha Hb. apply lt_pow2_testbit. intros i Hi. rewrite N.lor_spec.
  now rewrite (testbit_high a n), (testbit_high b n).
Qed.
Lemma land_lt a b n : a < 2 ^ n -> N.land a b < 2 ^ n.
Proof. intros Ha. apply lt_pow2_testbit. intros i Hi. rewrite N.land_spec. now rewrite (testbit_high a n). Qed.
Lemma ldiff_lt_D a b B n : a < B * 2 ^ n -> N.ldiff a b < B * 2 ^ n.
Proof.
  rewrite <- !shiftr_lt. intros H. eapply N.le_lt_trans; [|exact H].
  rewrite <- (N.add_0_r (N.shiftr (N.ldiff a b) n)).
  assert (E : N.shiftr a n = N.lor (N.shiftr (N.ldiff a b) n) (N.shiftr (N.land a b) n)).
  { bitwise i. destruct (N.testbit a (i + n)), (N.testbit b (i + n)); reflexivity. }
  rewrite E. rewrite <- N.lxor_lor, <- N.add_nocarry_lxor.
  - lia.
  - bitwise i. destruct (N.testbit a (i + n)), (N.testbit b (i + n)); reflexivity.
  - bitwise i. destruct (N.testbit a (i + n)), (N.testbit b (i + n)); reflexivity.
Qed.
(** Changing bits below n keeps an index inside the flat range. *)
Lemma flat_lt_low a b B n : a < B * 2 ^ n -> (forall i, n <= i -> N.testbit b i = N.testbit a i) -> b < B * 2 ^ n.
Proof.
  rewrite <- !shiftr_lt. intros H Hb. replace (N.shiftr b n) with (N.shiftr a n); [assumption|].
  bitwise i. symmetry. apply Hb. lia.
Qed.

Lemma neqb_spec a b : reflect (a = b) (N.eqb a b).
Proof. apply N.eqb_spec. Qed.

(** Equality of masks from an equation between masked values, bit by bit. *)
Lemma eq_tb a b : a = b -> forall i, N.testbit a i = N.testbit b i.
Proof. intros ->. reflexivity. Qed.

Section Group.
  Variables (n B t c cv : N).
  Hypothesis Hn : n <= 64.
  Hypothesis HB : B * 2 ^ n <= two64.
  Hypothesis Ht : t < 2 ^ n.
  Hypothesis Hc : c < 2 ^ n.
  Hypothesis Hd : N.land t c = 0.
  Hypothesis Hcv : N.land cv c = cv.

  Let D := B * 2 ^ n.
  Let msk := N.lor t c.
  Definition gdom (a : N) : bool := (a <? D) && (N.land a c =? cv).
  Definition gowner (a : N) : N := rem_list (bits msk) (N.ldiff a msk).
  Definition gbase (it : N) : N := N.lor (insert_zero_at_mask_positions it msk) cv.
  Definition gcnt : N := N.shiftr D (popcount msk).

  Lemma two64_pow : 2 ^ n <= two64.
  Proof using Hn. clear - Hn. unfold two64. apply N.pow_le_mono_r; lia. Qed.
  Lemma msk_lt : msk < 2 ^ n.
  Proof. now apply lor_u64_pow2. Qed.
  Lemma gcnt_eq : gcnt = B * 2 ^ (n - popcount msk).
  Proof. unfold gcnt, D. apply shiftr_flat. apply popcount_le, msk_lt. Qed.
  Lemma valid_gdom a : gdom a = true -> a < D /\ N.land a c = cv.
  Proof. unfold gdom. rewrite andb_true_iff, N.ltb_lt, N.eqb_eq. tauto. Qed.
  Lemma gdom_intro a : a < D -> N.land a c = cv -> gdom a = true.
  Proof. unfold gdom. rewrite andb_true_iff, N.ltb_lt, N.eqb_eq. tauto. Qed.
  Lemma cv_lt : cv < 2 ^ n.
  Proof. rewrite <- Hcv, N.land_comm. apply land_lt. exact Hc. Qed.
  Lemma cv_tb i : N.testbit cv i = true -> N.testbit c i = true.
  Proof. rewrite <- Hcv, N.land_spec. destruct (N.testbit cv i); simpl; congruence. Qed.

  Lemma gbase_tb it i : it < gcnt -> N.testbit msk i = true -> N.testbit (gbase it) i = N.testbit cv i.
  Proof.
    intros Hit Hi. unfold gbase. rewrite N.lor_spec.
    rewrite gcnt_eq in Hit. pose proof two64_pow. pose proof msk_lt.
    destruct (insert_zero_range msk it n B) as [_ Hz]; [assumption|exact HB|lia|assumption|].
    rewrite N.land_comm in Hz. rewrite (land0_tb msk _ i Hz Hi). reflexivity.
  Qed.
  Lemma gbase_owner it s : it < gcnt -> N.land s t = s ->
    gdom (N.lor (gbase it) s) = true /\ gowner (N.lor (gbase it) s) = it.
  Proof.
    intros Hit Hs. pose proof Hit as Hit'. rewrite gcnt_eq in Hit'.
    pose proof two64_pow as H64. pose proof msk_lt as Hm.
    destruct (insert_zero_range msk it n B) as [Hr Hz]; [assumption|exact HB|lia|assumption|].
    assert (Hsb : forall i, N.testbit s i = true -> N.testbit t i = true).
    { intros i. rewrite <- Hs, N.land_spec. destruct (N.testbit s i); simpl; congruence. }
    assert (Hz' : forall i, N.testbit msk i = true -> N.testbit (insert_zero_at_mask_positions it msk) i = false).
    { intros i Hi. rewrite N.land_comm in Hz. eapply land0_tb; eassumption. }
    split.
    - apply gdom_intro.
      + eapply flat_lt_low; [exact Hr|]. intros i Hi. unfold gbase. rewrite !N.lor_spec.
        rewrite (testbit_high cv n) by (try apply cv_lt; assumption).
        destruct (N.testbit s i) eqn:Es; [|now rewrite !orb_false_r].
        apply Hsb in Es. rewrite (testbit_high t n) in Es by assumption. discriminate.
      + bitwise i. unfold gbase. rewrite N.lor_spec. destruct (N.testbit c i) eqn:Ec.
        * rewrite Hz' by (unfold msk; rewrite N.lor_spec, Ec; apply orb_true_r).
          destruct (N.testbit s i) eqn:Es; [|now rewrite orb_false_r, andb_true_r].
          apply Hsb in Es. pose proof (land0_tb t c i Hd Es). congruence.
        * rewrite andb_false_r. destruct (N.testbit cv i) eqn:E; [|reflexivity]. apply cv_tb in E. congruence.
    - unfold gowner. replace (N.ldiff (N.lor (gbase it) s) msk) with (insert_zero_at_mask_positions it msk).
      + rewrite (insert_zero_spec msk it n B); [|assumption|exact HB|lia|assumption]. apply rem_ins_list.
      + bitwise i. unfold gbase. rewrite N.lor_spec. destruct (N.testbit msk i) eqn:Em; simpl.
        * rewrite Hz' by assumption. now rewrite andb_false_r.
        * rewrite andb_true_r. unfold msk in Em. rewrite N.lor_spec in Em. apply orb_false_iff in Em.
          destruct Em as [Et Ec]. destruct (N.testbit cv i) eqn:Ev; [apply cv_tb in Ev; congruence|].
          destruct (N.testbit s i) eqn:Es; [apply Hsb in Es; congruence|]. now rewrite !orb_false_r.
  Qed.
  Lemma gowner_base a : gdom a = true -> gowner a < gcnt /\ gbase (gowner a) = N.ldiff a t.
  Proof.
    intros Ha. apply valid_gdom in Ha. destruct Ha as [Ha Hac].
    pose proof two64_pow as H64. pose proof msk_lt as Hm.
    destruct (insert_zero_surj msk (N.ldiff a msk) n B) as [H1 H2]; [assumption|exact HB|lia| | |].
    - apply ldiff_lt_D. exact Ha.
    - bitwise i. destruct (N.testbit a i), (N.testbit msk i); reflexivity.
    - split; [rewrite gcnt_eq; exact H1|]. unfold gbase, gowner. rewrite H2.
      bitwise i. pose proof (eq_tb _ _ Hac i) as E. rewrite N.land_spec in E. rewrite <- E.
      unfold msk. rewrite N.lor_spec.
      destruct (N.testbit t i) eqn:Et.
      + rewrite (land0_tb t c i Hd Et). simpl. now rewrite !andb_false_r.
      + simpl. destruct (N.testbit c i), (N.testbit a i); reflexivity.
  Qed.
  Lemma gcnt_alt : N.shiftr (B * 2 ^ n) (popcount (N.lor t c)) = gcnt.
  Proof. reflexivity. Qed.

  (** The reusable kernel theorem: a body that only touches the group of its own base. *)
  Lemma group_computes (P : N -> cprog) (body : N -> cprog) m :
    (forall it, it < gcnt -> body it = P (gbase it)) ->
    (forall b, N.land b t = 0 ->
       foot (fun a => exists s, N.land s t = s /\ a = N.lor b s) (fun a => exists s, N.land s t = s /\ a = N.lor b s) (P b)) ->
    kcomputes N.eqb (fun a => a <? D) (Kernel gcnt body) m
      (fun a => if gdom a then run1 N.eqb (P (N.ldiff a t)) m a else m a).
  Proof.
    intros Hbody Hfoot. unfold kcomputes. simpl.
    eapply par_computes_ext; [|apply (owned_par_computes C N N.eqb neqb_spec (fun a => a <? D) gcnt body m (fun _ => false) gdom gowner)].
    - intros a. simpl. destruct (gdom a) eqn:E; [|reflexivity].
      destruct (gowner_base a E) as [Hlt Hb]. rewrite Hbody by assumption. now rewrite Hb.
    - intros a Ha. destruct (gowner_base a Ha). apply valid_gdom in Ha. split; [now apply N.ltb_lt|]. split; auto.
    - discriminate.
    - intros it Hit. rewrite Hbody by assumption.
      eapply foot_mono; [| |apply (Hfoot (gbase it))].
      + intros a (s & Hs & ->). right. now apply gbase_owner.
      + intros a (s & Hs & ->). now apply gbase_owner.
      + bitwise i. destruct (N.testbit t i) eqn:Et; [|now rewrite andb_false_r].
        rewrite gbase_tb; [|assumption|unfold msk; rewrite N.lor_spec, Et; reflexivity].
        destruct (N.testbit cv i) eqn:Ev; [|reflexivity]. apply cv_tb in Ev.
        rewrite (land0_tb t c i Hd Et) in Ev. discriminate.
  Qed.

  (** The same, concluding with the specification. *)
  Lemma group_computes_mat (ts : list N) (P : N -> cprog) (body : N -> cprog) M m :
    (forall it, it < gcnt -> body it = P (gbase it)) ->
    (forall b, N.land b t = 0 ->
       foot (fun a => exists s, N.land s t = s /\ a = N.lor b s) (fun a => exists s, N.land s t = s /\ a = N.lor b s) (P b)) ->
    (forall a, run1 N.eqb (P (N.ldiff a t)) m a =
       Csum (2 ^ N.of_nat (length ts)) (fun j => (M (gather ts a) j * m (scatter ts j a))%C)) ->
    kcomputes N.eqb (fun a => a <? D) (Kernel gcnt body) m
      (fun a => if a <? D then apply_mat ts (ctrls c cv) M m a else m a).
  Proof.
    intros Hbody Hfoot Hrun. unfold kcomputes.
    eapply par_computes_ext; [|apply (group_computes P body m Hbody Hfoot)].
    intros a. simpl. unfold gdom. destruct (a <? D); [|reflexivity]. simpl.
    unfold apply_mat. rewrite ctrl_ok_ctrls by assumption.
    destruct (N.land a c =? cv); [|reflexivity]. apply Hrun.
  Qed.
End Group.

(** ** One target *)
Lemma bits_pow2 q : bits (2 ^ q) = [q].
Proof.
  apply bits_unique.
  - repeat constructor.
  - intros i. rewrite pow2_tb. simpl. split; [intros [->|[]]; apply N.eqb_refl|]. rewrite N.eqb_eq. auto.
Qed.
Lemma bits_0 : bits 0 = []. Proof. reflexivity. Qed.

Lemma one_target_sum (m : state) M q a :
  Csum (2 ^ N.of_nat (length (bits (2 ^ q)))) (fun j => (M (gather (bits (2 ^ q)) a) j * m (scatter (bits (2 ^ q)) j a))%C) =
  (M (N.b2n (N.testbit a q)) 0 * m (N.ldiff a (2 ^ q)) + M (N.b2n (N.testbit a q)) 1 * m (N.lor (N.ldiff a (2 ^ q)) (2 ^ q)))%C.
Proof.
  rewrite bits_pow2. simpl length. change (2 ^ N.of_nat 1) with 2. rewrite Csum_2.
  cbn [gather scatter]. rewrite N.mul_0_r, N.add_0_r. change (N.odd 0) with false. change (N.odd 1) with true.
  f_equal; f_equal; f_equal; apply N.bits_inj; intro i; rewrite set_bit_tb; autorewrite with tb.
  - destruct (N.eqb_spec i q); simpl; [now rewrite andb_false_r|now rewrite andb_true_r].
  - destruct (N.eqb_spec i q); simpl; [now rewrite andb_false_r|now rewrite andb_true_r, orb_false_r].
Qed.
Lemma pow2_group_cases a q : (N.testbit a q = false /\ a = N.ldiff a (2 ^ q)) \/
                             (N.testbit a q = true /\ a = N.lor (N.ldiff a (2 ^ q)) (2 ^ q)).
Proof.
  destruct (N.testbit a q) eqn:E; [right|left]; (split; [reflexivity|]); bitwise i.
  - destruct (N.eqb_spec i q); [subst; rewrite E; reflexivity|]. simpl. now rewrite andb_true_r, orb_false_r.
  - destruct (N.eqb_spec i q); [subst; rewrite E; reflexivity|]. simpl. now rewrite andb_true_r.
Qed.
Lemma ldiff_pow2_neq a q : N.ldiff a (2 ^ q) <> N.lor (N.ldiff a (2 ^ q)) (2 ^ q).
Proof.
  intros H. apply (f_equal (fun x => N.testbit x q)) in H. autorewrite with tb in H.
  rewrite N.eqb_refl in H. simpl in H. rewrite andb_false_r in H. discriminate.
Qed.

(** Evaluate [run1] on a concrete program. *)
Ltac upd_simpl :=
  repeat first
   [ rewrite N.eqb_refl
   | match goal with H : ?a <> ?b |- context [?a =? ?b] => rewrite (proj2 (N.eqb_neq a b) H) end
   | match goal with H : ?a <> ?b |- context [?b =? ?a] => rewrite (proj2 (N.eqb_neq b a) (not_eq_sym H)) end ].

Lemma Kernel_eta {A} k1 k2 (b1 b2 : N -> prog C A) : k1 = k2 -> b1 = b2 -> Kernel k1 b1 = Kernel k2 b2.
Proof. congruence. Qed.

Section OneTarget.
  Variables (n B q c cv : N).
  Hypothesis Hn : n <= 64.
  Hypothesis HB : B * 2 ^ n <= two64.
  Hypothesis Hq : q < n.
  Hypothesis Hc : c < 2 ^ n.
  Hypothesis Hd : N.testbit c q = false.
  Hypothesis Hcv : N.land cv c = cv.
  Let D := B * 2 ^ n.
  Let t := 2 ^ q.

  Lemma t_lt : t < 2 ^ n.
  Proof. apply N.pow_lt_mono_r; lia. Qed.
  Lemma t_disj : N.land t c = 0.
  Proof. unfold t. bitwise i. destruct (N.eqb_spec i q); simpl; [subst; assumption|reflexivity]. Qed.

  Definition flat_spec (M : matrix) (m : state) : state :=
    fun a => if a <? D then apply_mat [q] (ctrls c cv) M m a else m a.

  Lemma one_target_group (P : N -> cprog) (body : N -> cprog) M m :
    (forall it, body it = P (N.lor (insert_zero_at_mask_positions it (N.lor t c)) cv)) ->
    (forall b, N.land b t = 0 ->
       foot (fun a => a = b \/ a = N.lor b t) (fun a => a = b \/ a = N.lor b t) (P b)) ->
    (forall b, b <> N.lor b t -> N.land b t = 0 ->
       run1 N.eqb (P b) m b = (M 0 0 * m b + M 0 1 * m (N.lor b t))%C /\
       run1 N.eqb (P b) m (N.lor b t) = (M 1 0 * m b + M 1 1 * m (N.lor b t))%C) ->
    kcomputes N.eqb (fun a => a <? D) (Kernel (N.shiftr D (popcount (N.lor t c))) body) m (flat_spec M m).
  Proof.
    intros Hbody Hfoot Hrun. unfold flat_spec. unfold t in *. rewrite <- (bits_pow2 q).
    apply (group_computes_mat n B (2 ^ q) c cv Hn HB t_lt Hc t_disj Hcv (bits (2 ^ q)) P).
    - intros it _. apply Hbody.
    - intros b Hb. eapply foot_mono; [| |apply Hfoot; assumption].
      + intros a [-> | ->]; [exists 0; split; [reflexivity|now rewrite N.lor_0_r]|exists (2 ^ q); split; [apply N.land_diag|reflexivity]].
      + intros a [-> | ->]; [exists 0; split; [reflexivity|now rewrite N.lor_0_r]|exists (2 ^ q); split; [apply N.land_diag|reflexivity]].
    - intros a. rewrite one_target_sum.
      destruct (Hrun (N.ldiff a (2 ^ q))) as [H0 H1].
      + apply ldiff_pow2_neq.
      + bitwise i. destruct (N.testbit a i), (i =? q); reflexivity.
      + destruct (pow2_group_cases a q) as [[E Ea]|[E Ea]]; rewrite E; simpl N.b2n.
        * rewrite Ea at 2. exact H0.
        * rewrite Ea at 2. exact H1.
  Qed.

  Lemma lor_tc : N.lor c t = N.lor t c. Proof. apply N.lor_comm. Qed.

  Ltac solve_one :=
    match goal with |- forall b, _ <> _ -> _ -> _ =>
      intros b Hne _; unfold mul_at, swap_at; simpl; unfold upd; upd_simpl; split; try reflexivity; try ring end.
  Ltac solve_foot := intros b _; unfold mul_at, swap_at; simpl; repeat split; auto.

  Lemma phase_computes phase m :
    kcomputes N.eqb (fun a => a <? D) (one_target_phase_gate D t c cv phase) m (flat_spec (mat2 C1 C0 C0 phase) m).
  Proof.
    apply (one_target_group (fun i => mul_at (N.lor i t) phase Ret)).
    - intros it. cbv zeta. rewrite lor_tc. reflexivity.
    - solve_foot.
    - solve_one.
  Qed.
  Lemma x_computes m :
    kcomputes N.eqb (fun a => a <? D) (x_gate D t c cv) m (flat_spec (mat2 C0 C1 C1 C0) m).
  Proof.
    apply (one_target_group (fun i => swap_at i (N.lor i t) Ret)).
    - intros it. cbv zeta. rewrite lor_tc. reflexivity.
    - solve_foot.
    - solve_one.
  Qed.
  Lemma y_computes m :
    kcomputes N.eqb (fun a => a <? D) (y_gate D t c cv) m (flat_spec (mat2 C0 (- Ci)%C Ci C0) m).
  Proof.
    apply (one_target_group (fun i => mul_at i Ci (mul_at (N.lor i t) (- Ci)%C (swap_at i (N.lor i t) Ret)))).
    - intros it. cbv zeta. rewrite lor_tc. reflexivity.
    - solve_foot.
    - solve_one.
  Qed.
  Lemma diagonal_computes d0 d1 m :
    kcomputes N.eqb (fun a => a <? D) (one_target_diagonal_matrix_gate D t c cv d0 d1) m (flat_spec (mat2 d0 C0 C0 d1) m).
  Proof.
    apply (one_target_group (fun i => mul_at i d0 (mul_at (N.lor i t) d1 Ret))).
    - reflexivity.
    - solve_foot.
    - solve_one.
  Qed.
  Lemma dense1_scalar_computes M m :
    kcomputes N.eqb (fun a => a <? D) (one_target_dense_matrix_gate_scalar D t c cv M) m (flat_spec M m).
  Proof.
    apply (one_target_group (fun b0 => Rd b0 (fun val0 => Rd (N.lor b0 t) (fun val1 =>
        Wr b0 (M 0 0 * val0 + M 0 1 * val1)%C (Wr (N.lor b0 t) (M 1 0 * val0 + M 1 1 * val1)%C Ret))))).
    - intros it. cbv zeta. rewrite lor_tc. reflexivity.
    - solve_foot.
    - solve_one.
  Qed.
End OneTarget.
