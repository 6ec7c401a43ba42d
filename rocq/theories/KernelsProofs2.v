(** Two-target kernels, controlled global phase, and the permutation schedule. *)
From Verif Require Export KernelsProofs.
From Coq Require Import ZifyBool ZifyN ZifyNat Permutation Sorting.Sorted.

(** Lowest set bit by the two's-complement trick. *)
Lemma not64_val x : x < two64 -> not64 x = two64 - 1 - x.
Proof.
  intros H. unfold not64. assert (N.land x (N.lxor x (N.ones 64)) = 0).
  { bitwise i. destruct (N.ltb_spec i 64); [destruct (N.testbit x i); reflexivity|].
    rewrite (lt_two64_tb x) by assumption. reflexivity. }
  apply N.add_nocarry_lxor in H0.
  assert (x + N.lxor x (N.ones 64) = N.ones 64).
  { rewrite H0. rewrite <- N.lxor_assoc, N.lxor_nilpotent, N.lxor_0_l. reflexivity. }
  change (N.ones 64) with (two64 - 1) in *. lia.
Qed.
Lemma neg64_val t : 0 < t -> t < two64 -> neg64 t = not64 (sub64 t 1).
Proof.
  intros H0 H1. rewrite sub64_pred by assumption. rewrite not64_val by lia.
  unfold neg64. rewrite wrap_small by lia. lia.
Qed.
Lemma lowest_bit t : 0 < t -> t < two64 -> N.land (neg64 t) t = 2 ^ ctz t.
Proof.
  intros H0 H1. rewrite neg64_val by assumption.
  destruct (bits_step t H0 H1) as (Hb & _ & Ht).
  pose proof (bits_incr t) as Hs. rewrite Hb in Hs. inversion Hs as [|? ? _ Hf]; subst.
  bitwise i.
  assert (Hi : N.testbit t i = true -> i = ctz t \/ N.testbit (sub64 t 1) i = true).
  { intros Hi. apply in_bits in Hi. rewrite Hb in Hi. destruct Hi as [<-|Hi]; [now left|right].
    apply in_bits in Hi. rewrite N.land_spec in Hi. destruct (N.testbit (sub64 t 1) i); [reflexivity|].
    now rewrite andb_false_r in Hi. }
  destruct (N.eqb_spec i (ctz t)) as [->|Hne].
  - rewrite Ht. assert (N.testbit (sub64 t 1) (ctz t) = false).
    { destruct (N.testbit (sub64 t 1) (ctz t)) eqn:E; [|reflexivity]. exfalso.
      assert (Hin : In (ctz t) (bits (N.land t (sub64 t 1)))) by (apply in_bits; rewrite N.land_spec, Ht, E; reflexivity).
      rewrite Forall_forall in Hf. apply Hf in Hin. lia. }
    rewrite H. pose proof (testbit_high t 64 (ctz t) H1). destruct (N.ltb_spec (ctz t) 64); [reflexivity|].
    rewrite H2 in Ht by assumption. discriminate.
  - destruct (N.testbit t i) eqn:E; [|now rewrite andb_false_r].
    destruct Hi as [Hi|Hi]; [reflexivity|congruence|]. rewrite Hi.
    destruct (N.ltb_spec i 64); [reflexivity|]. rewrite (lt_two64_tb t) in E by assumption. discriminate.
Qed.

Section ZeroTarget.
  Variables (n B c cv : N).
  Hypothesis Hn : n <= 64.
  Hypothesis HB : B * 2 ^ n <= two64.
  Hypothesis Hc : c < 2 ^ n.
  Hypothesis Hcv : N.land cv c = cv.
  Let D := B * 2 ^ n.
  Lemma zero_target_scalar_computes s m :
    kcomputes N.eqb (fun a => a <? D) (zero_target_dense_matrix_gate_scalar D c cv s) m
      (fun a => if a <? D then apply_mat [] (ctrls c cv) (fun _ _ => s) m a else m a).
  Proof.
    apply (group_computes_mat n B 0 c cv Hn HB (pow2_pos n) Hc (N.land_0_l c) Hcv [] (fun b => mul_at b s Ret)).
    - intros it _. unfold gbase. rewrite N.lor_0_l. reflexivity.
    - intros b _. unfold mul_at. simpl. assert (exists s0, N.land s0 0 = s0 /\ b = N.lor b s0) by
        (exists 0; split; [reflexivity|now rewrite N.lor_0_r]). auto.
    - intros a. rewrite N.ldiff_0_r. unfold mul_at. simpl. unfold upd. rewrite N.eqb_refl.
      change (2 ^ N.of_nat 0) with 1. rewrite Csum_1. ring.
  Qed.
End ZeroTarget.

(** ** Two targets *)
Section TwoAux.
  Variables (p q : N).
  Hypothesis Hpq : p <> q.
  Let t := N.lor (2 ^ p) (2 ^ q).
  Lemma two_target_sum (m : state) M a :
    let b := N.ldiff a t in let r := N.b2n (N.testbit a p) + 2 * N.b2n (N.testbit a q) in
    Csum (2 ^ N.of_nat (length [p; q])) (fun j => (M (gather [p; q] a) j * m (scatter [p; q] j a))%C) =
    (M r 0 * m b + M r 1 * m (N.lor b (2 ^ p)) + M r 2 * m (N.lor b (2 ^ q)) + M r 3 * m (N.lor (N.lor b (2 ^ p)) (2 ^ q)))%C.
  Proof.
    intros b r. simpl length. change (2 ^ N.of_nat 2) with 4. rewrite Csum_4.
    cbn [gather scatter]. rewrite N.mul_0_r, N.add_0_r. fold r.
    change (N.odd 0) with false. change (N.odd 1) with true. change (N.odd 2) with false. change (N.odd 3) with true.
    change (N.odd (N.div2 0)) with false. change (N.odd (N.div2 1)) with false. change (N.odd (N.div2 2)) with true.
    change (N.odd (N.div2 3)) with true.
    assert (Hs : forall x y, set_bit (set_bit a p x) q y = N.lor (N.lor b (if x then 2 ^ p else 0)) (if y then 2 ^ q else 0)).
    { intros x y. apply N.bits_inj; intro i. rewrite !set_bit_tb, !N.lor_spec. unfold b, t. autorewrite with tb.
      destruct (N.eqb_spec i q), (N.eqb_spec i p); subst; try congruence;
        destruct x, y; autorewrite with tb; cmp_cases; try congruence; bool_solve. }
    rewrite !Hs. now rewrite !N.lor_0_r.
  Qed.

  Lemma two_group_cases a : let b := N.ldiff a t in
    (N.testbit a p = false /\ N.testbit a q = false /\ a = b) \/
    (N.testbit a p = true /\ N.testbit a q = false /\ a = N.lor b (2 ^ p)) \/
    (N.testbit a p = false /\ N.testbit a q = true /\ a = N.lor b (2 ^ q)) \/
    (N.testbit a p = true /\ N.testbit a q = true /\ a = N.lor (N.lor b (2 ^ p)) (2 ^ q)).
  Proof.
    intros b. destruct (N.testbit a p) eqn:Ep, (N.testbit a q) eqn:Eq;
      [right; right; right|right; left|right; right; left|left]; (split; [reflexivity|split; [reflexivity|]]);
      unfold b, t; bitwise i; destruct (N.eqb_spec i q), (N.eqb_spec i p); subst;
      rewrite ?Ep, ?Eq; cmp_cases; try congruence; bool_solve.
  Qed.
  Lemma two_neq b : N.land b t = 0 ->
    b <> N.lor b (2 ^ p) /\ b <> N.lor b (2 ^ q) /\ b <> N.lor (N.lor b (2 ^ p)) (2 ^ q) /\
    N.lor b (2 ^ p) <> N.lor b (2 ^ q) /\ N.lor b (2 ^ p) <> N.lor (N.lor b (2 ^ p)) (2 ^ q) /\
    N.lor b (2 ^ q) <> N.lor (N.lor b (2 ^ p)) (2 ^ q).
  Proof.
    intros Hb.
    assert (E1 : N.testbit b p = false).
    { pose proof (eq_tb _ _ Hb p) as E. unfold t in E. autorewrite with tb in E. rewrite N.eqb_refl in E.
      now rewrite andb_true_r in E. }
    assert (E2 : N.testbit b q = false).
    { pose proof (eq_tb _ _ Hb q) as E. unfold t in E. autorewrite with tb in E. rewrite N.eqb_refl in E.
      now rewrite orb_true_r, andb_true_r in E. }
    assert (Epq : (p =? q) = false) by now apply N.eqb_neq.
    assert (Eqp : (q =? p) = false) by (apply N.eqb_neq; congruence).
    repeat split; intros H; pose proof (eq_tb _ _ H p) as F1; pose proof (eq_tb _ _ H q) as F2;
      rewrite !N.lor_spec, !pow2_tb in F1 || rewrite !N.lor_spec, pow2_tb in F1;
      rewrite !N.lor_spec, !pow2_tb in F2 || rewrite !N.lor_spec, pow2_tb in F2;
      rewrite ?N.eqb_refl, ?Epq, ?E1 in F1; rewrite ?N.eqb_refl, ?Eqp, ?E2 in F2;
      first [discriminate F1|discriminate F2].
  Qed.

End TwoAux.

Section TwoTarget.
  Variables (n B p q c cv : N).
  Hypothesis Hn : n <= 64.
  Hypothesis HB : B * 2 ^ n <= two64.
  Hypothesis Hp : p < n.
  Hypothesis Hq : q < n.
  Hypothesis Hpq : p <> q.
  Hypothesis Hc : c < 2 ^ n.
  Hypothesis Hdp : N.testbit c p = false.
  Hypothesis Hdq : N.testbit c q = false.
  Hypothesis Hcv : N.land cv c = cv.
  Let D := B * 2 ^ n.
  Let t := N.lor (2 ^ p) (2 ^ q).

  Lemma t2_lt : t < 2 ^ n.
  Proof. apply lor_u64_pow2; apply N.pow_lt_mono_r; lia. Qed.
  Lemma t2_disj : N.land t c = 0.
  Proof.
    unfold t. bitwise i. destruct (N.eqb_spec i p) as [->|]; [rewrite Hdp; apply andb_false_r|].
    destruct (N.eqb_spec i q) as [->|]; [rewrite Hdq; apply andb_false_r|reflexivity].
  Qed.

  Lemma two_target_group (P : N -> cprog) (body : N -> cprog) M m :
    (forall it, body it = P (N.lor (insert_zero_at_mask_positions it (N.lor t c)) cv)) ->
    (forall b, N.land b t = 0 ->
       let X a := a = b \/ a = N.lor b (2 ^ p) \/ a = N.lor b (2 ^ q) \/ a = N.lor (N.lor b (2 ^ p)) (2 ^ q) in foot X X (P b)) ->
    (forall b, let b1 := N.lor b (2 ^ p) in let b2 := N.lor b (2 ^ q) in let b3 := N.lor b1 (2 ^ q) in
       b <> b1 -> b <> b2 -> b <> b3 -> b1 <> b2 -> b1 <> b3 -> b2 <> b3 ->
       let row r := (M r 0 * m b + M r 1 * m b1 + M r 2 * m b2 + M r 3 * m b3)%C in
       run1 N.eqb (P b) m b = row 0 /\ run1 N.eqb (P b) m b1 = row 1 /\
       run1 N.eqb (P b) m b2 = row 2 /\ run1 N.eqb (P b) m b3 = row 3) ->
    kcomputes N.eqb (fun a => a <? D) (Kernel (N.shiftr D (popcount (N.lor t c))) body) m
      (fun a => if a <? D then apply_mat [p; q] (ctrls c cv) M m a else m a).
  Proof.
    intros Hbody Hfoot Hrun.
    apply (group_computes_mat n B t c cv Hn HB t2_lt Hc t2_disj Hcv [p; q] P).
    - intros it _. apply Hbody.
    - intros b Hb.
      assert (HX : forall a, a = b \/ a = N.lor b (2 ^ p) \/ a = N.lor b (2 ^ q) \/ a = N.lor (N.lor b (2 ^ p)) (2 ^ q) ->
        exists s, N.land s t = s /\ a = N.lor b s).
      { intros a [-> | [-> | [-> | ->]]].
        - exists 0. split; [reflexivity|now rewrite N.lor_0_r].
        - exists (2 ^ p). split; [|reflexivity]. unfold t. bitwise i. bool_solve || (cmp_cases; reflexivity).
        - exists (2 ^ q). split; [|reflexivity]. unfold t. bitwise i. cmp_cases; reflexivity.
        - exists t. split; [apply N.land_diag|]. unfold t. now rewrite N.lor_assoc. }
      eapply foot_mono; [exact HX|exact HX|]. apply Hfoot. assumption.
    - intros a. rewrite two_target_sum by assumption. set (b := N.ldiff a t).
      assert (Hbt : N.land b t = 0) by (unfold b; bitwise i; bool_solve).
      destruct (two_neq p q Hpq b Hbt) as (N1 & N2 & N3 & N4 & N5 & N6).
      destruct (Hrun b N1 N2 N3 N4 N5 N6) as (R0 & R1 & R2 & R3).
      destruct (two_group_cases p q Hpq a) as [(E1 & E2 & Ea)|[(E1 & E2 & Ea)|[(E1 & E2 & Ea)|(E1 & E2 & Ea)]]];
        fold b in Ea; rewrite E1, E2; cbv zeta; simpl N.b2n;
        idtac.
      + rewrite Ea at 1. exact R0.
      + rewrite Ea at 1. exact R1.
      + rewrite Ea at 1. exact R2.
      + rewrite Ea at 1. exact R3.
  Qed.
End TwoTarget.

Lemma bits_two p q : p < q -> bits (N.lor (2 ^ p) (2 ^ q)) = [p; q].
Proof.
  intros H. apply bits_unique.
  - repeat constructor. assumption.
  - intros i. autorewrite with tb. simpl. rewrite orb_true_iff, !N.eqb_eq. intuition.
Qed.
Lemma lower_two p q : p < q -> q < 64 -> N.land (neg64 (N.lor (2 ^ p) (2 ^ q))) (N.lor (2 ^ p) (2 ^ q)) = 2 ^ p.
Proof.
  intros H Hq. set (t := N.lor (2 ^ p) (2 ^ q)).
  assert (Ht : t < two64). { unfold t, two64. apply lor_u64_pow2; apply N.pow_lt_mono_r; lia. }
  assert (H0 : 0 < t).
  { apply N.neq_0_lt_0. intros E. pose proof (bits_two p q H) as Hb. fold t in Hb. rewrite E in Hb. discriminate. }
  rewrite lowest_bit by assumption. f_equal.
  destruct (bits_step t H0 Ht) as (Hb & _). unfold t in Hb at 1. rewrite bits_two in Hb by assumption. congruence.
Qed.
Lemma upper_two p q : p <> q -> N.lxor (N.lor (2 ^ p) (2 ^ q)) (2 ^ p) = 2 ^ q.
Proof. intros H. bitwise i. cmp_cases; subst; try congruence; reflexivity. Qed.
Lemma third_two b p q : N.lor (N.lor b (2 ^ p)) (N.lor (2 ^ p) (2 ^ q)) = N.lor (N.lor b (2 ^ p)) (2 ^ q).
Proof. bitwise i. cmp_cases; bool_solve. Qed.

(** 4x4 matrices used by the two-qubit gates (bit 0 of the index is the first qubit of the list). *)
Definition swap_mat : matrix := fun i j =>
  if (i =? 1) && (j =? 2) || (i =? 2) && (j =? 1) || (i =? 0) && (j =? 0) || (i =? 3) && (j =? 3) then C1 else C0.
(** ECR with bit 0 = control, bit 1 = target: (1/sqrt 2) (X_c + ... ) given row by row. *)
Definition ecr_mat : matrix := fun i j =>
  let s := RtoC INVERSE_SQRT2 in
  if (i =? 0) && (j =? 1) then s else if (i =? 0) && (j =? 3) then (s * Ci)%C else
  if (i =? 1) && (j =? 0) then s else if (i =? 1) && (j =? 2) then (- s * Ci)%C else
  if (i =? 2) && (j =? 1) then (s * Ci)%C else if (i =? 2) && (j =? 3) then s else
  if (i =? 3) && (j =? 0) then (- s * Ci)%C else if (i =? 3) && (j =? 2) then s else C0.

Section TwoKernels.
  Variables (n B p q c cv : N).
  Hypothesis Hn : n <= 64.
  Hypothesis HB : B * 2 ^ n <= two64.
  Hypothesis Hp : p < n.
  Hypothesis Hq : q < n.
  Hypothesis Hpq : p <> q.
  Hypothesis Hc : c < 2 ^ n.
  Hypothesis Hdp : N.testbit c p = false.
  Hypothesis Hdq : N.testbit c q = false.
  Hypothesis Hcv : N.land cv c = cv.
  Let D := B * 2 ^ n.
  Let t := N.lor (2 ^ p) (2 ^ q).

  Ltac solve_two :=
    intros b b1 b2 b3 N1 N2 N3 N4 N5 N6; subst b1 b2 b3; unfold swap_at; simpl; unfold upd; upd_simpl;
    repeat split; try reflexivity; try (cbv [swap_mat ecr_mat]; simpl; ring).

  Lemma two_target_dense_computes M m : p < q ->
    kcomputes N.eqb (fun a => a <? D) (two_target_dense_matrix_gate D t c cv M) m
      (fun a => if a <? D then apply_mat [p; q] (ctrls c cv) M m a else m a).
  Proof.
    intros Hlt. unfold two_target_dense_matrix_gate. unfold t.
    rewrite lower_two by lia. rewrite upper_two by lia.
    apply (two_target_group n B p q c cv Hn HB Hp Hq Hpq Hc Hdp Hdq Hcv
      (fun b0 => Rd b0 (fun v0 => Rd (N.lor b0 (2 ^ p)) (fun v1 => Rd (N.lor b0 (2 ^ q)) (fun v2 =>
                 Rd (N.lor (N.lor b0 (2 ^ p)) (2 ^ q)) (fun v3 =>
        let row r := (M r 0 * v0 + M r 1 * v1 + M r 2 * v2 + M r 3 * v3)%C in
        Wr b0 (row 0) (Wr (N.lor b0 (2 ^ p)) (row 1) (Wr (N.lor b0 (2 ^ q)) (row 2)
        (Wr (N.lor (N.lor b0 (2 ^ p)) (2 ^ q)) (row 3) Ret))))))))).
    - intros it. cbv zeta. rewrite third_two. reflexivity.
    - intros b _ X. subst X. simpl. repeat split; auto.
    - solve_two.
  Qed.
  Lemma swap_computes m : p < q ->
    kcomputes N.eqb (fun a => a <? D) (swap_gate D t c cv) m
      (fun a => if a <? D then apply_mat [p; q] (ctrls c cv) swap_mat m a else m a).
  Proof.
    intros Hlt. unfold swap_gate. unfold t. rewrite (N.land_comm _ (neg64 _)).
    rewrite lower_two by lia. rewrite upper_two by lia.
    apply (two_target_group n B p q c cv Hn HB Hp Hq Hpq Hc Hdp Hdq Hcv
      (fun b0 => swap_at (N.lor b0 (2 ^ p)) (N.lor b0 (2 ^ q)) Ret)).
    - reflexivity.
    - intros b _ X. subst X. unfold swap_at. simpl. repeat split; auto.
    - solve_two.
  Qed.
  (** p is the control qubit, q the target qubit, in either order *)
  Lemma ecr_computes m :
    kcomputes N.eqb (fun a => a <? D) (ecr_gate D (2 ^ q) (2 ^ p) c cv) m
      (fun a => if a <? D then apply_mat [p; q] (ctrls c cv) ecr_mat m a else m a).
  Proof.
    unfold ecr_gate. rewrite (N.lor_comm (2 ^ q) (2 ^ p)).
    apply (two_target_group n B p q c cv Hn HB Hp Hq Hpq Hc Hdp Hdq Hcv
      (fun b0 => Rd b0 (fun v0 => Rd (N.lor b0 (2 ^ p)) (fun v1 => Rd (N.lor b0 (2 ^ q)) (fun v2 =>
                 Rd (N.lor (N.lor b0 (2 ^ p)) (2 ^ q)) (fun v3 =>
        Wr b0 ((v1 + v3 * Ci) * RtoC INVERSE_SQRT2)%C (Wr (N.lor b0 (2 ^ p)) ((v0 + v2 * - Ci) * RtoC INVERSE_SQRT2)%C
        (Wr (N.lor b0 (2 ^ q)) ((v1 * Ci + v3) * RtoC INVERSE_SQRT2)%C
        (Wr (N.lor (N.lor b0 (2 ^ p)) (2 ^ q)) ((v0 * - Ci + v2) * RtoC INVERSE_SQRT2)%C Ret))))))))).
    - intros it. reflexivity.
    - intros b _ X. subst X. simpl. repeat split; auto.
    - solve_two.
  Qed.
End TwoKernels.

(** ** The permutation schedule *)
(** Exchange the values of bits p and q of an index. *)
Definition swap_bits (p q x : N) : N := set_bit (set_bit x p (N.testbit x q)) q (N.testbit x p).
Lemma shl64_1 k : k < 64 -> shl64 1 k = 2 ^ k.
Proof. intros. unfold shl64. rewrite N.shiftl_1_l. apply wrap_small. unfold two64. apply N.pow_lt_mono_r; lia. Qed.
Lemma popcount_two p q : p <> q -> popcount (N.lor (2 ^ p) (2 ^ q)) = 2.
Proof.
  intros H. rewrite <- bits_length. destruct (N.lt_total p q) as [Hl|[->|Hl]].
  - now rewrite bits_two. - congruence. - rewrite N.lor_comm. now rewrite bits_two.
Qed.
Section Permutation.
  Variables (n B : N).
  Hypothesis Hn : n <= 64.
  Hypothesis HB : B * 2 ^ n <= two64.
  Let D := B * 2 ^ n.
  Lemma permutation_step_computes p q m : p < n -> q < n -> p <> q ->
    kcomputes N.eqb (fun a => a <? D) (permutation_step D p q) m
      (fun a => if a <? D then m (swap_bits p q a) else m a).
  Proof.
    intros Hp Hq Hpq. unfold permutation_step. rewrite !shl64_1 by lia.
    eapply par_computes_ext; cycle 1.
    - replace 2 with (popcount (N.lor (N.lor (2 ^ p) (2 ^ q)) 0)) at 1 by (rewrite N.lor_0_r; now apply popcount_two).
      apply (two_target_group n B p q 0 0 Hn HB Hp Hq Hpq (pow2_pos n) (N.bits_0 p) (N.bits_0 q) eq_refl
        (fun b0 => swap_at (N.lor b0 (2 ^ p)) (N.lor b0 (2 ^ q)) Ret)
        (fun it => swap_at (N.lor (insert_zero_at_mask_positions it (N.lor (2 ^ p) (2 ^ q))) (2 ^ p))
                           (N.lor (insert_zero_at_mask_positions it (N.lor (2 ^ p) (2 ^ q))) (2 ^ q)) Ret) swap_mat).
      + intros it. now rewrite !N.lor_0_r.
      + intros b _ X. subst X. unfold swap_at. simpl. repeat split; auto.
      + intros b b1 b2 b3 N1 N2 N3 N4 N5 N6; subst b1 b2 b3; unfold swap_at; simpl; unfold upd; upd_simpl;
        repeat split; try reflexivity; try (cbv [swap_mat]; simpl; ring).
    - intros a. simpl. unfold D. destruct (a <? B * 2 ^ n); [|reflexivity].
      unfold apply_mat. rewrite ctrl_ok_ctrls by reflexivity. rewrite N.land_0_r. simpl (0 =? 0). cbv iota.
      rewrite two_target_sum by assumption. cbv zeta. unfold swap_bits.
      destruct (two_group_cases p q Hpq a) as [(E1 & E2 & Ea)|[(E1 & E2 & Ea)|[(E1 & E2 & Ea)|(E1 & E2 & Ea)]]];
        rewrite E1, E2; match goal with |- _ = m ?y => remember y as yy eqn:Eyy end; simpl N.b2n; cbv [swap_mat]; simpl;
        [match goal with |- ?l = _ => replace l with (m (N.ldiff a (N.lor (2 ^ p) (2 ^ q)))) by ring end
        |match goal with |- ?l = _ => replace l with (m (N.lor (N.ldiff a (N.lor (2 ^ p) (2 ^ q))) (2 ^ q))) by ring end
        |match goal with |- ?l = _ => replace l with (m (N.lor (N.ldiff a (N.lor (2 ^ p) (2 ^ q))) (2 ^ p))) by ring end
        |match goal with |- ?l = _ => replace l with (m (N.lor (N.lor (N.ldiff a (N.lor (2 ^ p) (2 ^ q))) (2 ^ p)) (2 ^ q))) by ring end];
        f_equal; rewrite Eyy; apply N.bits_inj; intro i; rewrite !set_bit_tb; autorewrite with tb;
        destruct (N.eqb_spec i q), (N.eqb_spec i p); subst; rewrite ?E1, ?E2; try congruence; bool_solve.
  Qed.
End Permutation.
