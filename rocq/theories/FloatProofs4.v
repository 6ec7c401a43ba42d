(** Every rounded kernel stays close to the exact one, amplitude by amplitude. *)
From Verif Require Export FloatProofs3.
From Coq Require Import FunctionalExtensionality Lra ZifyBool ZifyN ZifyNat.
Open Scope R_scope.

(** The error at an index is small relative to the amplitudes of a few indices with bits flipped. *)
Definition spread (S : list N) (psi : state) (a : N) : R := Rsuml (fun s => Cmod (psi (N.lxor a s))) S.
Definition close (u eta : R) (S : list N) (D : N) (psi phi exact : state) : Prop :=
  forall a, (a < D)%N -> Cmod (phi a - exact a)%C <= 73 * u * spread S psi a + 33 * eta.

Lemma spread_nonneg S psi a : 0 <= spread S psi a.
Proof. unfold spread, Rsuml. induction S as [|s S IH]; cbn; [lra|]. pose proof (Cmod_nonneg (psi (N.lxor a s))). lra. Qed.
Lemma pair_spread q psi a : spread [0%N; (2 ^ q)%N] psi a =
  Cmod (psi (N.ldiff a (2 ^ q))) + Cmod (psi (N.lor (N.ldiff a (2 ^ q)) (2 ^ q))).
Proof.
  unfold spread, Rsuml. cbn [map fold_right]. rewrite N.lxor_0_r.
  destruct (pow2_group_cases a q) as [[E Ea]|[E Ea]].
  - rewrite <- Ea. replace (N.lxor a (2 ^ q)) with (N.lor a (2 ^ q)); [ring|].
    bitwise i. destruct (N.eqb_spec i q); [subst; rewrite E; reflexivity|]. now rewrite orb_false_r, xorb_false_r.
  - rewrite <- Ea. replace (N.lxor a (2 ^ q)) with (N.ldiff a (2 ^ q)); [ring|].
    bitwise i. destruct (N.eqb_spec i q); [subst; rewrite E; reflexivity|]. cbn. now rewrite andb_true_r, xorb_false_r.
Qed.
Lemma quad_spread p q psi a : p <> q -> let b := N.ldiff a (N.lor (2 ^ p) (2 ^ q)) in
  spread [0%N; (2 ^ p)%N; (2 ^ q)%N; N.lor (2 ^ p) (2 ^ q)] psi a =
  Cmod (psi b) + Cmod (psi (N.lor b (2 ^ p))) + Cmod (psi (N.lor b (2 ^ q))) + Cmod (psi (N.lor (N.lor b (2 ^ p)) (2 ^ q))).
Proof.
  intros Hpq b. unfold spread, Rsuml. cbn [map fold_right].
  set (b1 := N.lor b (2 ^ p)). set (b2 := N.lor b (2 ^ q)). set (b3 := N.lor b1 (2 ^ q)).
  assert (K : forall x y z w, N.lxor a 0 = x -> N.lxor a (2 ^ p) = y -> N.lxor a (2 ^ q) = z -> N.lxor a (N.lor (2 ^ p) (2 ^ q)) = w ->
    Cmod (psi (N.lxor a 0)) + (Cmod (psi (N.lxor a (2 ^ p))) + (Cmod (psi (N.lxor a (2 ^ q))) + (Cmod (psi (N.lxor a (N.lor (2 ^ p) (2 ^ q)))) + 0))) =
    Cmod (psi x) + Cmod (psi y) + Cmod (psi z) + Cmod (psi w)) by (intros; subst; ring).
  destruct (two_group_cases p q Hpq a) as [(E1 & E2 & _)|[(E1 & E2 & _)|[(E1 & E2 & _)|(E1 & E2 & _)]]].
  1: rewrite (K b b1 b2 b3); [reflexivity|..].
  5: rewrite (K b1 b b3 b2); [ring|..].
  9: rewrite (K b2 b3 b b1); [ring|..].
  13: rewrite (K b3 b2 b1 b); [ring|..].
  all: unfold b3, b2, b1, b; bitwise i; destruct (N.eqb_spec i p), (N.eqb_spec i q); subst; try congruence; rewrite ?E1, ?E2; cbn;
    rewrite ?orb_false_r, ?andb_true_r, ?xorb_false_r; try reflexivity; now rewrite ?andb_false_r.
Qed.

Section Close.
  Variables (u eta : R) (A : arith) (n B L c cv : N).
  Hypothesis HA : accurate u eta A.
  Hypothesis Hn : (n <= 64)%N.
  Hypothesis HB : (B * 2 ^ n <= two64)%N.
  Hypothesis HL : L = 0%N \/ exists l, (l < 64)%N /\ L = (2 ^ l)%N.
  Hypothesis Hc : (c < 2 ^ n)%N.
  Hypothesis Hcv : N.land cv c = cv.
  Let D := (B * 2 ^ n)%N.
  Let Hu := u_range u eta A HA.
  Let He := eta_range u eta A HA.
  Notation near := (near_entry u).

  Lemma out_close S G psi ts M : 
    (forall a, (a < D)%N -> Cmod (G a - Csum (2 ^ N.of_nat (length ts)) (fun j => (M (gather ts a) j * psi (scatter ts j a))%C))%C <= 73 * u * spread S psi a + 33 * eta) ->
    close u eta S D psi (out n B c cv G psi) (apply_mat ts (ctrls c cv) M psi).
  Proof.
    intros H a Ha. unfold out, apply_mat. rewrite ctrl_ok_ctrls by assumption. fold D.
    replace (a <? D)%N with true by (symmetry; now apply N.ltb_lt). cbn.
    destruct (N.land a c =? cv)%N; [now apply H|].
    replace (psi a - psi a)%C with C0 by ring. rewrite Cmod_0. pose proof (spread_nonneg S psi a). nra.
  Qed.
  Lemma pair_close q F0 F1 M psi :
    (forall v0 v1, Cmod (F0 v0 v1 - (M 0%N 0%N * v0 + M 0%N 1%N * v1))%C <= 73 * u * (Cmod v0 + Cmod v1) + 33 * eta) ->
    (forall v0 v1, Cmod (F1 v0 v1 - (M 1%N 0%N * v0 + M 1%N 1%N * v1))%C <= 73 * u * (Cmod v0 + Cmod v1) + 33 * eta) ->
    close u eta [0%N; (2 ^ q)%N] D psi (out n B c cv (pair_of q F0 F1 psi) psi) (apply_mat [q] (ctrls c cv) M psi).
  Proof.
    intros H0 H1. apply out_close. intros a _. pose proof (one_target_sum psi M q a) as OS. rewrite bits_pow2 in OS. rewrite OS.
    unfold pair_of. rewrite pair_spread. destruct (N.testbit a q); [apply H1|apply H0].
  Qed.
  Lemma quad_close p q F M psi : p <> q ->
    (forall r v0 v1 v2 v3, (r < 4)%N -> Cmod (F r v0 v1 v2 v3 - (M r 0%N * v0 + M r 1%N * v1 + M r 2%N * v2 + M r 3%N * v3))%C
       <= 73 * u * (Cmod v0 + Cmod v1 + Cmod v2 + Cmod v3) + 33 * eta) ->
    close u eta [0%N; (2 ^ p)%N; (2 ^ q)%N; N.lor (2 ^ p) (2 ^ q)] D psi (out n B c cv (quad_of p q F psi) psi) (apply_mat [p; q] (ctrls c cv) M psi).
  Proof.
    intros Hpq H. apply out_close. intros a _. rewrite two_target_sum by assumption. unfold quad_of.
    rewrite quad_spread by assumption. apply H. destruct (N.testbit a p), (N.testbit a q); cbn; lia.
  Qed.
  Lemma single_close F m psi : (forall v, Cmod (F v - m * v)%C <= 73 * u * Cmod v + 33 * eta) ->
    close u eta [0%N] D psi (out n B c cv (fun a => F (psi a)) psi) (apply_mat [] (ctrls c cv) (fun _ _ => m) psi).
  Proof.
    intros H. apply out_close. intros a _. cbn [length gather scatter]. change (2 ^ N.of_nat 0)%N with 1%N. rewrite Csum_1.
    unfold spread, Rsuml. cbn [map fold_right]. rewrite N.lxor_0_r, Rplus_0_r. apply H.
  Qed.

  (** ** Rows *)
  Lemma row2_err f f' x0 x1 x0' x1' v0 v1 : multiplies u eta f -> multiplies u eta f' -> near x0' x0 -> near x1' x1 ->
    Cmod (f_add A (f x0' v0) (f' x1' v1) - (x0 * v0 + x1 * v1))%C <= 69 * u * (Cmod v0 + Cmod v1) + 15 * eta /\
    Cmod (x0 * v0 + x1 * v1)%C <= Cmod v0 + Cmod v1.
  Proof.
    intros Hf Hf' [M0 E0] [M1 E1].
    pose proof (prod_err u eta A HA f x0 x0' v0 Hf M0 E0) as P0. pose proof (prod_err u eta A HA f' x1 x1' v1 Hf' M1 E1) as P1.
    assert (M0' : Cmod (x0 * v0)%C <= Cmod v0) by (rewrite Cmod_mul; pose proof (Cmod_nonneg v0); pose proof (Cmod_nonneg x0); nra).
    destruct (sum_step u eta A HA _ (f' x1' v1) x1 v1 67 6 (Cmod v0) (x0 * v0)%C P0 M0') as [K1 K2]; [lra|lra|exact P1|exact M1|lra|].
    split; [|exact K2]. replace (67 + 2) with 69 in K1 by ring. replace (6 + 9) with 15 in K1 by ring. exact K1.
  Qed.
  Lemma row4_err (f : N -> C -> C -> C) x0 x1 x2 x3 x0' x1' x2' x3' v0 v1 v2 v3 : (forall i, multiplies u eta (f i)) ->
    near x0' x0 -> near x1' x1 -> near x2' x2 -> near x3' x3 -> forall a b c d,
    Cmod (f_add A (f_add A (f_add A (f a x0' v0) (f b x1' v1)) (f c x2' v2)) (f d x3' v3) - (x0 * v0 + x1 * v1 + x2 * v2 + x3 * v3))%C
      <= 73 * u * (Cmod v0 + Cmod v1 + Cmod v2 + Cmod v3) + 33 * eta.
  Proof.
    intros Hf N0 N1 [M2 E2] [M3 E3] i0 i1 i2 i3.
    destruct (row2_err (f i0) (f i1) x0 x1 x0' x1' v0 v1 (Hf _) (Hf _) N0 N1) as [K1 K2].
    pose proof (prod_err u eta A HA (f i2) x2 x2' v2 (Hf _) M2 E2) as P2. pose proof (prod_err u eta A HA (f i3) x3 x3' v3 (Hf _) M3 E3) as P3.
    destruct (sum_step u eta A HA _ (f i2 x2' v2) x2 v2 69 15 _ _ K1 K2) as [K3 K4]; [lra|lra|exact P2|exact M2|lra|].
    replace (69 + 2) with 71 in K3 by ring. replace (15 + 9) with 24 in K3 by ring.
    destruct (sum_step u eta A HA _ (f i3 x3' v3) x3 v3 71 24 _ _ K3 K4) as [K5 K6]; [lra|lra|exact P3|exact M3|lra|]. lra.
  Qed.

  (** ** Kernels *)
  Ltac run_foot := intros b; unfold f_mul_at, swap_at; simpl; repeat split; auto.
  Ltac run_pair := intros b Hne; unfold f_mul_at, swap_at; simpl; unfold upd; upd_simpl; split; reflexivity.

  Lemma weak x y v k h : Cmod (x - y)%C <= k * u * Cmod v + h * eta -> 0 <= k <= 73 -> 0 <= h <= 33 -> forall w, Cmod v <= w ->
    Cmod (x - y)%C <= 73 * u * w + 33 * eta.
  Proof.
    intros H Hk Hh w Hw. pose proof (Cmod_nonneg v).
    assert (k * u * Cmod v <= 73 * u * w) by (apply Rmult_le_compat; nra). nra.
  Qed.
  Lemma left_err i v x x' w : near x' x -> Cmod v <= w -> Cmod (f_mul A i v x' - x * v)%C <= 73 * u * w + 33 * eta.
  Proof.
    intros [H1 H2] Hw. eapply weak; [apply (prod_err' u eta A HA (f_mul A i) x x' v); [apply mul_multiplies; exact HA|assumption|assumption]|lra|lra|exact Hw].
  Qed.

  Definition closely (S : list N) (k : kernel N) (psi exact : state) : Prop :=
    exists phi, kcomputes N.eqb (fun a => (a <? D)%N) k psi phi /\ close u eta S D psi phi exact.

  Lemma f_phase_close q ph ph' psi : (q < n)%N -> N.testbit c q = false -> near ph' ph ->
    closely [0%N; (2 ^ q)%N] (f_phase_gate A D (2 ^ q) c cv ph') psi (apply_mat [q] (ctrls c cv) (mat2 C1 C0 C0 ph) psi).
  Proof.
    intros Hq Hd H. eexists. split.
    - apply (pair_group n B c cv Hn HB Hc Hcv q (fun i => f_mul_at A 0 (N.lor i (2 ^ q)) ph' Ret) _ (fun v0 _ => v0) (fun _ v1 => f_mul A 0 v1 ph')); try assumption.
      + intros it. cbv zeta. rewrite (N.lor_comm c). reflexivity.
      + run_foot.
      + run_pair.
    - apply pair_close; intros v0 v1; cbn [mat2]; pose proof (Cmod_nonneg v0); pose proof (Cmod_nonneg v1).
      + replace (v0 - (C1 * v0 + C0 * v1))%C with C0 by ring. rewrite Cmod_0. nra.
      + replace (C0 * v0 + ph * v1)%C with (ph * v1)%C by ring. apply left_err; [exact H|lra].
  Qed.
  Lemma f_y_close q psi : (q < n)%N -> N.testbit c q = false ->
    closely [0%N; (2 ^ q)%N] (f_y_gate A D (2 ^ q) c cv) psi (apply_mat [q] (ctrls c cv) (mat2 C0 (- Ci)%C Ci C0) psi).
  Proof.
    intros Hq Hd. eexists. split.
    - apply (pair_group n B c cv Hn HB Hc Hcv q (fun i => f_mul_at A 0 i Ci (f_mul_at A 1 (N.lor i (2 ^ q)) (- Ci)%C (swap_at i (N.lor i (2 ^ q)) Ret)))
        _ (fun _ v1 => f_mul A 1 v1 (- Ci)%C) (fun v0 _ => f_mul A 0 v0 Ci)); try assumption.
      + intros it. cbv zeta. rewrite (N.lor_comm c). reflexivity.
      + run_foot.
      + run_pair.
    - apply pair_close; intros v0 v1; cbn [mat2]; pose proof (Cmod_nonneg v0); pose proof (Cmod_nonneg v1).
      + replace (C0 * v0 + - Ci * v1)%C with (- Ci * v1)%C by ring. apply left_err; [apply (neg_near u), (same_near u eta A HA); rewrite Cmod_i; lra|lra].
      + replace (Ci * v0 + C0 * v1)%C with (Ci * v0)%C by ring. apply left_err; [apply (same_near u eta A HA); rewrite Cmod_i; lra|lra].
  Qed.
  Lemma f_diagonal_close q d0 d1 d0' d1' psi : (q < n)%N -> N.testbit c q = false -> near d0' d0 -> near d1' d1 ->
    closely [0%N; (2 ^ q)%N] (f_diagonal_gate A D (2 ^ q) c cv d0' d1') psi (apply_mat [q] (ctrls c cv) (mat2 d0 C0 C0 d1) psi).
  Proof.
    intros Hq Hd H0 H1. eexists. split.
    - apply (pair_group n B c cv Hn HB Hc Hcv q (fun i => f_mul_at A 0 i d0' (f_mul_at A 1 (N.lor i (2 ^ q)) d1' Ret))
        _ (fun v0 _ => f_mul A 0 v0 d0') (fun _ v1 => f_mul A 1 v1 d1')); try assumption.
      + reflexivity.
      + run_foot.
      + run_pair.
    - apply pair_close; intros v0 v1; cbn [mat2]; pose proof (Cmod_nonneg v0); pose proof (Cmod_nonneg v1).
      + replace (d0 * v0 + C0 * v1)%C with (d0 * v0)%C by ring. apply left_err; [assumption|lra].
      + replace (C0 * v0 + d1 * v1)%C with (d1 * v1)%C by ring. apply left_err; [assumption|lra].
  Qed.
  Lemma widen2 z v0 v1 : Cmod z <= 69 * u * (Cmod v0 + Cmod v1) + 15 * eta -> Cmod z <= 73 * u * (Cmod v0 + Cmod v1) + 33 * eta.
  Proof. intros H. pose proof (Cmod_nonneg v0). pose proof (Cmod_nonneg v1). nra. Qed.
  Lemma f_one_close q M M' psi : (q < n)%N -> N.testbit c q = false -> (forall i j, (i < 2)%N -> (j < 2)%N -> near (M' i j) (M i j)) ->
    closely [0%N; (2 ^ q)%N] (f_one_gate A n D L (2 ^ q) c cv M') psi (apply_mat [q] (ctrls c cv) M psi).
  Proof.
    intros Hq Hd H. unfold f_one_gate. destruct (use_simd n L (N.lor (2 ^ q) c)) eqn:E.
    - destruct (use_simd_true n B c cv L Hn HB Hc Hcv HL (N.lor (2 ^ q) c)) as (l & El & H1 & H2); [|exact E|].
      { apply lor_u64_pow2; [apply N.pow_lt_mono_r; lia|assumption]. }
      rewrite El in *. eexists. split.
      + unfold f_one_simd. cbv zeta.
        match goal with |- kcomputes _ _ (Kernel _ ?b) _ _ => 
          assert (Eb : b = (fun g => let basis0 := N.lor (insert_zero_at_mask_positions (g * 2 ^ l) (N.lor (2 ^ q) c)) cv in
            let basis1 := N.lor basis0 (2 ^ q) in
            lanes_in_row n D (2 ^ l) basis0 (lanes_in_row n D (2 ^ l) basis1 (
            load_lanes (N.to_nat (2 ^ l)) basis0 (fun v0 =>
            load_lanes (N.to_nat (2 ^ l)) basis1 (fun v1 =>
              store_lanes basis0 (map2C (fun x y => f_add A (f_simd_mul A 0 (M' 0%N 0%N) x) (f_simd_mul A 1 (M' 0%N 1%N) y)) v0 v1)
               (store_lanes basis1 (map2C (fun x y => f_add A (f_simd_mul A 2 (M' 1%N 0%N) x) (f_simd_mul A 3 (M' 1%N 1%N) y)) v0 v1) Ret)))))))
        end.
        { extensionality g. cbv zeta. f_equal. f_equal. f_equal. extensionality v0. f_equal. extensionality v1. now rewrite !map2C_map. }
        rewrite Eb. now apply pair_simd.
      + apply pair_close; intros v0 v1; apply widen2;
          (apply row2_err; [apply simd_multiplies; exact HA|apply simd_multiplies; exact HA|apply H; lia|apply H; lia]).
    - eexists. split.
      + apply (pair_group n B c cv Hn HB Hc Hcv q (fun b0 => Rd b0 (fun val0 => Rd (N.lor b0 (2 ^ q)) (fun val1 =>
          Wr b0 (f_add A (f_mul A 0 (M' 0%N 0%N) val0) (f_mul A 1 (M' 0%N 1%N) val1))
          (Wr (N.lor b0 (2 ^ q)) (f_add A (f_mul A 2 (M' 1%N 0%N) val0) (f_mul A 3 (M' 1%N 1%N) val1)) Ret))))
          _ (fun v0 v1 => f_add A (f_mul A 0 (M' 0%N 0%N) v0) (f_mul A 1 (M' 0%N 1%N) v1))
          (fun v0 v1 => f_add A (f_mul A 2 (M' 1%N 0%N) v0) (f_mul A 3 (M' 1%N 1%N) v1))); try assumption.
        * intros it. cbv zeta. rewrite (N.lor_comm c). reflexivity.
        * run_foot.
        * run_pair.
      + apply pair_close; intros v0 v1; apply widen2;
          (apply row2_err; [apply mul_multiplies; exact HA|apply mul_multiplies; exact HA|apply H; lia|apply H; lia]).
  Qed.
  Lemma f_zero_close m m' psi : near m' m ->
    closely [0%N] (f_zero_gate A n D L c cv m') psi (apply_mat [] (ctrls c cv) (fun _ _ => m) psi).
  Proof.
    intros H. unfold f_zero_gate. destruct (use_simd n L c) eqn:E.
    - destruct (use_simd_true n B c cv L Hn HB Hc Hcv HL c) as (l & El & H1 & H2); [assumption|exact E|].
      rewrite El in *. eexists. split; [now apply single_simd|]. apply single_close. intros v. destruct H as [M0 E0].
      eapply weak; [apply (prod_err u eta A HA _ m m' v (simd_multiplies u eta A HA 0) M0 E0)|lra|lra|lra].
    - eexists. split; [apply (single_group n B c cv Hn HB Hc Hcv _ (fun v => f_mul A 0 v m')); reflexivity|].
      apply (single_close (fun v => f_mul A 0 v m')). intros v. apply left_err; [exact H|lra].
  Qed.
  Lemma f_two_close p q M M' psi : (p < q)%N -> (q < n)%N -> N.testbit c p = false -> N.testbit c q = false ->
    (n < 64)%N -> (forall i j, (i < 4)%N -> (j < 4)%N -> near (M' i j) (M i j)) ->
    closely [0%N; (2 ^ p)%N; (2 ^ q)%N; N.lor (2 ^ p) (2 ^ q)] (f_two_gate A D (N.lor (2 ^ p) (2 ^ q)) c cv M') psi (apply_mat [p; q] (ctrls c cv) M psi).
  Proof.
    intros Hpq Hq Hdp Hdq Hn' H. unfold f_two_gate. rewrite lower_two by lia. rewrite upper_two by lia. 
    set (F := fun r v0 v1 v2 v3 => f_add A (f_add A (f_add A (f_mul A (4 * r) (M' r 0%N) v0) (f_mul A (4 * r + 1) (M' r 1%N) v1)) (f_mul A (4 * r + 2) (M' r 2%N) v2)) (f_mul A (4 * r + 3) (M' r 3%N) v3)).
    eexists. split.
    - apply (quad_group n B p q c cv Hn HB ltac:(lia) Hq ltac:(lia) Hc Hdp Hdq Hcv
      (fun b0 => Rd b0 (fun v0 => Rd (N.lor b0 (2 ^ p)) (fun v1 => Rd (N.lor b0 (2 ^ q)) (fun v2 =>
                 Rd (N.lor (N.lor b0 (2 ^ p)) (2 ^ q)) (fun v3 =>
        Wr b0 (F 0%N v0 v1 v2 v3) (Wr (N.lor b0 (2 ^ p)) (F 1%N v0 v1 v2 v3) (Wr (N.lor b0 (2 ^ q)) (F 2%N v0 v1 v2 v3)
        (Wr (N.lor (N.lor b0 (2 ^ p)) (2 ^ q)) (F 3%N v0 v1 v2 v3) Ret)))))))) _ F).
      + intros it. cbv zeta. rewrite third_two. reflexivity.
      + intros b _ X. subst X. simpl. repeat split; auto.
      + intros b b1 b2 b3 N1 N2 N3 N4 N5 N6 row; subst b1 b2 b3 row; simpl run1; unfold upd; upd_simpl; repeat split; reflexivity.
    - apply quad_close; [lia|]. intros r v0 v1 v2 v3 Hr. unfold F.
      apply (row4_err (f_mul A)); [intros i; apply mul_multiplies; exact HA|..]; apply H; lia.
  Qed.
  Lemma f_ecr_close p q psi : (p < n)%N -> (q < n)%N -> p <> q -> N.testbit c p = false -> N.testbit c q = false ->
    closely [0%N; (2 ^ p)%N; (2 ^ q)%N; N.lor (2 ^ p) (2 ^ q)] (f_ecr_gate A D (2 ^ q) (2 ^ p) c cv) psi (apply_mat [p; q] (ctrls c cv) ecr_mat psi).
  Proof.
    intros Hp Hq Hpq Hdp Hdq. unfold f_ecr_gate. rewrite (N.lor_comm (2 ^ q) (2 ^ p)).
    set (s := RtoC (a_isq2 A)).
    set (F := fun r v0 v1 v2 v3 => match r with
      | 0%N => f_mul A 1 (f_add A v1 (f_mul A 0 v3 Ci)) s
      | 1%N => f_mul A 3 (f_add A v0 (f_mul A 2 v2 (- Ci)%C)) s
      | 2%N => f_mul A 5 (f_add A (f_mul A 4 v1 Ci) v3) s
      | _ => f_mul A 7 (f_add A (f_mul A 6 v0 (- Ci)%C) v2) s end).
    eexists. split.
    - apply (quad_group n B p q c cv Hn HB Hp Hq Hpq Hc Hdp Hdq Hcv
      (fun b0 => Rd b0 (fun v0 => Rd (N.lor b0 (2 ^ p)) (fun v1 => Rd (N.lor b0 (2 ^ q)) (fun v2 =>
                 Rd (N.lor (N.lor b0 (2 ^ p)) (2 ^ q)) (fun v3 =>
        Wr b0 (F 0%N v0 v1 v2 v3) (Wr (N.lor b0 (2 ^ p)) (F 1%N v0 v1 v2 v3) (Wr (N.lor b0 (2 ^ q)) (F 2%N v0 v1 v2 v3)
        (Wr (N.lor (N.lor b0 (2 ^ p)) (2 ^ q)) (F 3%N v0 v1 v2 v3) Ret)))))))) _ F).
      + intros it. reflexivity.
      + intros b _ X. subst X. simpl. repeat split; auto.
      + intros b b1 b2 b3 N1 N2 N3 N4 N5 N6 row; subst b1 b2 b3 row; simpl run1; unfold upd; upd_simpl; repeat split; reflexivity.
    - apply quad_close; [exact Hpq|]. intros r v0 v1 v2 v3 Hr.
      assert (HI : forall i v j, Cmod j = 1 -> Cmod (f_mul A i v j - v * j)%C <= 5 * u * Cmod v + 6 * eta).
      { intros i v j Hj. pose proof (f_mul_err u eta A HA i v j) as E. rewrite Hj, Rmult_1_r in E. exact E. }
      assert (K : forall i x y z w, Cmod (x + y - z)%C <= 5 * u * w + 6 * eta -> Cmod z <= w -> 
        Cmod (f_mul A i (f_add A x y) s - RtoC INVERSE_SQRT2 * z)%C <= 20 * u * w + 20 * eta).
      { intros i x y z w E Hw. pose proof (Cmod_nonneg z).
        pose proof (f_add_err u eta A HA x y z _ E) as E2.
        assert (E3 : Cmod (f_add A x y - z)%C <= 7 * u * w + 9 * eta).
        { eapply Rle_trans; [exact E2|].
          assert (u * Cmod z <= u * w) by (apply Rmult_le_compat_l; lra). assert (0 <= u * w) by nra.
          assert (u * (5 * u * w + 6 * eta) <= / 256 * (5 * u * w + 6 * eta)) by (apply Rmult_le_compat_r; nra). lra. }
        pose proof (Cmod_near _ _ _ E3) as E4. pose proof (f_mul_err u eta A HA i (f_add A x y) s) as E5.
        assert (Hs : Cmod (s - RtoC INVERSE_SQRT2)%C <= 2 * u) by (apply real_near; apply (isq2_near u eta A HA)).
        assert (Hs1 : Cmod (RtoC INVERSE_SQRT2) <= 1) by (rewrite Cmod_real; apply isq2_abs).
        pose proof (Cmod_near _ _ _ Hs) as Hs2.
        pose proof (Cmod_tri3 (f_mul A i (f_add A x y) s) (f_add A x y * s)%C (RtoC INVERSE_SQRT2 * z)%C) as T.
        assert (E6 : Cmod (f_add A x y * s - RtoC INVERSE_SQRT2 * z)%C <= 2 * u * (w + (7 * u * w + 9 * eta)) + (7 * u * w + 9 * eta)).
        { replace (f_add A x y * s - RtoC INVERSE_SQRT2 * z)%C with ((s - RtoC INVERSE_SQRT2) * f_add A x y + RtoC INVERSE_SQRT2 * (f_add A x y - z))%C by ring.
          eapply Rle_trans; [apply Cmod_tri|]. rewrite !Cmod_mul. apply Rplus_le_compat.
          - apply Rmult_le_compat; try apply Cmod_nonneg; lra.
          - rewrite <- (Rmult_1_l (7 * u * w + 9 * eta)). apply Rmult_le_compat; try apply Cmod_nonneg; lra. }
        assert (E7 : Cmod (f_add A x y) * Cmod s <= (w + (7 * u * w + 9 * eta)) * (1 + 2 * u)) by (apply Rmult_le_compat; try apply Cmod_nonneg; lra).
        assert (E8 : 5 * u * (Cmod (f_add A x y) * Cmod s) <= 5 * u * ((w + (7 * u * w + 9 * eta)) * (1 + 2 * u))) by (apply Rmult_le_compat_l; lra).
        assert (0 <= u * w) by nra. assert (U1 : u * (u * w) <= / 256 * (u * w)) by (apply Rmult_le_compat_r; lra).
        assert (U2 : u * (u * (u * w)) <= / 256 * (/ 256 * (u * w))) by (apply Rmult_le_compat; nra).
        assert (U3 : u * eta <= / 256 * eta) by (apply Rmult_le_compat_r; lra).
        assert (U4 : u * (u * eta) <= / 256 * (/ 256 * eta)) by (apply Rmult_le_compat; nra). nra. }
      pose proof (Cmod_nonneg v0). pose proof (Cmod_nonneg v1). pose proof (Cmod_nonneg v2). pose proof (Cmod_nonneg v3).
      assert (Hmi : Cmod (- Ci)%C = 1) by (rewrite Cmod_opp; apply Cmod_i).
      assert (Fin : forall z x y, 0 <= x -> 0 <= y -> Cmod z <= 20 * u * (x + y) + 20 * eta -> 
        forall S, x + y <= S -> Cmod z <= 73 * u * S + 33 * eta).
      { intros z x y Hx Hy E S HS. assert (20 * u * (x + y) <= 73 * u * S) by (apply Rmult_le_compat; nra). lra. }
      set (i2 := RtoC INVERSE_SQRT2) in *.
      assert (J : forall i x v j, Cmod j = 1 -> Cmod (x + f_mul A i v j - (x + v * j))%C <= 5 * u * (Cmod x + Cmod v) + 6 * eta).
      { intros i x v j Hj. replace (x + f_mul A i v j - (x + v * j))%C with (f_mul A i v j - v * j)%C by ring.
        pose proof (HI i v j Hj). pose proof (Cmod_nonneg x). nra. }
      assert (J' : forall i x v j, Cmod j = 1 -> Cmod (f_mul A i v j + x - (x + v * j))%C <= 5 * u * (Cmod x + Cmod v) + 6 * eta).
      { intros i x v j Hj. replace (f_mul A i v j + x - (x + v * j))%C with (f_mul A i v j - v * j)%C by ring.
        pose proof (HI i v j Hj). pose proof (Cmod_nonneg x). nra. }
      assert (W : forall x v j, Cmod j = 1 -> Cmod (x + v * j)%C <= Cmod x + Cmod v).
      { intros x v j Hj. pose proof (Cmod_tri x (v * j)%C) as T. rewrite Cmod_mul, Hj in T. lra. }
      assert (r = 0 \/ r = 1 \/ r = 2 \/ r = 3)%N as [-> |[-> |[-> | ->]]] by lia; cbv [F].
      + replace (ecr_mat 0%N 0%N * v0 + ecr_mat 0%N 1%N * v1 + ecr_mat 0%N 2%N * v2 + ecr_mat 0%N 3%N * v3)%C with (i2 * (v1 + v3 * Ci))%C by (cbv [ecr_mat]; simpl; fold i2; ring).
        eapply Fin; [| |eapply (K 1%N _ _ _ _ (J 0%N v1 v3 Ci Cmod_i)); apply W, Cmod_i|]; lra.
      + replace (ecr_mat 1%N 0%N * v0 + ecr_mat 1%N 1%N * v1 + ecr_mat 1%N 2%N * v2 + ecr_mat 1%N 3%N * v3)%C with (i2 * (v0 + v2 * - Ci))%C by (cbv [ecr_mat]; simpl; fold i2; ring).
        eapply Fin; [| |eapply (K 3%N _ _ _ _ (J 2%N v0 v2 (- Ci)%C Hmi)); apply W, Hmi|]; lra.
      + replace (ecr_mat 2%N 0%N * v0 + ecr_mat 2%N 1%N * v1 + ecr_mat 2%N 2%N * v2 + ecr_mat 2%N 3%N * v3)%C with (i2 * (v3 + v1 * Ci))%C by (cbv [ecr_mat]; simpl; fold i2; ring).
        eapply Fin; [| |eapply (K 5%N _ _ _ _ (J' 4%N v3 v1 Ci Cmod_i)); apply W, Cmod_i|]; lra.
      + replace (ecr_mat 3%N 0%N * v0 + ecr_mat 3%N 1%N * v1 + ecr_mat 3%N 2%N * v2 + ecr_mat 3%N 3%N * v3)%C with (i2 * (v2 + v0 * - Ci))%C by (cbv [ecr_mat]; simpl; fold i2; ring).
        eapply Fin; [| |eapply (K 7%N _ _ _ _ (J' 6%N v2 v0 (- Ci)%C Hmi)); apply W, Hmi|]; lra.
  Qed.
End Close.
