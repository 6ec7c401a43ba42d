(** The kernels of Density.v, one by one. *)
From Verif Require Export DensityProofs2.
From Coq Require Import ZifyBool ZifyN ZifyNat Permutation FunctionalExtensionality.

Lemma conjugated_ext_mat n ts cs M M' m a : mat_eq (2 ^ N.of_nat (length ts)) M M' -> wf_ops n ts cs ->
  conjugated ts cs M m a = conjugated ts cs M' m a.
Proof.
  intros HM Hw. unfold conjugated. rewrite (apply_mat_ext_mat ts cs M M') by exact HM.
  apply apply_mat_ext. intros x. apply apply_mat_ext_mat. intros i j Hi Hj. unfold conjm. now rewrite HM.
Qed.
Lemma one_control c cv n : popcount c = 1 -> c < 2 ^ n -> n <= 64 -> N.land cv c = cv ->
  exists p v, p < n /\ c = 2 ^ p /\ cv = one_ctrl p v /\ ctrls c cv = [(p, v)].
Proof.
  intros Hp Hc Hn Hcv. pose proof (bits_length c) as Hl. rewrite Hp in Hl.
  destruct (bits c) as [|p [|p' r]] eqn:Eb; cbn in Hl; [lia| |lia].
  assert (Ec : c = 2 ^ p).
  { apply N.bits_inj. intros i. rewrite pow2_tb. apply Bool.eq_iff_eq_true. rewrite <- in_bits, Eb, N.eqb_eq. cbn. intuition. }
  exists p, (N.testbit cv p). split; [|split; [exact Ec|split]].
  - apply (proj1 (Forall_forall _ _) (bits_lt c n Hc)). rewrite Eb. now left.
  - rewrite <- Hcv, Ec. unfold one_ctrl. rewrite N.land_spec, pow2_tb, N.eqb_refl, andb_true_r.
    destruct (N.testbit cv p) eqn:E; bitwise i; destruct (N.eqb_spec i p); subst; rewrite ?E; bool_solve.
  - unfold ctrls. rewrite Eb. reflexivity.
Qed.

Ltac foot2 := intros br bc S; unfold mul_at, swap_at; cbn [foot];
  repeat match goal with
  | |- _ /\ _ => split
  | |- forall _, _ => intro
  | |- True => exact I
  | |- S _ => unfold S; first [exists false, false; reflexivity | exists false, true; reflexivity
                              | exists true, false; reflexivity | exists true, true; reflexivity]
  end.
Ltac foot4 := intros r c S; unfold mul_at, swap_at; cbn [foot];
  repeat match goal with
  | |- _ /\ _ => split
  | |- forall _, _ => intro
  | |- True => exact I
  | |- S (_ ?x ?k, _ ?y ?l) => exists x, k, y, l; reflexivity
  end.
(** Evaluate a block program at each of its cells. *)
Ltac closed_idx := repeat match goal with
  | |- context [N.shiftr ?a 1] => let v := eval vm_compute in (N.shiftr a 1) in change (N.shiftr a 1) with v
  | |- context [N.land ?a 1] => let v := eval vm_compute in (N.land a 1) in change (N.land a 1) with v
  end.
Ltac run_block HR HC :=
  unfold mul_at, swap_at; cbn [run1]; unfold upd; rewrite ?pair_eqb_pair, ?HR, ?HC; cbn [Bool.eqb andb];
  unfold mix, conjm, mat2; cbn [N.b2n N.eqb andb Pos.eqb].

(** Chains of in-place multiplications and of swaps. *)
Definition muls (l : list (N * N * C)) : dprog := fold_right (fun e p => mul_at (fst e) (snd e) p) Ret l.
Definition swaps (l : list ((N * N) * (N * N))) : dprog := fold_right (fun e p => swap_at (fst e) (snd e) p) Ret l.
Definition sw (x y b : N * N) : N * N := if pair_eqb b y then x else if pair_eqb b x then y else b.
Lemma run_muls l m a : run1 pair_eqb (muls l) m a = (fold_right (fun e r => (if pair_eqb a (fst e) then snd e else C1) * r) (m a) l)%C.
Proof.
  revert m. induction l as [|[x c] l IH]; intros m; [reflexivity|]. cbn [muls fold_right fst snd]. fold (muls l).
  unfold mul_at. cbn [run1]. rewrite IH. clear IH.
  assert (G : forall z w, fold_right (fun (e : N * N * C) r => (if pair_eqb a (fst e) then snd e else C1) * r)%C (z * w)%C l
    = (z * fold_right (fun (e : N * N * C) r => (if pair_eqb a (fst e) then snd e else C1) * r) w l)%C).
  { intros z w. induction l as [|e l IH]; [reflexivity|]. cbn [fold_right]. rewrite IH. ring. }
  rewrite <- G. f_equal. unfold upd. destruct (pair_eqb_spec a x) as [->|Hne]; ring.
Qed.
Lemma run_swaps l m a : run1 pair_eqb (swaps l) m a = m (fold_right (fun e b => sw (fst e) (snd e) b) a l).
Proof.
  revert m. induction l as [|[x y] l IH]; intros m; [reflexivity|]. cbn [swaps fold_right fst snd]. fold (swaps l).
  unfold swap_at. cbn [run1]. rewrite IH. unfold upd, sw. destruct (pair_eqb _ y); [reflexivity|]. now destruct (pair_eqb _ x).
Qed.

Ltac mul_block HR HC :=
  cbn [fold_right fst snd]; rewrite ?pair_eqb_pair, ?HR, ?HC; cbn [Bool.eqb andb];
  unfold mix, conjm, mat2; cbn [N.b2n N.eqb andb Pos.eqb].
Ltac swap_block HR HC :=
  cbn [fold_right fst snd];
  repeat match goal with |- context [sw (?a, ?b) (?d, ?e) (?f, ?g)] =>
    let x := constr:(sw (a, b) (d, e) (f, g)) in let y := eval unfold sw in x in change x with y; rewrite ?pair_eqb_pair, ?HR, ?HC; cbn [Bool.eqb andb] end;
  unfold mix, conjm, mat2; cbn [N.b2n N.eqb andb Pos.eqb].

Section OneTarget.
  Variables (n q : N).
  Hypothesis Hn : n < 32.
  Hypothesis Hq : q < n.
  Notation t := (2 ^ q).
  Notation goal ks m cs M := (kcomputes_list pair_eqb (d_valid n) ks m (inside n (conjugated [q] cs M m) m)).

  (** *** No control *)
  Lemma dense_block M m : goal [dm_dense_block n t 0 M] m [] M.
  Proof.
    unfold dm_dense_block. rewrite !N.lor_0_r.
    apply (block2_computes n q (fun br bc =>
      let e i := let y := i / 4 in let x := i mod 4 in (M (N.shiftr y 1) (N.shiftr x 1) * Cconj (M (N.land y 1) (N.land x 1)))%C in
      let r := sel t br in let c := sel t bc in
      Rd (r false, c false) (fun v00 => Rd (r false, c true) (fun v01 => Rd (r true, c false) (fun v10 => Rd (r true, c true) (fun v11 =>
      Wr (r false, c false) (e 0 * v00 + e 1 * v01 + e 2 * v10 + e 3 * v11)%C
     (Wr (r false, c true) (e 4 * v00 + e 5 * v01 + e 6 * v10 + e 7 * v11)%C
     (Wr (r true, c false) (e 8 * v00 + e 9 * v01 + e 10 * v10 + e 11 * v11)%C
     (Wr (r true, c true) (e 12 * v00 + e 13 * v01 + e 14 * v10 + e 15 * v11)%C Ret))))))))); try assumption.
    - intros g. cbv zeta. rewrite !N.lor_0_r. reflexivity.
    - foot2.
    - intros br bc HR HC k l. destruct k, l; cbv zeta; run_block HR HC; closed_idx; ring.
  Qed.
  Lemma diag_block d0 d1 m : goal [dm_diag_block n t 0 d0 d1] m [] (mat2 d0 C0 C0 d1).
  Proof.
    unfold dm_diag_block. rewrite !N.lor_0_r.
    apply (block2_computes n q (fun br bc =>
      let r := sel t br in let c := sel t bc in
      mul_at (r false, c false) (d0 * Cconj d0)%C (mul_at (r false, c true) (d0 * Cconj d1)%C
     (mul_at (r true, c false) (d1 * Cconj d0)%C (mul_at (r true, c true) (d1 * Cconj d1)%C Ret))))); try assumption.
    - intros g. cbv zeta. rewrite !N.lor_0_r. reflexivity.
    - foot2.
    - intros br bc HR HC k l. destruct k, l; cbv zeta; run_block HR HC; rewrite ?Cconj_0; ring.
  Qed.
  Lemma phase_block ph m : (ph * Cconj ph = C1)%C -> goal [dm_phase_block n t 0 ph] m [] (mat2 C1 C0 C0 ph).
  Proof.
    intros Hph. unfold dm_phase_block. rewrite !N.lor_0_r.
    apply (block2_computes n q (fun br bc =>
      let r := sel t br in let c := sel t bc in
      mul_at (r false, c true) (Cconj ph) (mul_at (r true, c false) ph Ret))); try assumption.
    - intros g. cbv zeta. rewrite !N.lor_0_r. reflexivity.
    - foot2.
    - intros br bc HR HC k l. destruct k, l; cbv zeta; run_block HR HC; rewrite ?Cconj_0, ?Cconj_1; try ring.
      transitivity (C1 * m (sel t br true, sel t bc true))%C; [ring|]. rewrite <- Hph. ring.
  Qed.
  Lemma x_block m : goal [dm_x_block n t 0] m [] (mat2 C0 C1 C1 C0).
  Proof.
    unfold dm_x_block. rewrite !N.lor_0_r.
    apply (block2_computes n q (fun br bc =>
      let r := sel t br in let c := sel t bc in
      swap_at (r false, c false) (r true, c true) (swap_at (r false, c true) (r true, c false) Ret))); try assumption.
    - intros g. cbv zeta. rewrite !N.lor_0_r. reflexivity.
    - foot2.
    - intros br bc HR HC k l. destruct k, l; cbv zeta; run_block HR HC; rewrite ?Cconj_0, ?Cconj_1; ring.
  Qed.
  Lemma y_block m : goal [dm_y_block n t 0] m [] (mat2 C0 (- Ci)%C Ci C0).
  Proof.
    unfold dm_y_block. rewrite !N.lor_0_r.
    apply (block2_computes n q (fun br bc =>
      let r := sel t br in let c := sel t bc in
      Rd (r false, c false) (fun v00 => Rd (r false, c true) (fun v01 => Rd (r true, c false) (fun v10 => Rd (r true, c true) (fun v11 =>
      Wr (r false, c false) v11 (Wr (r false, c true) (- v10)%C (Wr (r true, c false) (- v01)%C (Wr (r true, c true) v00 Ret))))))))); try assumption.
    - intros g. cbv zeta. rewrite !N.lor_0_r. reflexivity.
    - foot2.
    - intros br bc HR HC k l. destruct k, l; cbv zeta; run_block HR HC; rewrite ?Cconj_opp, ?Cconj_0, ?Cconj_1, ?Cconj_i; Csolve.
  Qed.

  (** *** One control *)
  Section OneControl.
    Variables (p : N) (v : bool).
    Hypothesis Hp : p < n.
    Hypothesis Hpq : p <> q.
    Notation c := (2 ^ p).
    Notation cv := (one_ctrl p v).
    Lemma act_eq : N.land cv c = cv.
    Proof. unfold one_ctrl. destruct v; [apply N.land_diag|reflexivity]. Qed.
    Lemma ina_eq : N.lxor c cv = one_ctrl p (negb v).
    Proof. unfold one_ctrl. destruct v; cbn [negb]; [apply N.lxor_nilpotent|apply N.lxor_0_r]. Qed.

    Lemma diag_4block d0 d1 m : goal [dm_diag_4block n t c cv d0 d1] m [(p, v)] (mat2 d0 C0 C0 d1).
    Proof.
      unfold dm_diag_4block. rewrite act_eq, ina_eq, (N.lor_comm c t).
      apply (block4_computes n p q v (fun r c =>
        mul_at (r false false, c true false) (Cconj d0) (mul_at (r false false, c true true) (Cconj d1)
       (mul_at (r false true, c true false) (Cconj d0) (mul_at (r false true, c true true) (Cconj d1)
       (mul_at (r true false, c false false) d0 (mul_at (r true false, c false true) d0
       (mul_at (r true true, c false false) d1 (mul_at (r true true, c false true) d1
       (mul_at (r true false, c true false) (d0 * Cconj d0)%C (mul_at (r true false, c true true) (d0 * Cconj d1)%C
       (mul_at (r true true, c true false) (d1 * Cconj d0)%C (mul_at (r true true, c true true) (d1 * Cconj d1)%C Ret)))))))))))));
        try assumption.
      - reflexivity.
      - foot4.
      - intros r cc HR HC x k y l.
        pose proof (run_muls [(r false false, cc true false, Cconj d0); (r false false, cc true true, Cconj d1);
          (r false true, cc true false, Cconj d0); (r false true, cc true true, Cconj d1);
          (r true false, cc false false, d0); (r true false, cc false true, d0); (r true true, cc false false, d1);
          (r true true, cc false true, d1); (r true false, cc true false, (d0 * Cconj d0)%C); (r true false, cc true true, (d0 * Cconj d1)%C);
          (r true true, cc true false, (d1 * Cconj d0)%C); (r true true, cc true true, (d1 * Cconj d1)%C)] m (r x k, cc y l)) as E.
        etransitivity; [exact E|]. clear E. destruct x, k, y, l; mul_block HR HC; rewrite ?Cconj_0; ring.
    Qed.
    Lemma phase_4block ph m : (ph * Cconj ph = C1)%C -> goal [dm_phase_4block n t c cv ph] m [(p, v)] (mat2 C1 C0 C0 ph).
    Proof.
      intros Hph. unfold dm_phase_4block. rewrite act_eq, ina_eq, (N.lor_comm c t).
      apply (block4_computes n p q v (fun r c =>
        mul_at (r true true, c false false) ph (mul_at (r true true, c false true) ph (mul_at (r true true, c true false) ph
       (mul_at (r false false, c true true) (Cconj ph) (mul_at (r false true, c true true) (Cconj ph)
       (mul_at (r true false, c true true) (Cconj ph) Ret))))))); try assumption.
      - reflexivity.
      - foot4.
      - intros r cc HR HC x k y l.
        pose proof (run_muls [(r true true, cc false false, ph); (r true true, cc false true, ph); (r true true, cc true false, ph);
          (r false false, cc true true, Cconj ph); (r false true, cc true true, Cconj ph); (r true false, cc true true, Cconj ph)]
          m (r x k, cc y l)) as E.
        etransitivity; [exact E|]. clear E. destruct x, k, y, l; mul_block HR HC; rewrite ?Cconj_0, ?Cconj_1; try ring.
        transitivity (C1 * m (r true true, cc true true))%C; [ring|]. rewrite <- Hph. ring.
    Qed.
    Lemma x_4block m : goal [dm_x_4block n t c cv] m [(p, v)] (mat2 C0 C1 C1 C0).
    Proof.
      unfold dm_x_4block. rewrite act_eq, ina_eq, (N.lor_comm c t).
      apply (block4_computes n p q v (fun r c =>
        swap_at (r false false, c true false) (r false false, c true true) (swap_at (r false true, c true false) (r false true, c true true)
       (swap_at (r true false, c false false) (r true true, c false false) (swap_at (r true false, c false true) (r true true, c false true)
       (swap_at (r true false, c true false) (r true true, c true true) (swap_at (r true false, c true true) (r true true, c true false) Ret)))))));
        try assumption.
      - reflexivity.
      - foot4.
      - intros r cc HR HC x k y l.
        pose proof (run_swaps [((r false false, cc true false), (r false false, cc true true)); ((r false true, cc true false), (r false true, cc true true));
          ((r true false, cc false false), (r true true, cc false false)); ((r true false, cc false true), (r true true, cc false true));
          ((r true false, cc true false), (r true true, cc true true)); ((r true false, cc true true), (r true true, cc true false))]
          m (r x k, cc y l)) as E.
        etransitivity; [exact E|]. clear E. destruct x, k, y, l; swap_block HR HC; rewrite ?Cconj_0, ?Cconj_1; ring.
    Qed.
  End OneControl.

  (** *** Two passes, any number of controls *)
  Section TwoPass.
    Variables (c cv : N).
    Hypothesis Hc : c < 2 ^ n.
    Hypothesis Hd : N.land t c = 0.
    Hypothesis Hcv : N.land cv c = cv.
    Let Ht : t < 2 ^ n. Proof. apply N.pow_lt_mono_r; lia. Qed.
    Let Hw : wf_ops n [q] (ctrls c cv).
    Proof. rewrite <- (bits_pow2 q). now apply wf_ops_masks. Qed.
    Lemma passes P P' M kl kr m : group_ok t [q] P M -> group_ok t [q] P' (conjm M) ->
      (forall g, kl g = amap (fun a => (a, g mod 2 ^ n)) (P (gbase t c cv (g / 2 ^ n)))) ->
      (forall g, kr g = amap (fun a => (g / n_groups n (N.lor t c), a)) (P' (gbase t c cv (g mod n_groups n (N.lor t c))))) ->
      goal [Kernel (mul64 (n_groups n (N.lor t c)) (2 ^ n)) kl; Kernel (mul64 (2 ^ n) (n_groups n (N.lor t c))) kr] m (ctrls c cv) M.
    Proof.
      intros G1 G2 H1 H2. apply two_pass; [assumption| |]; intros m'.
      - now apply (left_computes n t c cv Hn Ht Hc Hd Hcv [q] P).
      - now apply (right_computes n t c cv Hn Ht Hc Hd Hcv [q] P').
    Qed.
    Lemma dense_passes M m : goal [dm_dense_left n t c cv M; dm_dense_right n t c cv M] m (ctrls c cv) M.
    Proof.
      unfold dm_dense_left, dm_dense_right. rewrite (N.lor_comm c t).
      apply (passes
        (fun b => Rd b (fun v0 => Rd (N.lor b t) (fun v1 => Wr b (M 0 0 * v0 + M 0 1 * v1)%C (Wr (N.lor b t) (M 1 0 * v0 + M 1 1 * v1)%C Ret))))
        (fun b => Rd b (fun v0 => Rd (N.lor b t) (fun v1 => Wr b (Cconj (M 0 0) * v0 + Cconj (M 0 1) * v1)%C
                    (Wr (N.lor b t) (Cconj (M 1 0) * v0 + Cconj (M 1 1) * v1)%C Ret))))); try reflexivity.
      - apply one_group_ok; [solve_foot|clear m; solve_one].
      - apply one_group_ok; [solve_foot|clear m; solve_one].
    Qed.
    Lemma diag_passes d0 d1 m : goal [dm_diag_left n t c cv d0 d1; dm_diag_right n t c cv d0 d1] m (ctrls c cv) (mat2 d0 C0 C0 d1).
    Proof.
      unfold dm_diag_left, dm_diag_right. rewrite (N.lor_comm c t).
      apply (passes (fun b => mul_at b d0 (mul_at (N.lor b t) d1 Ret))
        (fun b => mul_at b (Cconj d0) (mul_at (N.lor b t) (Cconj d1) Ret))); try reflexivity.
      - apply one_group_ok; [solve_foot|clear m; solve_one].
      - apply one_group_ok; [solve_foot|]. clear m; solve_one; rewrite Cconj_0; ring.
    Qed.
    Lemma phase_passes ph m : goal [dm_phase_left n t c cv ph; dm_phase_right n t c cv ph] m (ctrls c cv) (mat2 C1 C0 C0 ph).
    Proof.
      unfold dm_phase_left, dm_phase_right. rewrite (N.lor_comm c t).
      apply (passes (fun b => mul_at (N.lor b t) ph Ret) (fun b => mul_at (N.lor b t) (Cconj ph) Ret)); try reflexivity.
      - apply one_group_ok; [solve_foot|clear m; solve_one].
      - apply one_group_ok; [solve_foot|]. clear m; solve_one; rewrite Cconj_0, ?Cconj_1; ring.
    Qed.
    Lemma x_passes m : goal [dm_x_left n t c cv; dm_x_right n t c cv] m (ctrls c cv) (mat2 C0 C1 C1 C0).
    Proof.
      unfold dm_x_left, dm_x_right. rewrite (N.lor_comm c t).
      apply (passes (fun b => swap_at b (N.lor b t) Ret) (fun b => swap_at b (N.lor b t) Ret)); try reflexivity.
      - apply one_group_ok; [solve_foot|clear m; solve_one].
      - apply one_group_ok; [solve_foot|]. clear m; solve_one; rewrite Cconj_0, ?Cconj_1; ring.
    Qed.
    Lemma y_passes m : goal [dm_y_left n t c cv; dm_y_right n t c cv] m (ctrls c cv) (mat2 C0 (- Ci)%C Ci C0).
    Proof.
      unfold dm_y_left, dm_y_right. rewrite (N.lor_comm c t).
      apply (passes
        (fun b => Rd b (fun v0 => Rd (N.lor b t) (fun v1 => Wr b ((0, -1)%R * v1)%C (Wr (N.lor b t) ((0, 1)%R * v0)%C Ret))))
        (fun b => Rd b (fun v0 => Rd (N.lor b t) (fun v1 => Wr b ((0, 1)%R * v1)%C (Wr (N.lor b t) ((0, -1)%R * v0)%C Ret))))); try reflexivity.
      - apply one_group_ok; [solve_foot|]. intros m0 b Hne. cbn [run1]. unfold upd. upd_simpl. split; unfold mat2, conjm; cbn [N.eqb andb]; Csolve.
      - apply one_group_ok; [solve_foot|]. intros m0 b Hne. cbn [run1]. unfold upd. upd_simpl. split; unfold mat2, conjm; cbn [N.eqb andb]; Csolve.
    Qed.
  End TwoPass.

  (** *** The functions *)
  Section Functions.
    Variables (c cv : N).
    Hypothesis Hc : c < 2 ^ n.
    Hypothesis Hd : N.land t c = 0.
    Hypothesis Hcv : N.land cv c = cv.
    Lemma c_zero : (c =? 0) = true -> c = 0 /\ cv = 0 /\ ctrls c cv = [].
    Proof. intros E. apply N.eqb_eq in E. pose proof Hcv as H. rewrite E, N.land_0_r in H. now rewrite E, <- H. Qed.
    Lemma c_one : popcount c = 1 -> exists p v, p < n /\ p <> q /\ c = 2 ^ p /\ cv = one_ctrl p v /\ ctrls c cv = [(p, v)].
    Proof.
      intros E. destruct (one_control c cv n E Hc ltac:(lia) Hcv) as (p & v & Hp & Ec & Ev & Ecs). exists p, v. repeat split; auto.
      intros ->. rewrite Ec in Hd. rewrite N.land_diag in Hd. pose proof (pow2_pos q). lia.
    Qed.
    Ltac with_cases :=
      match goal with |- context [c =? 0] => destruct (c =? 0) eqn:E0;
        [destruct (c_zero E0) as (-> & -> & ->)|] end;
      try match goal with |- context [popcount c =? 1] => destruct (popcount c =? 1) eqn:E1;
        [apply N.eqb_eq in E1; destruct (c_one E1) as (p & v & Hp & Hpq & -> & -> & ->)|] end.
    Lemma dense_dm_computes M m : goal (dm_dense n t c cv M) m (ctrls c cv) M.
    Proof. unfold dm_dense. with_cases; [apply dense_block|now apply dense_passes]. Qed.
    Lemma diag_dm_computes d0 d1 m : goal (dm_diag n t c cv d0 d1) m (ctrls c cv) (mat2 d0 C0 C0 d1).
    Proof. unfold dm_diag. with_cases; [apply diag_block|now apply diag_4block|now apply diag_passes]. Qed.
    Lemma phase_dm_computes ph m : (ph * Cconj ph = C1)%C -> goal (dm_phase n t c cv ph) m (ctrls c cv) (mat2 C1 C0 C0 ph).
    Proof. intros Hph. unfold dm_phase. with_cases; [now apply phase_block|now apply phase_4block|now apply phase_passes]. Qed.
    Lemma x_dm_computes m : goal (dm_x n t c cv) m (ctrls c cv) (mat2 C0 C1 C1 C0).
    Proof. unfold dm_x. with_cases; [now apply x_block|now apply x_4block|now apply x_passes]. Qed.
    Lemma y_dm_computes m : goal (dm_y n t c cv) m (ctrls c cv) (mat2 C0 (- Ci)%C Ci C0).
    Proof. unfold dm_y. with_cases; [now apply y_block|now apply y_passes]. Qed.
  End Functions.
End OneTarget.

(** *** Global phase *)
Section Global.
  Variables (n c cv : N).
  Hypothesis Hn : n < 32.
  Hypothesis Hc : c < 2 ^ n.
  Hypothesis Hcv : N.land cv c = cv.
  Lemma Cexpi_norm a : (Cexpi a * Cconj (Cexpi a) = C1)%C.
  Proof.
    unfold Cexpi, Cconj, Cmul, C1, RtoC. cbn [fst snd]. pose proof (sin2_cos2 a) as H. unfold Rsqr in H. c_eq; lra.
  Qed.
  Lemma global_dm_computes angle m :
    kcomputes_list pair_eqb (d_valid n) (dm_global n c cv angle) m (inside n (conjugated [] (ctrls c cv) (fun _ _ => Cexpi angle) m) m).
  Proof.
    assert (Hw : wf_ops n [] (ctrls c cv)) by (apply (wf_ops_masks n 0 c cv); [apply pow2_pos|assumption|apply N.land_0_l]).
    unfold dm_global. destruct (c =? 0) eqn:E0.
    - apply N.eqb_eq in E0. subst c. pose proof Hcv as H. rewrite N.land_0_r in H. rewrite <- H. change (ctrls 0 0) with (@nil (N * bool)).
      cbn [kcomputes_list]. intros a. unfold inside. destruct (d_valid n a); [|reflexivity].
      unfold conjugated, apply_mat. cbn [ctrl_ok forallb length]. change (2 ^ N.of_nat 0) with 1. rewrite !Csum_1. cbn [scatter gather].
      unfold conjm. destruct a as [i j]. cbn [fst snd].
      symmetry. transitivity (C1 * m (i, j))%C; [ring|]. rewrite <- (Cexpi_norm angle). ring.
    - apply two_pass; [exact Hw| |]; intros m'.
      + pose proof (left_computes n 0 c cv Hn (pow2_pos n) Hc (N.land_0_l c) Hcv [] (fun b => mul_at b (Cexpi angle) Ret)
          (fun _ _ => Cexpi angle) (fun g => mul_at (N.lor (insert_zero_at_mask_positions (g / 2 ^ n) c) cv, g mod 2 ^ n) (Cexpi angle) Ret) m'
          (zero_group_ok _)) as L. rewrite !N.lor_0_l in L. apply L. intros g. unfold gbase. rewrite N.lor_0_l. reflexivity.
      + pose proof (right_computes n 0 c cv Hn (pow2_pos n) Hc (N.land_0_l c) Hcv [] (fun b => mul_at b (Cconj (Cexpi angle)) Ret)
          (fun _ _ => Cexpi angle)
          (fun g => mul_at (g / n_groups n c, N.lor (insert_zero_at_mask_positions (g mod n_groups n c) c) cv) (Cconj (Cexpi angle)) Ret) m'
          (zero_group_ok _)) as L. rewrite !N.lor_0_l in L. apply L. intros g. unfold gbase. rewrite N.lor_0_l. reflexivity.
  Qed.
End Global.

Lemma run_reads {A} (eqb : A -> A -> bool) l k m : run1 eqb (reads l k) m = run1 eqb (k (map m l)) m.
Proof. revert k. induction l as [|a l IH]; intros k; [reflexivity|]. cbn [reads run1 map]. now rewrite IH. Qed.
Lemma foot_reads {A} (R W : A -> Prop) l k : (forall a, In a l -> R a) -> (forall v : list C, foot R W (k v)) -> foot R W (reads l k).
Proof.
  revert k. induction l as [|a l IH]; intros k Hl Hk; [apply Hk|]. cbn [reads foot]. split; [apply Hl; now left|].
  intros v. apply IH; [intros; apply Hl; now right|auto].
Qed.
Lemma foot_writes {A} (R W : A -> Prop) (l : list (A * C)) : (forall a, In a (map fst l) -> W a) -> foot R W (writes l Ret).
Proof.
  induction l as [|[a v] l IH]; intros Hl; [exact I|]. cbn [writes foot]. split; [apply Hl; now left|].
  apply IH. intros; apply Hl; now right.
Qed.
Lemma run_writes_skip {A} (eqb : A -> A -> bool) (He : forall x y, reflect (x = y) (eqb x y)) (l : list (A * C)) m a :
  ~ In a (map fst l) -> run1 eqb (writes l Ret) m a = m a.
Proof.
  revert m. induction l as [|[x v] l IH]; intros m Hi; [reflexivity|]. cbn [writes run1]. cbn [map fst In] in Hi. rewrite IH by tauto.
  unfold upd. destruct (He a x); [subst; tauto|reflexivity].
Qed.
Lemma run_writes {A} (eqb : A -> A -> bool) (He : forall x y, reflect (x = y) (eqb x y)) (l : list (A * C)) m a v :
  NoDup (map fst l) -> In (a, v) l -> run1 eqb (writes l Ret) m a = v.
Proof.
  revert m. induction l as [|[x u] l IH]; intros m Hd Hi; [destruct Hi|]. cbn [writes run1]. cbn [map fst] in Hd. inversion_clear Hd.
  destruct Hi as [E|Hi].
  - injection E as -> ->. rewrite (run_writes_skip eqb He) by assumption. unfold upd. now destruct (He a a).
  - now apply IH.
Qed.

Ltac eval_eqb := repeat match goal with |- context [N.eqb ?a ?b] =>
  let v := eval vm_compute in (N.eqb a b) in change (N.eqb a b) with v end; cbn [andb orb].
Lemma dot4 f a b c d : dot f [a; b; c; d] = (f 0 * a + f 1 * b + f 2 * c + f 3 * d)%C.
Proof.
  change (dot f [a; b; c; d]) with (C0 + f 0 * a + f 1 * b + f 2 * c + f 3 * d)%C. ring.
Qed.
(** *** Two targets *)
Section TwoTargets.
  Variables (n p q : N).
  Hypothesis Hn : n < 32.
  Hypothesis Hp : p < n.
  Hypothesis Hq : q < n.
  Hypothesis Hpq : p <> q.
  Notation t := (N.lor (2 ^ p) (2 ^ q)).
  Notation goal ks m cs M := (kcomputes_list pair_eqb (d_valid n) ks m (inside n (conjugated [p; q] cs M m) m)).
  Let Ht : t < 2 ^ n.
  Proof. apply lor_u64_pow2; apply N.pow_lt_mono_r; lia. Qed.

  Section Controls.
    Variables (c cv : N).
    Hypothesis Hc : c < 2 ^ n.
    Hypothesis Hd : N.land t c = 0.
    Hypothesis Hcv : N.land cv c = cv.
    Let Hw : wf_ops n [p; q] (ctrls c cv).
    Proof.
      pose proof (wf_ops_masks n t c cv Ht Hc Hd) as W.
      destruct (N.lt_total p q) as [H|[H|H]]; [|contradiction|].
      - now rewrite bits_two in W.
      - rewrite (N.lor_comm (2 ^ p)), bits_two in W by assumption.
        destruct W as [W1 W2]. split.
        + cbn [app] in W1 |- *. eapply Permutation_NoDup; [|exact W1]. apply perm_swap.
        + cbn [app] in W2 |- *. inversion_clear W2 as [|? ? A B]. inversion_clear B. repeat constructor; assumption.
    Qed.
    Lemma passes2 P P' M kl kr m : group_ok t [p; q] P M -> group_ok t [p; q] P' (conjm M) ->
      (forall g, kl g = amap (fun a => (a, g mod 2 ^ n)) (P (gbase t c cv (g / 2 ^ n)))) ->
      (forall g, kr g = amap (fun a => (g / n_groups n (N.lor t c), a)) (P' (gbase t c cv (g mod n_groups n (N.lor t c))))) ->
      goal [Kernel (mul64 (n_groups n (N.lor t c)) (2 ^ n)) kl; Kernel (mul64 (2 ^ n) (n_groups n (N.lor t c))) kr] m (ctrls c cv) M.
    Proof.
      intros G1 G2 H1 H2. apply two_pass; [assumption| |]; intros m'.
      - now apply (left_computes n t c cv Hn Ht Hc Hd Hcv [p; q] P).
      - now apply (right_computes n t c cv Hn Ht Hc Hd Hcv [p; q] P').
    Qed.
    Lemma conj_swap_mat : conjm swap_mat = swap_mat.
    Proof.
      apply functional_extensionality; intros i. apply functional_extensionality; intros j. unfold conjm, swap_mat.
      destruct (_ || _); [apply Cconj_1|apply Cconj_0].
    Qed.
    Lemma swap_group : group_ok t [p; q] (fun b => swap_at (N.lor b (2 ^ p)) (N.lor b (2 ^ q)) Ret) swap_mat.
    Proof.
      apply two_group_ok; [assumption| |].
      - intros b S. unfold swap_at. cbn. unfold S. intuition.
      - intros m0 b b1 b2 b3 N1 N2 N3 N4 N5 N6 row. subst row. unfold swap_at. cbn [run1]. fold b1 b2. unfold upd. clearbody b1 b2 b3. upd_simpl.
        unfold swap_mat. eval_eqb; repeat split; ring.
    Qed.
    Lemma swap_dm_computes m : p < q -> goal (dm_swap n t c cv) m (ctrls c cv) swap_mat.
    Proof.
      intros H. unfold dm_swap, dm_swap_left, dm_swap_right.
      rewrite (N.land_comm t (neg64 t)), lower_two, upper_two by lia.
      apply (passes2 (fun b => swap_at (N.lor b (2 ^ p)) (N.lor b (2 ^ q)) Ret) (fun b => swap_at (N.lor b (2 ^ p)) (N.lor b (2 ^ q)) Ret)).
      - apply swap_group.
      - rewrite conj_swap_mat. apply swap_group.
      - intros g. unfold gbase. rewrite (N.lor_comm t c). reflexivity.
      - intros g. unfold gbase. rewrite (N.lor_comm t c). reflexivity.
    Qed.
    Definition quad (M : matrix) (b : N) : cprog :=
      reads (ecr_indices b (2 ^ q) (2 ^ p)) (fun v =>
      writes (map (fun y => (nth (N.to_nat y) (ecr_indices b (2 ^ q) (2 ^ p)) 0, dot (fun x => M y x) v)) (seqN 4)) Ret).
    Lemma quad_group M : group_ok t [p; q] (quad M) M.
    Proof.
      apply two_group_ok; [assumption| |].
      - intros b S. unfold quad.
        assert (HS : forall a, In a (ecr_indices b (2 ^ q) (2 ^ p)) -> S a).
        { intros a [<-|[<-|[<-|[<-|[]]]]]; unfold S; auto. }
        apply foot_reads; [exact HS|]. intros v. apply foot_writes. intros a Ha. apply HS. exact Ha.
      - intros m0 b b1 b2 b3 N1 N2 N3 N4 N5 N6 row. subst row. unfold quad, ecr_indices.
        fold b1 b2 b3. clearbody b1 b2 b3.
        change (reads [b; b1; b2; b3] _) with
          (Rd b (fun v0 => Rd b1 (fun v1 => Rd b2 (fun v2 => Rd b3 (fun v3 =>
           Wr b (dot (fun x => M 0 x) [v0; v1; v2; v3]) (Wr b1 (dot (fun x => M 1 x) [v0; v1; v2; v3])
          (Wr b2 (dot (fun x => M 2 x) [v0; v1; v2; v3]) (Wr b3 (dot (fun x => M 3 x) [v0; v1; v2; v3]) Ret)))))))).
        cbn [run1]. unfold upd. upd_simpl. rewrite !dot4. repeat split.
    Qed.
    Lemma ecr_passes m : goal [dm_ecr_left n (2 ^ q) (2 ^ p) c cv; dm_ecr_right n (2 ^ q) (2 ^ p) c cv] m (ctrls c cv) dm_ecr_table.
    Proof.
      unfold dm_ecr_left, dm_ecr_right. rewrite (N.lor_comm (2 ^ q)).
      apply (passes2 (quad dm_ecr_table) (quad (conjm dm_ecr_table))); try apply quad_group.
      - intros g. unfold gbase. rewrite (N.lor_comm t c). reflexivity.
      - intros g. unfold gbase. rewrite (N.lor_comm t c). reflexivity.
    Qed.
  End Controls.

  (** No control: all sixteen cells of a block at once. *)
  Notation quads b := (ecr_indices b (2 ^ q) (2 ^ p)).
  Definition quad_block (M : matrix) (br bc : N) : dprog :=
    let r := quads br in let c := quads bc in
    reads (list_prod r c) (fun v =>
    writes (map (fun y => ((nth (N.to_nat (N.shiftr y 2)) r 0, nth (N.to_nat (N.land y 3)) c 0),
                           dot (fun x => M (N.shiftr y 2) (N.shiftr x 2) * Cconj (M (N.land y 3) (N.land x 3)))%C v)) (seqN 16)) Ret).
  Lemma quads_NoDup b : N.land b t = 0 -> NoDup (quads b).
  Proof.
    intros Hb. destruct (two_neq p q Hpq b Hb) as (N1 & N2 & N3 & N4 & N5 & N6). unfold ecr_indices.
    repeat constructor; cbn [In]; intuition.
  Qed.
  Lemma quads_case a : nth (N.to_nat (N.b2n (N.testbit a p) + 2 * N.b2n (N.testbit a q))) (quads (N.ldiff a t)) 0 = a.
  Proof.
    destruct (two_group_cases p q Hpq a) as [(E1 & E2 & Ea)|[(E1 & E2 & Ea)|[(E1 & E2 & Ea)|(E1 & E2 & Ea)]]];
      rewrite E1, E2; unfold ecr_indices; symmetry; exact Ea.
  Qed.
  Lemma two_apply M psi a : apply_mat [p; q] [] M psi a =
    dot (fun k => M (N.b2n (N.testbit a p) + 2 * N.b2n (N.testbit a q)) k) (map psi (quads (N.ldiff a t))).
  Proof.
    unfold apply_mat. cbn [ctrl_ok forallb]. pose proof (two_target_sum p q Hpq psi M a) as Hs. cbv zeta in Hs. rewrite Hs.
    unfold ecr_indices. cbn [map]. now rewrite dot4.
  Qed.
  Lemma split4 a b : a < 4 -> b < 4 -> N.shiftr (4 * a + b) 2 = a /\ N.land (4 * a + b) 3 = b /\ 4 * a + b < 16.
  Proof.
    intros Ha Hb. assert (a = 0 \/ a = 1 \/ a = 2 \/ a = 3) as [-> |[-> |[-> | ->]]] by lia;
      assert (b = 0 \/ b = 1 \/ b = 2 \/ b = 3) as [-> |[-> |[-> | ->]]] by lia; repeat split; lia.
  Qed.
  Lemma shift_parts y : y < 16 -> N.shiftr y 2 < 4 /\ N.land y 3 < 4 /\ y = 4 * N.shiftr y 2 + N.land y 3.
  Proof.
    intros H. change 3 with (N.ones 2). rewrite N.land_ones, N.shiftr_div_pow2. change (2 ^ 2) with 4.
    pose proof (N.div_mod' y 4). pose proof (N.mod_lt y 4 ltac:(lia)). split; [|lia]. apply N.div_lt_upper_bound; lia.
  Qed.
  Lemma dot16 f a0 a1 a2 a3 a4 a5 a6 a7 a8 a9 b0 b1 b2 b3 b4 b5 :
    dot f [a0;a1;a2;a3;a4;a5;a6;a7;a8;a9;b0;b1;b2;b3;b4;b5] =
    (C0 + f 0 * a0 + f 1 * a1 + f 2 * a2 + f 3 * a3 + f 4 * a4 + f 5 * a5 + f 6 * a6 + f 7 * a7 + f 8 * a8 + f 9 * a9
      + f 10 * b0 + f 11 * b1 + f 12 * b2 + f 13 * b3 + f 14 * b4 + f 15 * b5)%C.
  Proof. reflexivity. Qed.
  Lemma quad_value M (m : dmem) i j :
    let ki := N.b2n (N.testbit i p) + 2 * N.b2n (N.testbit i q) in let kj := N.b2n (N.testbit j p) + 2 * N.b2n (N.testbit j q) in
    dot (fun x => M ki (N.shiftr x 2) * Cconj (M kj (N.land x 3)))%C (map m (list_prod (quads (N.ldiff i t)) (quads (N.ldiff j t)))) =
    conjugated [p; q] [] M m (i, j).
  Proof.
    intros ki kj. unfold conjugated. cbn [fst snd]. rewrite two_apply. fold ki. unfold ecr_indices. cbn [map list_prod app].
    rewrite dot4, dot16, !two_apply. fold kj. unfold ecr_indices. cbn [map]. rewrite !dot4. unfold conjm.
    repeat match goal with
    | |- context [N.shiftr ?a 2] => let v := eval vm_compute in (N.shiftr a 2) in change (N.shiftr a 2) with v
    | |- context [N.land ?a 3] => let v := eval vm_compute in (N.land a 3) in change (N.land a 3) with v
    end. ring.
  Qed.
  Lemma quad_block_computes M body m :
    (forall g, body g = quad_block M (insert_zero_at_mask_positions (g / n_groups n t) t) (insert_zero_at_mask_positions (g mod n_groups n t) t)) ->
    goal [Kernel (mul64 (n_groups n t) (n_groups n t)) body] m [] M.
  Proof.
    intros Hb. eapply one_pass; [|reflexivity].
    apply (block_computes n t Hn Ht (quad_block M)); [exact Hb| |].
    - intros br bc _ _ S.
      assert (Hq4 : forall b a, In a (quads b) -> exists s, N.land s t = s /\ a = N.lor b s).
      { intros b a [<-|[<-|[<-|[<-|[]]]]].
        - exists 0. split; [reflexivity|now rewrite N.lor_0_r].
        - exists (2 ^ p). split; [|reflexivity]. bitwise i. cmp_cases; bool_solve.
        - exists (2 ^ q). split; [|reflexivity]. bitwise i. cmp_cases; bool_solve.
        - exists t. split; [apply N.land_diag|]. now rewrite N.lor_assoc. }
      assert (HS : forall a b, In a (quads br) -> In b (quads bc) -> S (a, b)).
      { intros a b Ha Hb'. destruct (Hq4 _ _ Ha) as (s & H1 & ->). destruct (Hq4 _ _ Hb') as (s' & H2 & ->). exists s, s'. auto. }
      apply foot_reads; [intros [a b] Hi; apply in_prod_iff in Hi; now apply HS|].
      intros v. apply foot_writes. intros [a b] Hi. rewrite map_map in Hi. apply in_map_iff in Hi. destruct Hi as (y & E & Hy).
      apply in_seqN in Hy. cbn [fst] in E. pose proof (f_equal fst E) as E1. pose proof (f_equal snd E) as E2. cbn [fst snd] in E1, E2. rewrite <- E1, <- E2.
      destruct (shift_parts y Hy) as (A & B & _). apply HS; apply nth_In; cbn [length ecr_indices]; lia.
    - intros i j. unfold quad_block. rewrite run_reads.
      set (ki := N.b2n (N.testbit i p) + 2 * N.b2n (N.testbit i q)). set (kj := N.b2n (N.testbit j p) + 2 * N.b2n (N.testbit j q)).
      assert (Hki : ki < 4) by (unfold ki; destruct (N.testbit i p), (N.testbit i q); cbn; lia).
      assert (Hkj : kj < 4) by (unfold kj; destruct (N.testbit j p), (N.testbit j q); cbn; lia).
      destruct (split4 ki kj Hki Hkj) as (Y1 & Y2 & Y3).
      assert (HZ : forall x, N.land (N.ldiff x t) t = 0) by (intros x; bitwise k; cmp_cases; bool_solve).
      rewrite <- (quad_value M m i j). apply (run_writes pair_eqb pair_eqb_spec).
      + rewrite map_map. cbn [fst]. apply Prelude.NoDup_map_inj; [|apply NoDup_seqN].
        intros x y Hx Hy E. apply in_seqN in Hx, Hy. destruct (shift_parts x Hx) as (A & B & Ex). destruct (shift_parts y Hy) as (A' & B' & Ey).
        pose proof (f_equal fst E) as E1. pose proof (f_equal snd E) as E2. cbn [fst snd] in E1, E2.
        apply (proj1 (NoDup_nth _ 0) (quads_NoDup _ (HZ i))) in E1; [|cbn; lia|cbn; lia].
        apply (proj1 (NoDup_nth _ 0) (quads_NoDup _ (HZ j))) in E2; [|cbn; lia|cbn; lia]. lia.
      + apply in_map_iff. exists (4 * ki + kj). split; [|now apply in_seqN]. rewrite Y1, Y2. unfold ki, kj. now rewrite !quads_case.
  Qed.
  Lemma ecr_dm_computes c cv m : c < 2 ^ n -> N.land t c = 0 -> N.land cv c = cv ->
    goal (dm_ecr n (2 ^ q) (2 ^ p) c cv) m (ctrls c cv) dm_ecr_table.
  Proof.
    intros Hc Hd Hcv. unfold dm_ecr. destruct (c =? 0) eqn:E.
    - apply N.eqb_eq in E. rewrite E, N.land_0_r in Hcv. rewrite E, <- Hcv. change (ctrls 0 0) with (@nil (N * bool)).
      unfold dm_ecr_block. rewrite N.lor_0_r, (N.lor_comm (2 ^ q)). apply quad_block_computes. intros g. cbv zeta. rewrite !N.lor_0_r. reflexivity.
    - now apply ecr_passes.
  Qed.
End TwoTargets.
