(** What the rounded kernels store, under every schedule: functions of the old amplitudes of the group. *)
From Verif Require Export Float GatesProofs3.
From Coq Require Import ZifyBool ZifyN ZifyNat.
Open Scope N_scope.

(** ** Kernels that work on groups, with any result *)
Section Gen.
  Variables (n B t c cv : N).
  Hypothesis Hn : n <= 64.
  Hypothesis HB : B * 2 ^ n <= two64.
  Hypothesis Ht : t < 2 ^ n.
  Hypothesis Hc : c < 2 ^ n.
  Hypothesis Hd : N.land t c = 0.
  Hypothesis Hcv : N.land cv c = cv.
  Let D := B * 2 ^ n.

  Definition out (G : N -> C) (m : state) : state := fun a => if (a <? D) && (N.land a c =? cv) then G a else m a.

  Lemma group_out (P : N -> cprog) (body : N -> cprog) G m :
    (forall it, body it = P (N.lor (insert_zero_at_mask_positions it (N.lor t c)) cv)) ->
    (forall b, N.land b t = 0 ->
       foot (fun a => exists s, N.land s t = s /\ a = N.lor b s) (fun a => exists s, N.land s t = s /\ a = N.lor b s) (P b)) ->
    (forall a, run1 N.eqb (P (N.ldiff a t)) m a = G a) ->
    kcomputes N.eqb (fun a => a <? D) (Kernel (N.shiftr D (popcount (N.lor t c))) body) m (out G m).
  Proof.
    intros Hbody Hfoot Hrun. unfold kcomputes.
    eapply par_computes_ext; [|apply (group_computes n B t c cv Hn HB Ht Hc Hd Hcv P body m)].
    - intros a. simpl. unfold out, gdom. fold D. destruct ((a <? D) && (N.land a c =? cv)); [apply Hrun|reflexivity].
    - intros it _. apply Hbody.
    - assumption.
  Qed.

  Variable l : N.
  Let L := 2 ^ l.
  Hypothesis Hspan : L <= 2 ^ (n - popcount (N.lor t c)).
  Hypothesis Hlow : N.land (N.lor t c) (L - 1) = 0.
  Notation cnt := (gcnt n B t c).
  Notation base := (gbase t c cv).
  Lemma simd_out (body : N -> cprog) G m :
    (forall g, g < cnt / L ->
       let X a := exists j s, j < L /\ N.land s t = s /\ a = N.lor (base (g * L + j)) s in foot X X (body g)) ->
    (forall g j s, g < cnt / L -> j < L -> N.land s t = s ->
       let a := N.lor (base (g * L + j)) s in run1 N.eqb (body g) m a = G a) ->
    kcomputes N.eqb (fun a => a <? D) (Kernel (cnt / L) body) m (out G m).
  Proof.
    intros Hfoot Hrun. unfold kcomputes. simpl. pose proof (pow2_pos l) as HL0. fold L in HL0.
    pose proof (cnt_div n B t c cv l Hn HB Ht Hc Hd Hcv Hspan Hlow) as Hcd. fold L in Hcd.
    eapply par_computes_ext; [|apply (owned_par_computes C N N.eqb neqb_spec (fun a => a <? D) (cnt / L) body m
      (fun _ => false) (gdom n B c cv) (fun a => gowner t c a / L))].
    - intros a. simpl. unfold out. change ((a <? D) && (N.land a c =? cv)) with (gdom n B c cv a).
      destruct (gdom n B c cv a) eqn:Hg; [|reflexivity].
      destruct (gowner_base n B t c cv Hn HB Ht Hc Hd Hcv a Hg) as [Hlt Hb].
      set (it := gowner t c a) in *.
      assert (Hit : it = it / L * L + it mod L) by (rewrite (N.div_mod it L) at 1; lia).
      assert (Hga : a = N.lor (base (it / L * L + it mod L)) (N.land a t)).
      { rewrite <- Hit. rewrite Hb. bitwise i. bool_solve. }
      specialize (Hrun (it / L) (it mod L) (N.land a t)). cbv zeta in Hrun. rewrite <- Hga in Hrun. apply Hrun.
      + apply N.div_lt_upper_bound; [lia|]. rewrite N.mul_comm, <- Hcd. assumption.
      + apply N.mod_lt. lia.
      + bitwise i. bool_solve.
    - intros a Ha. pose proof (valid_gdom n B c cv a Ha) as [HaD _]. split; [now apply N.ltb_lt|]. split; [|reflexivity].
      destruct (gowner_base n B t c cv Hn HB Ht Hc Hd Hcv a Ha) as [Hlt _].
      apply N.div_lt_upper_bound; [lia|]. rewrite N.mul_comm, <- Hcd. assumption.
    - discriminate.
    - intros g Hg.
      assert (HX : forall a, (exists j s, j < L /\ N.land s t = s /\ a = N.lor (base (g * L + j)) s) ->
         gdom n B c cv a = true /\ gowner t c a / L = g).
      { intros a (j & s & Hj & Hs & ->).
        destruct (gbase_owner n B t c cv Hn HB Ht Hc Hd Hcv (g * L + j) s) as [G1 G2]; [eapply lane_lt; eassumption|exact Hs|].
        split; [exact G1|]. rewrite G2. rewrite N.div_add_l by lia. rewrite N.div_small by assumption. lia. }
      eapply foot_mono; [| |apply (Hfoot g Hg)].
      + intros a Ha. right. now apply HX.
      + exact HX.
  Qed.
End Gen.

Lemma map2C_map (h : C -> C -> C) f g l1 : forall l2, map2C h (map f l1) (map g l2) = map2C (fun x y => h (f x) (g y)) l1 l2.
Proof. unfold map2C. induction l1 as [|a l1 IH]; intros [|b l2]; try reflexivity. cbn. f_equal. apply IH. Qed.

(** ** One target *)
Section Pair.
  Variables (n B c cv : N).
  Hypothesis Hn : n <= 64.
  Hypothesis HB : B * 2 ^ n <= two64.
  Hypothesis Hc : c < 2 ^ n.
  Hypothesis Hcv : N.land cv c = cv.
  Let D := B * 2 ^ n.

  Definition pair_of (q : N) (F0 F1 : C -> C -> C) (m : state) (a : N) : C :=
    (if N.testbit a q then F1 else F0) (m (N.ldiff a (2 ^ q))) (m (N.lor (N.ldiff a (2 ^ q)) (2 ^ q))).

  Lemma pair_group q (P : N -> cprog) (body : N -> cprog) F0 F1 m : q < n -> N.testbit c q = false ->
    (forall it, body it = P (N.lor (insert_zero_at_mask_positions it (N.lor (2 ^ q) c)) cv)) ->
    (forall b, foot (fun a => a = b \/ a = N.lor b (2 ^ q)) (fun a => a = b \/ a = N.lor b (2 ^ q)) (P b)) ->
    (forall b, b <> N.lor b (2 ^ q) ->
       run1 N.eqb (P b) m b = F0 (m b) (m (N.lor b (2 ^ q))) /\
       run1 N.eqb (P b) m (N.lor b (2 ^ q)) = F1 (m b) (m (N.lor b (2 ^ q)))) ->
    kcomputes N.eqb (fun a => a <? D) (Kernel (N.shiftr D (popcount (N.lor (2 ^ q) c))) body) m
      (out n B c cv (pair_of q F0 F1 m) m).
  Proof.
    intros Hq Hd Hbody Hfoot Hrun.
    apply (group_out n B (2 ^ q) c cv Hn HB (t_lt n B q c cv Hn HB Hq Hc Hd Hcv) Hc (t_disj q c Hd) Hcv P body).
    - exact Hbody.
    - intros b _. eapply foot_mono; [| |apply Hfoot];
        (intros a [-> | ->]; [exists 0; split; [reflexivity|now rewrite N.lor_0_r]|exists (2 ^ q); split; [apply N.land_diag|reflexivity]]).
    - intros a. unfold pair_of.
      destruct (Hrun (N.ldiff a (2 ^ q)) (ldiff_pow2_neq a q)) as [H0 H1].
      destruct (pow2_group_cases a q) as [[E Ea]|[E Ea]]; rewrite E.
      + rewrite Ea at 2. exact H0.
      + rewrite Ea at 2. exact H1.
  Qed.

  Lemma pair_simd q l F0 F1 m : q < n -> N.testbit c q = false ->
    2 ^ l <= 2 ^ (n - popcount (N.lor (2 ^ q) c)) -> N.land (N.lor (2 ^ q) c) (2 ^ l - 1) = 0 ->
    kcomputes N.eqb (fun a => a <? D) (Kernel (N.shiftr D (popcount (N.lor (2 ^ q) c)) / 2 ^ l) (fun g =>
      let basis0 := N.lor (insert_zero_at_mask_positions (g * 2 ^ l) (N.lor (2 ^ q) c)) cv in
      let basis1 := N.lor basis0 (2 ^ q) in
      lanes_in_row n D (2 ^ l) basis0 (lanes_in_row n D (2 ^ l) basis1 (
      load_lanes (N.to_nat (2 ^ l)) basis0 (fun v0 =>
      load_lanes (N.to_nat (2 ^ l)) basis1 (fun v1 =>
        store_lanes basis0 (map2C F0 v0 v1) (store_lanes basis1 (map2C F1 v0 v1) Ret)))))))
      m (out n B c cv (pair_of q F0 F1 m) m).
  Proof.
    intros Hq Hdq Hspan Hlow. set (L := 2 ^ l).
    assert (Ht : 2 ^ q < 2 ^ n) by (apply N.pow_lt_mono_r; lia).
    assert (Hd : N.land (2 ^ q) c = 0).
    { bitwise i. destruct (N.eqb_spec i q); simpl; [subst; assumption|reflexivity]. }
    pose proof (base_lane n B (2 ^ q) c cv l Hn HB Ht Hc Hd Hcv Hspan Hlow) as HbL.
    pose proof (base_lane_t n B (2 ^ q) c cv l Hn HB Ht Hc Hd Hcv Hspan Hlow) as HbT. fold L in HbL, HbT.
    assert (Hl : l <= n) by (apply (pow_le_exp l (n - popcount (N.lor (2 ^ q) c))); [exact Hspan|lia]).
    assert (Hrow : forall g p, g < gcnt n B (2 ^ q) c / L ->
      lanes_in_row n D L (N.lor (insert_zero_at_mask_positions (g * L) (N.lor (2 ^ q) c)) cv) p = p).
    { intros g p Hg. apply in_row_true; [assumption|]. pose proof (pow2_pos l) as HL0. destruct (HbL g 0 Hg HL0) as [_ Hz]. exact Hz. }
    assert (Hrow1 : forall g p, g < gcnt n B (2 ^ q) c / L ->
      lanes_in_row n D L (N.lor (N.lor (insert_zero_at_mask_positions (g * L) (N.lor (2 ^ q) c)) cv) (2 ^ q)) p = p).
    { intros g p Hg. apply in_row_true; [assumption|]. pose proof (pow2_pos l) as HL0. destruct (HbL g 0 Hg HL0) as [_ Hz].
      fold L. rewrite N.land_comm, N.land_lor_distr_r, !(N.land_comm (L - 1)).
      replace (N.land (2 ^ q) (L - 1)) with 0; [rewrite N.lor_0_r; exact Hz|].
      symmetry. rewrite N.land_comm, N.land_lor_distr_r in Hlow. apply N.lor_eq_0_iff in Hlow as [Hlow _]. now rewrite N.land_comm. }
    apply (simd_out n B (2 ^ q) c cv Hn HB Ht Hc Hd Hcv l Hspan Hlow).
    - intros g Hg X. fold L in Hg. rewrite (Hrow g _ Hg), (Hrow1 g _ Hg).
      set (b0 := N.lor (insert_zero_at_mask_positions (g * L) (N.lor (2 ^ q) c)) cv).
      assert (HX0 : forall j, (j < N.to_nat L)%nat -> X (b0 + N.of_nat j)).
      { intros j Hj. exists (N.of_nat j), 0. split; [fold L; lia|]. split; [reflexivity|]. rewrite N.lor_0_r.
        destruct (HbL g (N.of_nat j) Hg ltac:(lia)) as [Eb _]. fold L. rewrite Eb. reflexivity. }
      assert (HX1 : forall j, (j < N.to_nat L)%nat -> X (N.lor b0 (2 ^ q) + N.of_nat j)).
      { intros j Hj. exists (N.of_nat j), (2 ^ q). split; [fold L; lia|]. split; [apply N.land_diag|].
        fold L. rewrite (HbT g (N.of_nat j) Hg ltac:(lia)). reflexivity. }
      apply foot_load; [exact HX0|]. intros v0 Hv0. apply foot_load; [exact HX1|]. intros v1 Hv1.
      apply foot_store; [|apply foot_store; [|exact I]]; intros j Hj; rewrite length_map2C, Hv0, Hv1, Nat.min_id in Hj; auto.
    - intros g j s Hg Hj Hs a. fold L in Hg, Hj. rewrite (Hrow g _ Hg), (Hrow1 g _ Hg).
      assert (Hs' : s = 0 \/ s = 2 ^ q).
      { destruct (N.testbit s q) eqn:E; [right|left]; rewrite <- Hs; bitwise i; destruct (N.eqb_spec i q); subst; rewrite ?E; try reflexivity; now rewrite andb_false_r. }
      set (b0 := N.lor (insert_zero_at_mask_positions (g * L) (N.lor (2 ^ q) c)) cv).
      assert (Eb0 : gbase (2 ^ q) c cv (g * L + j) = b0 + j) by (destruct (HbL g j Hg Hj) as [Eb _]; rewrite Eb; reflexivity).
      pose proof (HbT g j Hg Hj) as Eb1.
      change (N.lor (gbase (2 ^ q) c cv (g * L)) (2 ^ q)) with (N.lor b0 (2 ^ q)) in Eb1.
      assert (Hbase : forall it, it < gcnt n B (2 ^ q) c -> N.testbit (gbase (2 ^ q) c cv it) q = false).
      { intros it Hit. rewrite (gbase_tb n B (2 ^ q) c cv Hn HB Ht Hc Hd Hcv it q Hit) by (autorewrite with tb; now rewrite N.eqb_refl).
        destruct (N.testbit cv q) eqn:Ev; [|reflexivity]. apply (cv_tb c cv Hcv) in Ev. congruence. }
      assert (Hit : g * L + j < gcnt n B (2 ^ q) c) by (fold L; eapply lane_lt; eassumption).
      assert (Hld : N.ldiff a (2 ^ q) = b0 + j).
      { rewrite <- Eb0. unfold a. fold L. bitwise i. destruct (N.eqb_spec i q) as [->|].
        - rewrite Hbase by assumption. now rewrite andb_false_r.
        - simpl. rewrite andb_true_r. destruct Hs' as [-> | ->]; autorewrite with tb; [apply orb_false_r|].
          replace (i =? q) with false by lia. apply orb_false_r. }
      assert (Hld1 : N.lor (N.ldiff a (2 ^ q)) (2 ^ q) = N.lor b0 (2 ^ q) + j).
      { rewrite Hld, <- Eb1, <- Eb0. reflexivity. }
      unfold pair_of. rewrite Hld1, Hld. clear Hld1.
      rewrite !run_load. rewrite !run_store. simpl run1.
      assert (Hne : forall j', (j' < N.to_nat L)%nat -> b0 + j <> N.lor b0 (2 ^ q) + N.of_nat j').
      { intros j' Hj' E. rewrite <- Eb0 in E.
        pose proof (HbT g (N.of_nat j') Hg ltac:(lia)) as HT.
        change (N.lor (gbase (2 ^ q) c cv (g * L)) (2 ^ q)) with (N.lor b0 (2 ^ q)) in HT. rewrite <- HT in E.
        pose proof (Hbase _ Hit) as F. rewrite E in F. autorewrite with tb in F. rewrite N.eqb_refl, orb_true_r in F. discriminate. }
      destruct Hs' as [-> | ->].
      + assert (Ea : a = b0 + j) by (unfold a; fold L; rewrite N.lor_0_r; exact Eb0).
        assert (Eq : N.testbit a q = false) by (rewrite Ea, <- Eb0; now apply Hbase).
        rewrite Eq. rewrite Ea.
        rewrite store_mem_out.
        2:{ intros j' Hj'. rewrite length_map2C, !map_length, seq_length, Nat.min_id in Hj'. now apply Hne. }
        rewrite <- (N2Nat.id j) at 1. rewrite store_mem_in by (rewrite length_map2C, !map_length, seq_length; lia).
        rewrite nth_map2C by (rewrite !map_length, seq_length; lia).
        rewrite !nth_map_seq by lia. rewrite N2Nat.id. reflexivity.
      + assert (Ea : a = N.lor b0 (2 ^ q) + j) by (unfold a; fold L; exact Eb1).
        assert (Eq : N.testbit a q = true).
        { unfold a. autorewrite with tb. rewrite N.eqb_refl. apply orb_true_r. }
        rewrite Eq. rewrite Ea.
        rewrite <- (N2Nat.id j) at 1. rewrite store_mem_in by (rewrite length_map2C, !map_length, seq_length; lia).
        rewrite nth_map2C by (rewrite !map_length, seq_length; lia).
        rewrite !nth_map_seq by lia. rewrite N2Nat.id. reflexivity.
  Qed.

  Lemma single_simd l F m : 2 ^ l <= 2 ^ (n - popcount c) -> N.land c (2 ^ l - 1) = 0 ->
    kcomputes N.eqb (fun a => a <? D) (Kernel (N.shiftr D (popcount c) / 2 ^ l) (fun g =>
      let basis := N.lor (insert_zero_at_mask_positions (g * 2 ^ l) c) cv in
      lanes_in_row n D (2 ^ l) basis
      (load_lanes (N.to_nat (2 ^ l)) basis (fun v => store_lanes basis (map F v) Ret))))
      m (out n B c cv (fun a => F (m a)) m).
  Proof.
    intros Hspan Hlow. set (L := 2 ^ l).
    assert (E0 : N.lor 0 c = c) by apply N.lor_0_l.
    pose proof (base_lane n B 0 c cv l Hn HB (pow2_pos n) Hc (N.land_0_l c) Hcv) as HbL. rewrite E0 in HbL. specialize (HbL Hspan Hlow).
    unfold gcnt in HbL. rewrite E0 in HbL. fold L D in HbL.
    change (N.shiftr D (popcount c)) with (N.shiftr D (popcount (N.lor 0 c))).
    assert (Hl : l <= n) by (apply (pow_le_exp l (n - popcount c)); [exact Hspan|lia]).
    assert (Hrow : forall g p, g < N.shiftr D (popcount c) / L ->
      lanes_in_row n D L (N.lor (insert_zero_at_mask_positions (g * L) c) cv) p = p).
    { intros g p Hg. apply in_row_true; [assumption|]. pose proof (pow2_pos l) as HL0. destruct (HbL g 0 Hg HL0) as [_ Hz].
      unfold gbase in Hz. rewrite E0 in Hz. exact Hz. }
    apply (simd_out n B 0 c cv Hn HB (pow2_pos n) Hc (N.land_0_l c) Hcv l).
    - rewrite E0. exact Hspan.
    - rewrite E0. exact Hlow.
    - intros g Hg X. unfold gcnt in Hg. rewrite E0 in Hg. fold D L in Hg. rewrite (Hrow g _ Hg).
      assert (HX : forall j, (j < N.to_nat L)%nat -> X (N.lor (insert_zero_at_mask_positions (g * L) c) cv + N.of_nat j)).
      { intros j Hj. exists (N.of_nat j), 0. split; [fold L; lia|]. split; [reflexivity|]. rewrite N.lor_0_r.
        destruct (HbL g (N.of_nat j) Hg ltac:(lia)) as [Eb _]. fold L. rewrite Eb. unfold gbase. now rewrite E0. }
      apply foot_load; [exact HX|]. intros vs Hvs. apply foot_store; [|exact I].
      intros j Hj. rewrite map_length, Hvs in Hj. now apply HX.
    - intros g j s0 Hg Hj Hs a. rewrite N.land_0_r in Hs. subst s0. subst a. rewrite N.lor_0_r.
      unfold gcnt in Hg. rewrite E0 in Hg. fold D L in Hg. fold L in Hj. fold L. rewrite (Hrow g _ Hg).
      destruct (HbL g j Hg Hj) as [Eb _]. rewrite run_load, run_store. simpl. rewrite Eb.
      unfold gbase at 1. rewrite E0. rewrite <- (N2Nat.id j) at 1. rewrite store_mem_in by (rewrite !map_length, seq_length; lia).
      rewrite nth_map0 by (rewrite map_length, seq_length; lia). rewrite nth_map_seq by lia.
      rewrite N2Nat.id. unfold gbase. now rewrite E0.
  Qed.

  Lemma single_group (body : N -> cprog) F m :
    (forall it, body it = let i := N.lor (insert_zero_at_mask_positions it c) cv in Rd i (fun v => Wr i (F v) Ret)) ->
    kcomputes N.eqb (fun a => a <? D) (Kernel (N.shiftr D (popcount c)) body) m (out n B c cv (fun a => F (m a)) m).
  Proof.
    intros Hbody. change (popcount c) with (popcount (N.lor 0 c)).
    apply (group_out n B 0 c cv Hn HB (pow2_pos n) Hc (N.land_0_l c) Hcv (fun i => Rd i (fun v => Wr i (F v) Ret))).
    - intros it. rewrite Hbody, N.lor_0_l. reflexivity.
    - intros b _. cbn. split; [|intros _; split; [|exact I]]; exists 0; (split; [reflexivity|now rewrite N.lor_0_r]).
    - intros a. rewrite N.ldiff_0_r. cbn. unfold upd. now rewrite N.eqb_refl.
  Qed.
End Pair.

(** ** Two targets *)
Section Quad.
  Variables (n B p q c cv : N).
  Hypothesis Hn : n <= 64.
  Hypothesis HB : B * 2 ^ n <= two64.
  Hypothesis Hp : p < n.
  Hypothesis Hq : q < n.
  Hypothesis Hpq : p <> q.
  Hypothesis Hc : c < 2 ^ n.
  Hypothesis Hdp : N.testbit c p = false.
  Hypothesis Hdq : N.testbit c q = false.
  Hypothesis Hcv : N.land cv c = cv.
  Let D := B * 2 ^ n.
  Let t := N.lor (2 ^ p) (2 ^ q).
  Definition quad_of (F : N -> C -> C -> C -> C -> C) (m : state) (a : N) : C :=
    let b := N.ldiff a (N.lor (2 ^ p) (2 ^ q)) in
    F (N.b2n (N.testbit a p) + 2 * N.b2n (N.testbit a q)) (m b) (m (N.lor b (2 ^ p))) (m (N.lor b (2 ^ q))) (m (N.lor (N.lor b (2 ^ p)) (2 ^ q))).

  Lemma quad_group (P : N -> cprog) (body : N -> cprog) F m :
    (forall it, body it = P (N.lor (insert_zero_at_mask_positions it (N.lor t c)) cv)) ->
    (forall b, N.land b t = 0 ->
       let X a := a = b \/ a = N.lor b (2 ^ p) \/ a = N.lor b (2 ^ q) \/ a = N.lor (N.lor b (2 ^ p)) (2 ^ q) in foot X X (P b)) ->
    (forall b, let b1 := N.lor b (2 ^ p) in let b2 := N.lor b (2 ^ q) in let b3 := N.lor b1 (2 ^ q) in
       b <> b1 -> b <> b2 -> b <> b3 -> b1 <> b2 -> b1 <> b3 -> b2 <> b3 ->
       let row r := F r (m b) (m b1) (m b2) (m b3) in
       run1 N.eqb (P b) m b = row 0 /\ run1 N.eqb (P b) m b1 = row 1 /\
       run1 N.eqb (P b) m b2 = row 2 /\ run1 N.eqb (P b) m b3 = row 3) ->
    kcomputes N.eqb (fun a => a <? D) (Kernel (N.shiftr D (popcount (N.lor t c))) body) m (out n B c cv (quad_of F m) m).
  Proof.
    intros Hbody Hfoot Hrun.
    apply (group_out n B t c cv Hn HB (t2_lt n B p q c cv Hn HB Hp Hq Hpq Hc Hdp Hdq Hcv) Hc (t2_disj p q c Hdp Hdq) Hcv P body).
    - exact Hbody.
    - intros b Hb.
      assert (HX : forall a, a = b \/ a = N.lor b (2 ^ p) \/ a = N.lor b (2 ^ q) \/ a = N.lor (N.lor b (2 ^ p)) (2 ^ q) ->
        exists s, N.land s t = s /\ a = N.lor b s).
      { intros a [-> | [-> | [-> | ->]]].
        - exists 0. split; [reflexivity|now rewrite N.lor_0_r].
        - exists (2 ^ p). split; [|reflexivity]. unfold t. bitwise i. bool_solve || (cmp_cases; reflexivity).
        - exists (2 ^ q). split; [|reflexivity]. unfold t. bitwise i. cmp_cases; reflexivity.
        - exists t. split; [apply N.land_diag|]. unfold t. now rewrite N.lor_assoc. }
      eapply foot_mono; [exact HX|exact HX|]. apply Hfoot. assumption.
    - intros a. unfold quad_of. fold t. set (b := N.ldiff a t).
      assert (Hbt : N.land b t = 0) by (unfold b; bitwise i; bool_solve).
      destruct (two_neq p q Hpq b Hbt) as (N1 & N2 & N3 & N4 & N5 & N6).
      destruct (Hrun b N1 N2 N3 N4 N5 N6) as (R0 & R1 & R2 & R3).
      destruct (two_group_cases p q Hpq a) as [(E1 & E2 & Ea)|[(E1 & E2 & Ea)|[(E1 & E2 & Ea)|(E1 & E2 & Ea)]]];
        fold t in Ea; fold b in Ea; rewrite E1, E2; cbv zeta; simpl N.b2n.
      + rewrite Ea at 1. exact R0.
      + rewrite Ea at 1. exact R1.
      + rewrite Ea at 1. exact R2.
      + rewrite Ea at 1. exact R3.
  Qed.
End Quad.
