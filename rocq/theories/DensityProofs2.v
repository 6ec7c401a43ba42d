(** Every density-matrix kernel computes M rho M^dagger. *)
From Verif Require Export DensityProofs.
From Coq Require Import ZifyBool ZifyN ZifyNat Permutation FunctionalExtensionality.

(** ** Groups *)
Lemma one_group_ok q P M :
  (forall b, let S a := a = b \/ a = N.lor b (2 ^ q) in foot S S (P b)) ->
  (forall m b, b <> N.lor b (2 ^ q) ->
     run1 N.eqb (P b) m b = (M 0 0 * m b + M 0 1 * m (N.lor b (2 ^ q)))%C /\
     run1 N.eqb (P b) m (N.lor b (2 ^ q)) = (M 1 0 * m b + M 1 1 * m (N.lor b (2 ^ q)))%C) ->
  group_ok (2 ^ q) [q] P M.
Proof.
  intros Hf Hr. split.
  - intros b _ S. eapply foot_mono; [| |apply Hf]; intros a [-> | ->]; unfold S.
    + exists 0; split; [reflexivity|now rewrite N.lor_0_r].
    + exists (2 ^ q); split; [apply N.land_diag|reflexivity].
    + exists 0; split; [reflexivity|now rewrite N.lor_0_r].
    + exists (2 ^ q); split; [apply N.land_diag|reflexivity].
  - intros m a. pose proof (one_target_sum m M q a) as Hs. rewrite bits_pow2 in Hs. rewrite Hs.
    destruct (Hr m (N.ldiff a (2 ^ q)) (ldiff_pow2_neq a q)) as [H0 H1].
    destruct (pow2_group_cases a q) as [[E Ea]|[E Ea]]; rewrite E; cbn [N.b2n].
    + rewrite Ea at 2. exact H0.
    + rewrite Ea at 2. exact H1.
Qed.
Lemma two_group_ok p q P M : p <> q ->
  (forall b, let S a := a = b \/ a = N.lor b (2 ^ p) \/ a = N.lor b (2 ^ q) \/ a = N.lor (N.lor b (2 ^ p)) (2 ^ q) in foot S S (P b)) ->
  (forall m b, let b1 := N.lor b (2 ^ p) in let b2 := N.lor b (2 ^ q) in let b3 := N.lor b1 (2 ^ q) in
     b <> b1 -> b <> b2 -> b <> b3 -> b1 <> b2 -> b1 <> b3 -> b2 <> b3 ->
     let row r := (M r 0 * m b + M r 1 * m b1 + M r 2 * m b2 + M r 3 * m b3)%C in
     run1 N.eqb (P b) m b = row 0 /\ run1 N.eqb (P b) m b1 = row 1 /\
     run1 N.eqb (P b) m b2 = row 2 /\ run1 N.eqb (P b) m b3 = row 3) ->
  group_ok (N.lor (2 ^ p) (2 ^ q)) [p; q] P M.
Proof.
  intros Hpq Hf Hr. set (t := N.lor (2 ^ p) (2 ^ q)). split.
  - intros b _ S.
    assert (HX : forall a, a = b \/ a = N.lor b (2 ^ p) \/ a = N.lor b (2 ^ q) \/ a = N.lor (N.lor b (2 ^ p)) (2 ^ q) -> S a).
    { intros a [-> | [-> | [-> | ->]]]; unfold S.
      - exists 0. split; [reflexivity|now rewrite N.lor_0_r].
      - exists (2 ^ p). split; [|reflexivity]. unfold t. bitwise i. bool_solve || (cmp_cases; reflexivity).
      - exists (2 ^ q). split; [|reflexivity]. unfold t. bitwise i. cmp_cases; reflexivity.
      - exists t. split; [apply N.land_diag|]. unfold t. now rewrite N.lor_assoc. }
    eapply foot_mono; [exact HX|exact HX|apply Hf].
  - intros m a. rewrite two_target_sum by assumption. fold t. set (b := N.ldiff a t).
    assert (Hbt : N.land b t = 0) by (unfold b; bitwise i; bool_solve).
    destruct (two_neq p q Hpq b Hbt) as (N1 & N2 & N3 & N4 & N5 & N6).
    destruct (Hr m b N1 N2 N3 N4 N5 N6) as (R0 & R1 & R2 & R3).
    destruct (two_group_cases p q Hpq a) as [(E1 & E2 & Ea)|[(E1 & E2 & Ea)|[(E1 & E2 & Ea)|(E1 & E2 & Ea)]]];
      fold t in Ea; fold b in Ea; rewrite E1, E2; cbv zeta; cbn [N.b2n].
    + rewrite Ea at 1. exact R0.
    + rewrite Ea at 1. exact R1.
    + rewrite Ea at 1. exact R2.
    + rewrite Ea at 1. exact R3.
Qed.
Lemma zero_group_ok s : group_ok 0 [] (fun b => mul_at b s Ret) (fun _ _ => s).
Proof.
  split.
  - intros b _ S. unfold mul_at. assert (S b) by (exists 0; split; [reflexivity|now rewrite N.lor_0_r]). cbn. auto.
  - intros m a. rewrite N.ldiff_0_r. unfold mul_at. cbn [run1]. unfold upd. rewrite N.eqb_refl.
    change (2 ^ N.of_nat (length (@nil N))) with 1. rewrite Csum_1. cbn [scatter]. ring.
Qed.

Ltac solve_foot := intros b S; subst S; unfold mul_at, swap_at; cbn; repeat split; auto.
Ltac solve_one := intros m b Hne; unfold mul_at, swap_at; cbn [run1]; unfold upd; upd_simpl; split; unfold mat2, conjm; cbn; try reflexivity; try ring.

(** ** One control or none: explicit blocks.  [R a k]: the row with the control active iff [a] and the target bit [k]. *)
Definition mix (M : matrix) (a k : bool) (f : bool -> C) : C :=
  if a then (M (N.b2n k) 0 * f false + M (N.b2n k) 1 * f true)%C else f k.
Definition sel (t b : N) (k : bool) : N := if k then N.lor b t else b.
Definition sel2 (t act ina b : N) (a k : bool) : N := sel t (N.lor b (if a then act else ina)) k.

Lemma sel_eqb q b k k' : N.testbit b q = false -> (sel (2 ^ q) b k =? sel (2 ^ q) b k') = Bool.eqb k k'.
Proof.
  intros Hb. assert (Hne : b <> N.lor b (2 ^ q)).
  { intros E. pose proof (eq_tb _ _ E q) as F. rewrite N.lor_spec, pow2_tb, N.eqb_refl, Hb in F. discriminate. }
  destruct k, k'; cbn [sel Bool.eqb]; [apply N.eqb_refl| | |apply N.eqb_refl]; apply N.eqb_neq; congruence.
Qed.
Lemma sel_case q x : x = sel (2 ^ q) (N.ldiff x (2 ^ q)) (N.testbit x q).
Proof. destruct (pow2_group_cases x q) as [[-> E]|[-> E]]; exact E. Qed.
Lemma one_apply q cs M psi x : apply_mat [q] cs M psi x = mix M (ctrl_ok cs x) (N.testbit x q)
  (fun k => psi (sel (2 ^ q) (N.ldiff x (2 ^ q)) k)).
Proof.
  unfold apply_mat, mix. destruct (ctrl_ok cs x).
  - pose proof (one_target_sum psi M q x) as Hs. rewrite bits_pow2 in Hs. exact Hs.
  - rewrite <- sel_case. reflexivity.
Qed.

Lemma block2_computes n q (Q : N -> N -> dprog) body M m : n < 32 -> q < n ->
  (forall g, body g = Q (insert_zero_at_mask_positions (g / n_groups n (2 ^ q)) (2 ^ q))
                        (insert_zero_at_mask_positions (g mod n_groups n (2 ^ q)) (2 ^ q))) ->
  (forall br bc, let S a := exists k l, a = (sel (2 ^ q) br k, sel (2 ^ q) bc l) in foot S S (Q br bc)) ->
  (forall br bc, (forall k k', (sel (2 ^ q) br k =? sel (2 ^ q) br k') = Bool.eqb k k') ->
     (forall k k', (sel (2 ^ q) bc k =? sel (2 ^ q) bc k') = Bool.eqb k k') ->
     forall k l, run1 pair_eqb (Q br bc) m (sel (2 ^ q) br k, sel (2 ^ q) bc l) =
       mix M true k (fun k' => mix (conjm M) true l (fun l' => m (sel (2 ^ q) br k', sel (2 ^ q) bc l')))) ->
  kcomputes_list pair_eqb (d_valid n) [Kernel (mul64 (n_groups n (2 ^ q)) (n_groups n (2 ^ q))) body] m
    (inside n (conjugated [q] [] M m) m).
Proof.
  intros Hn Hq Hb Hf Hr. eapply one_pass; [|reflexivity].
  apply (block_computes n (2 ^ q) Hn (N.pow_lt_mono_r 2 q n ltac:(lia) Hq) Q); [exact Hb| |].
  - intros br bc _ _ S.
    assert (HS : forall a, (exists k l, a = (sel (2 ^ q) br k, sel (2 ^ q) bc l)) -> S a).
    { intros a (k & l & ->). exists (if k then 2 ^ q else 0), (if l then 2 ^ q else 0). split; [|split].
      - destruct k; [apply N.land_diag|reflexivity].
      - destruct l; [apply N.land_diag|reflexivity].
      - destruct k, l; cbn [sel]; rewrite ?N.lor_0_r; reflexivity. }
    eapply foot_mono; [exact HS|exact HS|apply Hf].
  - intros i j. assert (Hz : forall x, N.testbit (N.ldiff x (2 ^ q)) q = false).
    { intros x. rewrite N.ldiff_spec, pow2_tb, N.eqb_refl. apply andb_false_r. }
    specialize (Hr (N.ldiff i (2 ^ q)) (N.ldiff j (2 ^ q)) (fun k k' => sel_eqb q _ k k' (Hz i)) (fun k k' => sel_eqb q _ k k' (Hz j))
                   (N.testbit i q) (N.testbit j q)).
    rewrite <- !sel_case in Hr. rewrite Hr. unfold conjugated. cbn [fst snd]. rewrite one_apply. cbn [ctrl_ok forallb].
    unfold mix at 1 3. now rewrite !one_apply.
Qed.

(** The two masks of a single control. *)
Definition one_ctrl (p : N) (v : bool) : N := if v then 2 ^ p else 0.
Lemma sel2_eqb p q v b a k a' k' : p <> q -> N.testbit b p = false -> N.testbit b q = false ->
  (sel2 (2 ^ q) (one_ctrl p v) (one_ctrl p (negb v)) b a k =? sel2 (2 ^ q) (one_ctrl p v) (one_ctrl p (negb v)) b a' k')
  = Bool.eqb a a' && Bool.eqb k k'.
Proof.
  intros Hpq Hp Hq. unfold sel2.
  assert (Tq : forall a, N.testbit (N.lor b (if a : bool then one_ctrl p v else one_ctrl p (negb v))) q = false).
  { intros x. rewrite N.lor_spec, Hq. assert (E : (q =? p) = false) by (apply N.eqb_neq; congruence).
    destruct x, v; cbn [one_ctrl negb]; rewrite ?pow2_tb, ?E, ?N.bits_0; reflexivity. }
  assert (Tp : forall a, N.testbit (N.lor b (if a : bool then one_ctrl p v else one_ctrl p (negb v))) p = Bool.eqb a v).
  { intros x. rewrite N.lor_spec, Hp. destruct x, v; cbn [one_ctrl negb]; rewrite ?pow2_tb, ?N.eqb_refl, ?N.bits_0; reflexivity. }
  destruct (Bool.eqb_spec a a') as [->|Ha]; cbn [andb]; [apply sel_eqb, Tq|].
  apply N.eqb_neq. intros E. apply Ha.
  pose proof (eq_tb _ _ E p) as F.
  assert (Ts : forall x k, N.testbit (sel (2 ^ q) x k) p = N.testbit x p).
  { intros x [|]; [|reflexivity]. cbn [sel]. rewrite N.lor_spec, pow2_tb.
    assert (E' : (p =? q) = false) by now apply N.eqb_neq. now rewrite E', orb_false_r. }
  rewrite !Ts, !Tp in F. destruct a, a', v; cbn in F; congruence.
Qed.
Lemma sel2_case p q v x : p <> q ->
  x = sel2 (2 ^ q) (one_ctrl p v) (one_ctrl p (negb v)) (N.ldiff x (N.lor (2 ^ q) (2 ^ p))) (Bool.eqb (N.testbit x p) v) (N.testbit x q).
Proof.
  intros Hpq. unfold sel2, sel, one_ctrl.
  destruct (N.testbit x p) eqn:Ep, (N.testbit x q) eqn:Eq, v; cbn [Bool.eqb negb]; bitwise i;
    destruct (N.eqb_spec i p), (N.eqb_spec i q); subst; rewrite ?Ep, ?Eq, ?N.bits_0; cmp_cases; try congruence; bool_solve.
Qed.
Lemma sel2_ldiff p q v x k : p <> q -> Bool.eqb (N.testbit x p) v = true ->
  sel (2 ^ q) (N.ldiff x (2 ^ q)) k = sel2 (2 ^ q) (one_ctrl p v) (one_ctrl p (negb v)) (N.ldiff x (N.lor (2 ^ q) (2 ^ p))) true k.
Proof.
  intros Hpq E. apply Bool.eqb_prop in E. unfold sel2. f_equal. rewrite <- E. unfold one_ctrl.
  destruct (N.testbit x p) eqn:Ep; bitwise i; destruct (N.eqb_spec i p), (N.eqb_spec i q); subst; rewrite ?Ep, ?N.bits_0; cmp_cases; try congruence; bool_solve.
Qed.
Lemma ctrl_apply p q v M psi x : p <> q ->
  let R := sel2 (2 ^ q) (one_ctrl p v) (one_ctrl p (negb v)) (N.ldiff x (N.lor (2 ^ q) (2 ^ p))) in
  apply_mat [q] [(p, v)] M psi x = mix M (Bool.eqb (N.testbit x p) v) (N.testbit x q) (fun k => psi (R (Bool.eqb (N.testbit x p) v) k)).
Proof.
  intros Hpq R. rewrite one_apply. unfold ctrl_ok. cbn [forallb fst snd]. rewrite andb_true_r.
  destruct (Bool.eqb (N.testbit x p) v) eqn:E; unfold mix.
  - rewrite !(sel2_ldiff p q v x) by assumption. reflexivity.
  - rewrite <- sel_case. unfold R. rewrite <- E at 1. rewrite <- sel2_case by assumption. reflexivity.
Qed.

Lemma block4_computes n p q v (Q : (bool -> bool -> N) -> (bool -> bool -> N) -> dprog) body M m : n < 32 -> q < n -> p < n -> p <> q ->
  let t := N.lor (2 ^ q) (2 ^ p) in let X := n_groups n t in
  let R := sel2 (2 ^ q) (one_ctrl p v) (one_ctrl p (negb v)) in
  (forall g, body g = Q (R (insert_zero_at_mask_positions (g / X) t)) (R (insert_zero_at_mask_positions (g mod X) t))) ->
  (forall r c, let S a := exists x k y l, a = (r x k, c y l) in foot S S (Q r c)) ->
  (forall r c, (forall x k x' k', (r x k =? r x' k') = Bool.eqb x x' && Bool.eqb k k') ->
     (forall x k x' k', (c x k =? c x' k') = Bool.eqb x x' && Bool.eqb k k') ->
     forall x k y l, run1 pair_eqb (Q r c) m (r x k, c y l) =
       mix M x k (fun k' => mix (conjm M) y l (fun l' => m (r x k', c y l')))) ->
  kcomputes_list pair_eqb (d_valid n) [Kernel (mul64 X X) body] m (inside n (conjugated [q] [(p, v)] M m) m).
Proof.
  intros Hn Hq Hp Hpq t X R Hb Hf Hr. eapply one_pass; [|reflexivity].
  assert (Ht : t < 2 ^ n) by (apply lor_u64_pow2; apply N.pow_lt_mono_r; lia).
  apply (block_computes n t Hn Ht (fun br bc => Q (R br) (R bc))); [exact Hb| |].
  - intros br bc _ _ S.
    assert (HR : forall b x k, exists s, N.land s t = s /\ R b x k = N.lor b s).
    { intros b x k. exists (N.lor (if x then one_ctrl p v else one_ctrl p (negb v)) (if k then 2 ^ q else 0)). split.
      - unfold t, one_ctrl. destruct x, k, v; cbn [negb]; bitwise i; cmp_cases; bool_solve.
      - unfold R, sel2, sel. destruct k; [|now rewrite N.lor_0_r]. now rewrite N.lor_assoc. }
    assert (HS : forall a, (exists x k y l, a = (R br x k, R bc y l)) -> S a).
    { intros a (x & k & y & l & ->). destruct (HR br x k) as (s & Hs & ->). destruct (HR bc y l) as (s' & Hs' & ->).
      exists s, s'. auto. }
    eapply foot_mono; [exact HS|exact HS|apply Hf].
  - intros i j.
    assert (Hz : forall x, N.testbit (N.ldiff x t) q = false /\ N.testbit (N.ldiff x t) p = false).
    { intros x. unfold t. rewrite !N.ldiff_spec, !N.lor_spec, !pow2_tb, !N.eqb_refl, orb_true_r. cbn. now rewrite !andb_false_r. }
    specialize (Hr (R (N.ldiff i t)) (R (N.ldiff j t))
      (fun x k x' k' => sel2_eqb p q v _ x k x' k' Hpq (proj2 (Hz i)) (proj1 (Hz i)))
      (fun x k x' k' => sel2_eqb p q v _ x k x' k' Hpq (proj2 (Hz j)) (proj1 (Hz j)))
      (Bool.eqb (N.testbit i p) v) (N.testbit i q) (Bool.eqb (N.testbit j p) v) (N.testbit j q)).
    assert (Ei : R (N.ldiff i t) (Bool.eqb (N.testbit i p) v) (N.testbit i q) = i) by (symmetry; now apply sel2_case).
    assert (Ej : R (N.ldiff j t) (Bool.eqb (N.testbit j p) v) (N.testbit j q) = j) by (symmetry; now apply sel2_case).
    rewrite Ei, Ej in Hr. rewrite Hr. clear Hr.
    unfold conjugated. cbn [fst snd]. rewrite (ctrl_apply p q v) by assumption. cbv zeta. fold t. fold R.
    unfold mix at 1 3. destruct (Bool.eqb (N.testbit i p) v); rewrite !(ctrl_apply p q v) by assumption; reflexivity.
Qed.
