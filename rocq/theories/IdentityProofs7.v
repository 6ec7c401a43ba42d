From Verif Require Export IdentityProofs6.
From Verif Require Import Spec GatesProofs GatesProofs2 GatesProofs5 GatesProofs8 GatesProofs9.
Require Import Lia.
Local Open Scope N_scope.

Definition flipped (c x : N) : N := set_bit x c (negb (N.testbit x c)).
Lemma flipped_tb c x i : N.testbit (flipped c x) i = if i =? c then negb (N.testbit x c) else N.testbit x i.
Proof. apply set_bit_tb. Qed.
Lemma flipped_twice c x : flipped c (flipped c x) = x.
Proof. apply N.bits_inj. intros i. rewrite !flipped_tb, N.eqb_refl. destruct (N.eqb_spec i c) as [->|]; [apply negb_involutive|reflexivity]. Qed.
Lemma flipped_set c t x b : c <> t -> set_bit (flipped c x) t b = flipped c (set_bit x t b).
Proof.
  intros H. apply N.bits_inj. intros i. rewrite set_bit_tb, !flipped_tb, !set_bit_tb. replace (c =? t) with false by (symmetry; now apply N.eqb_neq).
  destruct (N.eqb_spec i t) as [->|]; [|reflexivity]. now replace (t =? c) with false by (symmetry; apply N.eqb_neq; congruence).
Qed.
Lemma flipped_gather c ts x : ~ In c ts -> gather ts (flipped c x) = gather ts x.
Proof.
  induction ts as [|t ts IH]; intros H; [reflexivity|]. cbn [gather]. rewrite IH by (intros K; apply H; now right). rewrite flipped_tb.
  now replace (t =? c) with false by (symmetry; apply N.eqb_neq; intros ->; apply H; now left).
Qed.
Lemma flipped_scatter c ts : forall j x, ~ In c ts -> scatter ts j (flipped c x) = flipped c (scatter ts j x).
Proof.
  induction ts as [|t ts IH]; intros j x H; [reflexivity|]. cbn [scatter]. rewrite flipped_set by (intros ->; apply H; now left). apply IH. intros K. apply H. now right.
Qed.
Lemma flipped_ctrl c v l1 l2 x : ~ In c (map fst l1) -> ~ In c (map fst l2) -> ctrl_ok (l1 ++ (c, v) :: l2) (flipped c x) = ctrl_ok (l1 ++ (c, negb v) :: l2) x.
Proof.
  intros H1 H2. assert (A : forall l, ~ In c (map fst l) -> ctrl_ok l (flipped c x) = ctrl_ok l x).
  { induction l as [|(d, w) l IH]; intros H; [reflexivity|]. cbn [map fst In] in H. unfold ctrl_ok in *. cbn [forallb fst snd]. rewrite IH by tauto. rewrite flipped_tb.
    now replace (d =? c) with false by (symmetry; apply N.eqb_neq; tauto). }
  assert (S : forall l m y, ctrl_ok (l ++ m) y = ctrl_ok l y && ctrl_ok m y) by (intros; apply forallb_app).
  rewrite !S, A by assumption. f_equal. change (Bool.eqb (N.testbit (flipped c x) c) v && ctrl_ok l2 (flipped c x) = Bool.eqb (N.testbit x c) (negb v) && ctrl_ok l2 x).
  rewrite A by assumption. f_equal. rewrite flipped_tb, N.eqb_refl. now destruct (N.testbit x c), v.
Qed.
Lemma x_plain c psi x : apply_mat [c] [] (pauli1 1) psi x = psi (flipped c x).
Proof.
  rewrite apply_mat_one. unfold ctrl_ok, flipped, set_bit. cbn [forallb]. destruct (N.testbit x c); cbn [N.b2n negb].
  - change (pauli1 1 1 0) with C1. change (pauli1 1 1 1) with C0. ring.
  - change (pauli1 1 0 0) with C0. change (pauli1 1 0 1) with C1. ring.
Qed.
Lemma x_between c v l1 l2 ts M psi x : ~ In c ts -> ~ In c (map fst l1) -> ~ In c (map fst l2) ->
  apply_mat [c] [] (pauli1 1) (apply_mat ts (l1 ++ (c, v) :: l2) M (apply_mat [c] [] (pauli1 1) psi)) x = apply_mat ts (l1 ++ (c, negb v) :: l2) M psi x.
Proof.
  intros Ht H1 H2. rewrite x_plain. unfold apply_mat at 1. rewrite flipped_ctrl by assumption. unfold apply_mat at 3. destruct (ctrl_ok _ x).
  - apply Csum_ext. intros j _. rewrite x_plain, flipped_gather, flipped_scatter, flipped_twice by assumption. reflexivity.
  - rewrite x_plain, flipped_twice. reflexivity.
Qed.
Lemma control_value vf k k' c v l1 l2 g g' gx n B L psi : call_typed k -> call_typed k' -> make vf k = Ok g -> make vf k' = Ok g' ->
  call_targets k' = call_targets k -> call_matrix k' = call_matrix k -> call_controls k = l1 ++ (c, v) :: l2 -> call_controls k' = l1 ++ (c, negb v) :: l2 ->
  make vf (Call1 GX c [] []) = Ok gx -> Forall (fun q => q < n) (call_operands k) -> sizes_ok n B L ->
  (exists r, in_turn n B L [gx; g; gx] psi r) /\ (exists r, in_turn n B L [g'] psi r) /\
  forall r r', in_turn n B L [gx; g; gx] psi r -> in_turn n B L [g'] psi r' -> forall x, x < B * 2 ^ n -> r x = r' x.
Proof.
  intros T T' E E' Et Em Ec Ec' Ex HF Hs. pose proof (call_wf_ops vf k g n T E HF) as Hwf.
  assert (HF' : Forall (fun q => q < n) (call_operands k')) by (unfold call_operands in *; rewrite Et, Ec'; rewrite Ec in HF; rewrite map_app in *; exact HF).
  pose proof (proj1 Hwf) as ND. rewrite Ec, map_app in ND. cbn [map fst] in ND. rewrite app_assoc in ND. apply NoDup_remove_2 in ND. rewrite !in_app_iff in ND.
  assert (Hc : c < n). { pose proof HF as K. rewrite Forall_forall in K. apply K. unfold call_operands. rewrite Ec, map_app, !in_app_iff. right. right. now left. }
  assert (Ux : forall p, updating n B L gx p (apply_mat [c] [] (pauli1 1) p)) by (intros p; apply (updating_call vf (Call1 GX c [] [])); try exact I; try assumption; repeat constructor; assumption).
  pose proof (fun p => updating_call vf k g n B L p T E HF Hs) as U. pose proof (updating_call vf k' g' n B L psi T' E' HF' Hs) as U'. rewrite Et, Em, Ec' in U'.
  pose proof (wf_NoDup _ _ _ Hwf) as NT. pose proof (wf_lt _ _ _ Hwf) as FT. rewrite Ec in U.
  assert (NC : NoDup [c]) by (repeat constructor; intros []). assert (FC : Forall (fun q => q < n) [c]) by (repeat constructor; assumption).
  split; [|split].
  - destruct (updating_exists _ _ _ _ _ _ (Ux psi)) as (r1 & R1). destruct (updating_exists _ _ _ _ _ _ (U r1)) as (r2 & R2). destruct (updating_exists _ _ _ _ _ _ (Ux r2)) as (r3 & R3).
    exists r3. econstructor; [exact R1|]. econstructor; [exact R2|]. econstructor; [exact R3|constructor].
  - destruct (updating_exists _ _ _ _ _ _ U') as (r & R). exists r. econstructor; [exact R|constructor].
  - intros r r' H H' x Hx. inversion H as [|? ? ? p1 ? R1 H1]; subst. inversion H1 as [|? ? ? p2 ? R2 H2]; subst. inversion H2 as [|? ? ? p3 ? R3 H3]; subst. inversion H3; subst.
    inversion H' as [|? ? ? q1 ? Q1 H4]; subst. inversion H4; subst.
    rewrite (updating_result _ _ _ _ _ _ _ _ (Ux p2) R3 Hx), (updating_result _ _ _ _ _ _ _ _ U' Q1 Hx). rewrite <- (x_between c v l1 l2) by tauto.
    apply (apply_mat_local_flat _ _ _ _ _ n B x NC FC); [|exact Hx]. intros y Hy. rewrite (updating_result _ _ _ _ _ _ _ _ (U p1) R2 Hy).
    apply (apply_mat_local_flat _ _ _ _ _ n B y NT FT); [|exact Hy]. intros w Hw. exact (updating_result _ _ _ _ _ _ _ _ (Ux psi) R1 Hw).
Qed.
