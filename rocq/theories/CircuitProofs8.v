(** C45: noise. *)
From Verif Require Export CircuitProofs7.
From Coq Require Import ZifyBool ZifyN ZifyNat Permutation Lra.

Lemma noise1_ok vf k q : q < 64 -> noise1 vf k q = Ok (CElem (true, EStd k (GBase (2 ^ q) 0 0))).
Proof.
  intros Hq. assert (Ht : vector_to_mask [q] = Ok (2 ^ q)).
  { unfold vector_to_mask. cbn [vector_to_mask_aux]. replace (64 <=? q) with false by lia. rewrite N.bits_0. now rewrite shl64_one, N.lor_0_l by assumption. }
  unfold noise1. cbn -[vector_to_mask make_base]. unfold create, mask_args. destruct vf; cbn -[vector_to_mask make_base]; rewrite Ht; cbn -[make_base];
    unfold make_base; rewrite N.land_0_r; reflexivity.
Qed.
Lemma noise1_throws vf k q : 64 <= q -> noise1 vf k q = Throw.
Proof.
  intros Hq. assert (Ht : vector_to_mask [q] = Throw).
  { unfold vector_to_mask. cbn [vector_to_mask_aux]. now replace (64 <=? q) with true by lia. }
  unfold noise1. cbn -[vector_to_mask make_base]. unfold create, mask_args. destruct vf; cbn -[vector_to_mask make_base]; rewrite Ht; reflexivity.
Qed.
Lemma noise1_stands k q : q < 64 -> stands (CElem (true, EStd k (GBase (2 ^ q) 0 0))) (act_of (Call1 k q [] [])).
Proof.
  intros Hq. apply stands_act. apply (acts_factory true); [exact I|]. pose proof (noise1_ok true k q Hq) as H. unfold noise1 in H.
  inv_bind H. injection H as <-. exact E.
Qed.
Lemma noise_I_stands : stands noise_I (act_of CallI).
Proof. apply stands_act. apply (acts_factory true); [exact I|reflexivity]. Qed.
Lemma noise_made dist (gs : list tgate) ss : Forall2 stands (map CElem gs) ss -> length dist = length gs -> dist <> [] ->
  (Forall (fun p => 0 <= p <= 1)%R dist -> Rsuml (fun p => p) dist = 1%R ->
     exists g, make_probabilistic dist (map CElem gs) = Ok g /\ stands g (Choice (combine dist ss))) /\
  (~ Forall (fun p => 0 <= p <= 1)%R dist -> make_probabilistic dist (map CElem gs) = Throw).
Proof.
  intros H2 Hl Hne. destruct (factory_accepts dist (map CElem gs) ss H2) as [Ha Hr]. split.
  - intros Hp Hs. destruct Ha as (g & s & E & _).
    + split; [assumption|]. rewrite map_length. split; [assumption|]. split; [assumption|]. split.
      * clear. induction gs as [|g gs IH]; [reflexivity|exact IH].
      * replace (Rsuml (fun dg => (fst dg * mass (snd dg))%R) (combine dist (map CElem gs))) with 1%R.
        { rewrite Rminus_diag_eq, Rabs_R0 by reflexivity. left. apply Rinv_0_lt_compat. lra. }
        rewrite <- Hs. clear - Hl. revert gs Hl. induction dist as [|d dist IH]; intros [|g gs] Hl; simpl in Hl; try discriminate; [reflexivity|].
        unfold Rsuml in *. cbn [map combine fold_right fst snd]. rewrite <- (IH gs) by lia. destruct g as [t g]. cbn [mass]. ring.
    + exists g. split; [exact E|]. rewrite (factory_elementary _ _ _ E). apply stands_choice; [|now rewrite map_length|exact H2].
      split; [assumption|]. split; [eapply Forall_impl; [|exact Hp]; simpl; intros; lra|]. rewrite Hs, Rminus_diag_eq, Rabs_R0 by reflexivity. left. apply Rinv_0_lt_compat. lra.
  - intros Hno. apply Hr. intros (_ & _ & H & _). contradiction.
Qed.
Ltac each := cbn [map]; repeat first [apply Forall2_nil | apply Forall2_cons | now apply noise1_stands | apply noise_I_stands].
Ltac unit_list := repeat (apply Forall_cons; [nra|]); apply Forall_nil.
Ltac not_unit H := intros HF; apply H; repeat match goal with HF : Forall _ (_ :: _) |- _ => inversion HF; clear HF; subst end; nra.
Lemma bit_flip_ok vf q p : q < 64 -> (0 <= p <= 1)%R -> exists g, make_bit_flip vf q p = Ok g /\
  stands g (Choice [(p, act_of (Call1 GX q [] [])); (1 - p, act_of CallI)]%R).
Proof.
  intros Hq Hp. unfold make_bit_flip. rewrite noise1_ok by assumption. cbn [bindR].
  apply (proj1 (noise_made [p; 1 - p]%R [(true, EStd GX (GBase (2 ^ q) 0 0)); (true, EI)] [act_of (Call1 GX q [] []); act_of CallI]
    ltac:(each) eq_refl ltac:(discriminate))); [unit_list|unfold Rsuml; simpl; ring].
Qed.
Lemma dephasing_ok vf q p : q < 64 -> (0 <= p <= 1)%R -> exists g, make_dephasing vf q p = Ok g /\
  stands g (Choice [(p, act_of (Call1 GZ q [] [])); (1 - p, act_of CallI)]%R).
Proof.
  intros Hq Hp. unfold make_dephasing. rewrite noise1_ok by assumption. cbn [bindR].
  apply (proj1 (noise_made [p; 1 - p]%R [(true, EStd GZ (GBase (2 ^ q) 0 0)); (true, EI)] [act_of (Call1 GZ q [] []); act_of CallI]
    ltac:(each) eq_refl ltac:(discriminate))); [unit_list|unfold Rsuml; simpl; ring].
Qed.
Lemma both_ok vf q p : q < 64 -> (0 <= p <= 1)%R -> exists g, make_bit_flip_and_dephasing vf q p = Ok g /\
  stands g (Choice [(p * p, act_of (Call1 GY q [] [])); (p * (1 - p), act_of (Call1 GX q [] [])); (p * (1 - p), act_of (Call1 GZ q [] [])); ((1 - p) * (1 - p), act_of CallI)]%R).
Proof.
  intros Hq Hp. unfold make_bit_flip_and_dephasing. rewrite !noise1_ok by assumption. cbn [bindR].
  apply (proj1 (noise_made [p * p; p * (1 - p); p * (1 - p); (1 - p) * (1 - p)]%R
    [(true, EStd GY (GBase (2 ^ q) 0 0)); (true, EStd GX (GBase (2 ^ q) 0 0)); (true, EStd GZ (GBase (2 ^ q) 0 0)); (true, EI)]
    [act_of (Call1 GY q [] []); act_of (Call1 GX q [] []); act_of (Call1 GZ q [] []); act_of CallI]
    ltac:(each) eq_refl ltac:(discriminate))); [unit_list|unfold Rsuml; simpl; ring].
Qed.
Lemma depolarizing_ok vf q p : q < 64 -> (0 <= p <= 1)%R -> exists g, make_depolarizing vf q p = Ok g /\
  stands g (Choice [(p / 3, act_of (Call1 GX q [] [])); (p / 3, act_of (Call1 GY q [] [])); (p / 3, act_of (Call1 GZ q [] [])); (1 - p, act_of CallI)]%R).
Proof.
  intros Hq Hp. unfold make_depolarizing. rewrite !noise1_ok by assumption. cbn [bindR].
  apply (proj1 (noise_made [p / 3; p / 3; p / 3; 1 - p]%R
    [(true, EStd GX (GBase (2 ^ q) 0 0)); (true, EStd GY (GBase (2 ^ q) 0 0)); (true, EStd GZ (GBase (2 ^ q) 0 0)); (true, EI)]
    [act_of (Call1 GX q [] []); act_of (Call1 GY q [] []); act_of (Call1 GZ q [] []); act_of CallI]
    ltac:(each) eq_refl ltac:(discriminate))); [unit_list|unfold Rsuml; simpl; field].
Qed.
Lemma noise_rejected vf q p : 64 <= q \/ ~ (0 <= p <= 1)%R ->
  make_bit_flip vf q p = Throw /\ make_dephasing vf q p = Throw /\ make_bit_flip_and_dephasing vf q p = Throw /\ make_depolarizing vf q p = Throw.
Proof.
  intros H. unfold make_bit_flip, make_dephasing, make_bit_flip_and_dephasing, make_depolarizing.
  destruct (N.leb_spec 64 q) as [Hq|Hq]; [rewrite !noise1_throws by assumption; auto|]. destruct H as [H|H]; [lia|].
  rewrite !noise1_ok by assumption. cbn [bindR]. unfold noise_I. repeat split.
  - apply (proj2 (noise_made [p; 1 - p]%R [(true, EStd GX (GBase (2 ^ q) 0 0)); (true, EI)] [act_of (Call1 GX q [] []); act_of CallI]
      ltac:(each) eq_refl ltac:(discriminate))). not_unit H.
  - apply (proj2 (noise_made [p; 1 - p]%R [(true, EStd GZ (GBase (2 ^ q) 0 0)); (true, EI)] [act_of (Call1 GZ q [] []); act_of CallI]
      ltac:(each) eq_refl ltac:(discriminate))). not_unit H.
  - apply (proj2 (noise_made [p * p; p * (1 - p); p * (1 - p); (1 - p) * (1 - p)]%R
      [(true, EStd GY (GBase (2 ^ q) 0 0)); (true, EStd GX (GBase (2 ^ q) 0 0)); (true, EStd GZ (GBase (2 ^ q) 0 0)); (true, EI)]
      [act_of (Call1 GY q [] []); act_of (Call1 GX q [] []); act_of (Call1 GZ q [] []); act_of CallI]
      ltac:(each) eq_refl ltac:(discriminate))). not_unit H.
  - apply (proj2 (noise_made [p / 3; p / 3; p / 3; 1 - p]%R
      [(true, EStd GX (GBase (2 ^ q) 0 0)); (true, EStd GY (GBase (2 ^ q) 0 0)); (true, EStd GZ (GBase (2 ^ q) 0 0)); (true, EI)]
      [act_of (Call1 GX q [] []); act_of (Call1 GY q [] []); act_of (Call1 GZ q [] []); act_of CallI]
      ltac:(each) eq_refl ltac:(discriminate))). not_unit H.
Qed.
(** the combined noise is bit flip followed by dephasing *)
Lemma on_qubit_one k q psi x : on_qubit k q psi x =
  (std1_textbook k (N.b2n (N.testbit x q)) 0 * psi (N.clearbit x q) + std1_textbook k (N.b2n (N.testbit x q)) 1 * psi (N.setbit x q))%C.
Proof. unfold on_qubit. now rewrite apply_mat_one. Qed.
Lemma noise_composition q p psi x y :
  mixed [(p * p, on_qubit GY q); (p * (1 - p), on_qubit GX q); (p * (1 - p), on_qubit GZ q); ((1 - p) * (1 - p), nothing)]%R psi x y =
  mixed (both [(p, on_qubit GX q); (1 - p, nothing)]%R [(p, on_qubit GZ q); (1 - p, nothing)]%R) psi x y.
Proof.
  assert (EX : forall phi z, on_qubit GX q phi z = phi (N.lxor z (2 ^ q))).
  { intros phi z. rewrite on_qubit_one. destruct (N.testbit z q) eqn:E; cbn [N.b2n std1_textbook pauli1];
      change (1 =? 1) with true; change (0 =? 1) with false; change (1 =? 0) with false; change (0 =? 0) with true; cbn iota.
    - rewrite flip_clear by assumption. ring.
    - rewrite flip_set by assumption. ring. }
  assert (EZ : forall phi z, on_qubit GZ q phi z = ((if N.testbit z q then - C1 else C1) * phi z)%C).
  { intros phi z. rewrite on_qubit_one. destruct (N.testbit z q) eqn:E; cbn [N.b2n std1_textbook pauli1];
      change (1 =? 1) with true; change (0 =? 1) with false; change (1 =? 0) with false; change (0 =? 0) with true; cbn iota.
    - rewrite setbit_same by assumption. ring.
    - rewrite clearbit_same by assumption. ring. }
  assert (EY : forall phi z, on_qubit GY q phi z = ((if N.testbit z q then Ci else - Ci) * phi (N.lxor z (2 ^ q)))%C).
  { intros phi z. rewrite on_qubit_one. destruct (N.testbit z q) eqn:E; cbn [N.b2n std1_textbook pauli1];
      change (1 =? 1) with true; change (0 =? 1) with false; change (1 =? 0) with false; change (0 =? 0) with true; cbn iota.
    - rewrite flip_clear by assumption. ring.
    - rewrite flip_set by assumption. ring. }
  unfold mixed, both, Csuml. cbn [flat_map map fold_right fst snd app]. unfold nothing.
  rewrite ?EX, ?EZ, ?EY, ?EX. generalize (psi (N.lxor x (2 ^ q))), (psi (N.lxor y (2 ^ q))), (psi x), (psi y). intros [a a'] [b b'] [c c'] [d d'].
  destruct (N.testbit x q), (N.testbit y q); c_eq; simpl; ring.
Qed.
