(** Proofs about OperatorBatched: expectation values, transition amplitudes and applied states. *)
From Verif Require Import BitsProofs KernelsProofs IndexProofs PauliProofs OperatorBatchedSpec OperatorProofs OperatorProofs2 OperatorBatchedProofs OperatorBatchedProofs2.
From Coq Require Import Permutation ZifyBool ZifyN ZifyNat.

(** ** Amplitudes *)
Lemma reduce_ext {I} (f g : I -> option C) t : (forall i, In i (leaves t) -> f i = g i) -> creduce f t = creduce g t.
Proof.
  unfold creduce. induction t as [l|a IHa b IHb]; intros H; cbn [reduce].
  - simpl in H. generalize (Some C0). induction l as [|x l IH]; intros s; [reflexivity|]. cbn [fold_left]. rewrite (H x) by now left. apply IH. intros; apply H; now right.
  - cbn [leaves] in H. rewrite IHa, IHb; [reflexivity| |]; intros; apply H, in_app_iff; auto.
Qed.
Lemma trans_body_term o1 o2 i j x : term o1 i = term o2 j -> op_trans_body o1 (i, x) = op_trans_body o2 (j, x).
Proof. intros E. unfold op_trans_body. cbn [fst snd]. now rewrite E. Qed.
Lemma map_numbered {T U V} (f : N * T -> V) (g : N * U -> V) (L1 : list T) (L2 : list U) : length L1 = length L2 ->
  (forall i a b, nth_error L1 i = Some a -> nth_error L2 i = Some b -> f (N.of_nat i, a) = g (N.of_nat i, b)) ->
  map f (combine (seqN (lenN L1)) L1) = map g (combine (seqN (lenN L2)) L2).
Proof.
  unfold seqN, lenN. rewrite !Nnat.Nat2N.id. intros E H.
  assert (G : forall s, (forall i a b, nth_error L1 i = Some a -> nth_error L2 i = Some b -> f (N.of_nat (s + i), a) = g (N.of_nat (s + i), b)) ->
    map f (combine (map N.of_nat (seq s (length L1))) L1) = map g (combine (map N.of_nat (seq s (length L2))) L2)).
  { clear H. revert L2 E. induction L1 as [|a L1 IH]; intros [|b L2] E s H; try discriminate; [reflexivity|]. cbn [length seq map combine]. f_equal.
    - specialize (H 0%nat a b eq_refl eq_refl). now rewrite Nat.add_0_r in H.
    - apply IH; [simpl in E; lia|]. intros i x y Hx Hy. specialize (H (S i) x y Hx Hy). now rewrite Nat.add_succ_r in H. }
  now apply (G 0%nat).
Qed.
Lemma nth_ranges L : forall s b l, nth_error L b = Some l -> exists P R, L = P ++ l :: R /\ length P = b /\
  nth_error (ranges s (map lenN L)) b = Some (s + lenN (concat P), s + lenN (concat P) + @lenN pauli l).
Proof.
  induction L as [|k L IH]; intros s b l E; [destruct b; discriminate|]. destruct b as [|b].
  - injection E as <-. exists [], L. split; [reflexivity|]. split; [reflexivity|]. cbn [map ranges nth_error]. change (lenN (concat [])) with 0. now rewrite N.add_0_r.
  - destruct (IH (s + lenN k) b l E) as (P & R & E1 & E2 & E3). exists (k :: P), R. split; [now rewrite E1|]. split; [simpl; lia|].
    cbn [map ranges concat nth_error]. rewrite E3. f_equal. rewrite (lenN_app k (concat P)). f_equal; lia.
Qed.
Lemma ob_amplitudes_correct L n bra ket trees : 0 < n -> n <= 63 -> Forall (Forall (pauli_fits n)) L ->
  (forall b l, nth_error L b = Some l -> reduction_of (op_iters (op_of_terms l) (2 ^ n)) (trees (N.of_nat b))) ->
  ob_amplitudes (ob_of_lists L) (2 ^ n) bra ket trees =
  Ok (map (fun '(b, l) => Some (inner n (bra b) (op_act (op_of_terms l) (ket b)))) (combine (seqN (lenN L)) L)).
Proof.
  intros Hn0 Hn Hfit Ht. unfold ob_amplitudes. rewrite rows_of_lists. f_equal. apply map_numbered; [now rewrite length_ranges, map_length|].
  intros b r l Er El. destruct (nth_ranges L 0 b l El) as (P & R & E1 & E2 & E3). rewrite E3 in Er. injection Er as <-. rewrite N.add_0_l.
  assert (Hl : Forall (pauli_fits n) l) by (rewrite Forall_forall in Hfit; apply Hfit; eapply nth_error_In; eassumption).
  rewrite <- (op_transition_correct (op_of_terms l) n Hn Hl (bra (N.of_nat b)) (ket (N.of_nat b)) (trees (N.of_nat b)) Hn0 (Ht b l El)).
  unfold ob_amplitude, op_transition. apply reduce_ext. intros [i x] Hi. cbn [fst snd].
  specialize (Ht b l El). apply (Permutation_in _ Ht) in Hi. unfold op_iters in Hi. apply in_prod_iff in Hi as [Hi _]. apply in_seqN in Hi. cbn [o_terms op_of_terms] in Hi.
  f_equal. unfold ob_body. cbn [fst snd ob_ops ob_of_lists].
  assert (Hlt : i + lenN (concat P) < lenN (concat L)).
  { rewrite E1, concat_app. cbn [concat]. rewrite !lenN_app. unfold lenN at 3. lia. }
  apply N.ltb_lt in Hlt. rewrite Hlt. apply trans_body_term. unfold term. cbn [o_terms op_of_terms].
  rewrite E1, concat_app. cbn [concat]. rewrite N.add_comm. apply nth_mid. exact Hi.
Qed.
Lemma combine_map_seqN {T U} (f : N * T -> U) L : map f (combine (seqN (lenN L)) L) = map f (combine (seqN (lenN L)) L).
Proof. reflexivity. Qed.

(** ** Applied states *)
Lemma saddr_eqb_spec : forall a b : saddr, reflect (a = b) (saddr_eqb a b).
Proof.
  intros [x [a1 a2]] [y [b1 b2]]. unfold saddr_eqb. cbn [fst snd]. destruct (Bool.eqb x y) eqn:E; [|simpl; constructor; intros H; injection H; intros; subst; now rewrite Bool.eqb_reflx in E].
  apply Bool.eqb_prop in E. subst y. destruct (N.eqb_spec a1 b1), (N.eqb_spec a2 b2); simpl; constructor; congruence.
Qed.
Lemma eqb_res b b' x y : saddr_eqb (res_at b x) (res_at b' y) = (b =? b') && (x =? y).
Proof. reflexivity. Qed.
Lemma shiftr_half n : 0 < n -> N.shiftr (2 ^ n) 1 = 2 ^ (n - 1) /\ 2 ^ n = 2 * 2 ^ (n - 1).
Proof.
  intros H. assert (E : 2 ^ n = 2 * 2 ^ (n - 1)) by (replace n with (1 + (n - 1)) at 1 by lia; rewrite N.pow_add_r; reflexivity).
  split; [|assumption]. rewrite E, N.shiftr_div_pow2. change (2 ^ 1) with 2. rewrite N.mul_comm. now apply N.div_mul.
Qed.
Lemma basis0_eq n q i : n <= 63 -> q < n -> i < N.shiftr (2 ^ n) 1 ->
  N.lor (insert_zero_at_mask_positions i (N.lor 0 (shl64 1 q))) 0 = insert_zero_to_basis_index i q.
Proof.
  intros Hn Hk Hit. rewrite N.lor_0_l, N.lor_0_r.
  assert (Hk' : 2 ^ q < 2 ^ n) by (apply N.pow_lt_mono_r; lia).
  assert (Hn' : 2 ^ n < two64) by (unfold two64; apply N.pow_lt_mono_r; lia).
  assert (Es : shl64 1 q = 2 ^ q) by (unfold shl64; rewrite N.shiftl_mul_pow2, N.mul_1_l; apply wrap_small; lia). rewrite Es.
  assert (Ep : popcount (2 ^ q) = 1) by (rewrite <- bits_length, bits_pow2; reflexivity).
  assert (Hit' : i < 1 * 2 ^ (n - popcount (2 ^ q))).
  { rewrite Ep, N.mul_1_l. destruct (shiftr_half n ltac:(lia)) as [E _]. now rewrite E in Hit. }
  rewrite (insert_zero_spec (2 ^ q) i n 1) by lia. rewrite bits_pow2. simpl. symmetry.
  apply insert_zero_to_basis_index_ins1; [lia|].
  pose proof (ins_list_bound [q] i n 1) as Hb. simpl in Hb.
  eapply N.lt_trans; [|exact Hn']. eapply N.lt_le_trans; [apply Hb|lia].
  - repeat constructor.
  - repeat constructor; assumption.
  - rewrite Ep in Hit'. exact Hit'.
Qed.
Lemma insert_none i : N.lor (insert_zero_at_mask_positions i 0) 0 = i.
Proof. rewrite N.lor_0_r. reflexivity. Qed.

Section Row.
  Variables (n : N) (psi : state).
  Hypothesis Hn0 : 0 < n.
  Hypothesis Hn : n <= 63.
  Let D := 2 ^ n.
  Let K := N.shiftr D 1.
  Definition lo (p : pauli) (i : N) : N := if p_bf p =? 0 then 2 * i else insert_zero_to_basis_index i (bit_width (p_bf p) - 1).
  Definition hi (p : pauli) (i : N) : N := if p_bf p =? 0 then 2 * i + 1 else N.lxor (lo p i) (p_bf p).
  (** what iteration i adds to amplitude x for the term p *)
  Definition tc (p : pauli) (i x : N) : C :=
    ((if x =? lo p i then pauli_act p psi x else C0) + (if x =? hi p i then pauli_act p psi x else C0))%C.

  Lemma lo_hi_lt p i : pauli_fits n p -> i < K -> lo p i < D /\ hi p i < D.
  Proof.
    intros [Hb _] Hi. unfold hi, lo. destruct (N.eqb_spec (p_bf p) 0) as [E|E].
    - destruct (shiftr_half n Hn0) as [E1 E2]. unfold K, D in *. rewrite E1 in Hi. rewrite E2. lia.
    - destruct (pair_idx_lt n (p_bf p) i Hn E Hb Hi) as [H1 H2]. auto.
  Qed.
  Lemma tc_sum p x : pauli_fits n p -> x < D -> Csum K (fun i => tc p i x) = pauli_act p psi x.
  Proof.
    intros Hp Hx.
    assert (S : Csum D (fun y => if x =? y then pauli_act p psi x else C0) = pauli_act p psi x).
    { rewrite (Csum_single D _ x Hx); [now rewrite N.eqb_refl|]. intros y Hy Hne. assert (E : (x =? y) = false) by (apply N.eqb_neq; congruence). now rewrite E. }
    rewrite <- S. unfold tc, lo, hi. destruct (N.eqb_spec (p_bf p) 0) as [E|E].
    - unfold D. rewrite (even_sum n) by assumption. apply Csum_ext. intros i Hi. cbv beta.
      destruct (shiftr_half n Hn0) as [E1 E2].
      assert (Hs : shl64 i 1 = 2 * i).
      { unfold shl64. rewrite N.shiftl_mul_pow2. change (2 ^ 1) with 2. rewrite wrap_small; [lia|].
        assert (2 ^ n <= two64) by (unfold two64; apply N.pow_le_mono_r; lia). unfold D in *. rewrite E1 in Hi. lia. }
      rewrite Hs. assert (Ho : N.lor (2 * i) 1 = 2 * i + 1) by now destruct i. rewrite Ho. reflexivity.
    - unfold D. destruct Hp as [Hb _]. rewrite (pair_sum n (p_bf p)) by assumption. apply Csum_ext. intros i Hi.
      apply N.eqb_neq in E as E'. unfold lo. rewrite E'. reflexivity.
  Qed.

  Ltac upd_case := unfold aupd, saddr_eqb, res_at, st_at; cbn [fst snd Bool.eqb andb].
  Lemma term_run b i p k m : pauli_fits n p -> i < K -> (forall y, y < D -> m (st_at b y) = psi y) ->
    exists m', arun saddr_eqb (applied_term 0 0 b i p k) m = arun saddr_eqb k m' /\
      (forall x, m' (res_at b x) = (m (res_at b x) + tc p i x)%C) /\
      (forall b' y, m' (st_at b' y) = m (st_at b' y)) /\
      (p_bf p <> 0 -> forall x, apend saddr_eqb (applied_term 0 0 b i p k) m (res_at b x) = (tc p i x + apend saddr_eqb k m' (res_at b x))%C) /\
      (forall b' x, b' <> b -> apend saddr_eqb (applied_term 0 0 b i p k) m (res_at b' x) = apend saddr_eqb k m' (res_at b' x)).
  Proof.
    intros Hp Hi Hm. destruct (lo_hi_lt p i Hp Hi) as [Hlo Hhi]. unfold applied_term. destruct (N.eqb_spec (p_bf p) 0) as [E|E].
    - assert (Elo : lo p i = 2 * i) by (unfold lo; now rewrite E). assert (Ehi : hi p i = 2 * i + 1) by (unfold hi; now rewrite E).
      rewrite Elo in Hlo. rewrite Ehi in Hhi.
      unfold applied_diag. rewrite !insert_none. cbn [arun apend]. 
      set (w1 := (if parity (N.land (2 * i) (p_pf p)) then m (res_at b (2 * i)) - p_coef p * m (st_at b (2 * i)) else m (res_at b (2 * i)) + p_coef p * m (st_at b (2 * i)))%C).
      set (m1 := aupd saddr_eqb m (res_at b (2 * i)) w1).
      assert (E1 : m1 (st_at b (2 * i + 1)) = psi (2 * i + 1)) by (unfold m1; upd_case; now apply Hm).
      assert (E2 : m1 (res_at b (2 * i + 1)) = m (res_at b (2 * i + 1))).
      { unfold m1. upd_case. rewrite N.eqb_refl. assert (F : (2 * i + 1 =? 2 * i) = false) by (apply N.eqb_neq; lia). now rewrite F. }
      rewrite E1, E2. set (w2 := (if parity _ then _ else _)). eexists. split; [reflexivity|].
      assert (A : forall x, pauli_act p psi x = (if parity (N.land x (p_pf p)) then - (p_coef p * psi x) else p_coef p * psi x)%C).
      { intros x. rewrite pauli_act_eq, E, phase_diag, N.lxor_0_r. unfold pauli_sign. destruct (parity (N.land x (p_pf p))); ring. }
      split; [|split; [|split]].
      + intros x. unfold tc. rewrite Elo, Ehi. upd_case. rewrite N.eqb_refl. cbn [andb]. destruct (N.eqb_spec x (2 * i + 1)) as [->|Hx].
        * assert (F : (2 * i + 1 =? 2 * i) = false) by (apply N.eqb_neq; lia). rewrite F, A. unfold w2. destruct (parity (N.land (2 * i + 1) (p_pf p))); cbv beta; unfold res_at; ring.
        * unfold m1. upd_case. rewrite N.eqb_refl. cbn [andb]. destruct (N.eqb_spec x (2 * i)) as [->|Hx'].
          -- rewrite A. unfold w1. rewrite Hm by assumption. destruct (parity (N.land (2 * i) (p_pf p))); unfold res_at; ring.
          -- ring.
      + intros b' y. reflexivity.
      + intros H. contradiction.
      + intros b' x Hne. reflexivity.
    - unfold applied_pair. cbv zeta.
      assert (Hq : bit_width (p_bf p) - 1 < n).
      { destruct (pivot_spec (p_bf p) E) as [_ Hlog]. rewrite Hlog. destruct Hp as [Hb _]. apply N.log2_lt_pow2; [lia|exact Hb]. }
      rewrite (basis0_eq n _ i Hn Hq Hi). apply N.eqb_neq in E as E'.
      assert (Elo : insert_zero_to_basis_index i (bit_width (p_bf p) - 1) = lo p i) by (unfold lo; now rewrite E').
      rewrite Elo. assert (Ehi : N.lxor (lo p i) (p_bf p) = hi p i) by (unfold hi; now rewrite E'). rewrite Ehi.
      cbn [arun apend]. rewrite !Hm by assumption.
      set (g := PHASE_M90ROT _).
      assert (A0 : pauli_act p psi (lo p i) = ((if parity (N.land (lo p i) (p_pf p)) then - (psi (hi p i) * g) else psi (hi p i) * g) * p_coef p)%C).
      { rewrite pauli_act_eq, Ehi. unfold pauli_phase, mi_pow, pauli_sign. fold g. match goal with |- context [parity ?u] => destruct (parity u) end; ring. }
      assert (A1 : pauli_act p psi (hi p i) = ((if parity (N.land (hi p i) (p_pf p)) then - (psi (lo p i) * g) else psi (lo p i) * g) * p_coef p)%C).
      { rewrite pauli_act_eq. rewrite <- Ehi at 2. rewrite N.lxor_assoc, N.lxor_nilpotent, N.lxor_0_r. unfold pauli_phase, mi_pow, pauli_sign. fold g. match goal with |- context [parity ?u] => destruct (parity u) end; ring. }
      rewrite <- A0, <- A1.
      assert (Hne : lo p i <> hi p i).
      { rewrite <- Ehi. intros H. apply E. transitivity (N.lxor (lo p i) (N.lxor (lo p i) (p_bf p))); [|now rewrite <- H, N.lxor_nilpotent].
        now rewrite <- N.lxor_assoc, N.lxor_nilpotent, N.lxor_0_l. }
      set (m1 := aupd saddr_eqb m (res_at b (lo p i)) (m (res_at b (lo p i)) + pauli_act p psi (lo p i))%C).
      assert (Em1 : m1 (res_at b (hi p i)) = m (res_at b (hi p i))).
      { unfold m1. upd_case. rewrite N.eqb_refl. cbn [andb]. destruct (N.eqb_spec (hi p i) (lo p i)); [congruence|reflexivity]. }
      rewrite Em1.
      eexists. split; [reflexivity|]. split; [|split; [|split]].
      + intros x. unfold tc. upd_case. rewrite N.eqb_refl. cbn [andb]. destruct (N.eqb_spec x (hi p i)) as [->|Hx].
        * destruct (N.eqb_spec (hi p i) (lo p i)); [congruence|]. unfold res_at. ring.
        * unfold m1. upd_case. rewrite N.eqb_refl. cbn [andb]. destruct (N.eqb_spec x (lo p i)) as [->|Hx']; unfold res_at; ring.
      + intros b' y. reflexivity.
      + intros _ x. unfold tc. rewrite !eqb_res, !N.eqb_refl. cbn [andb].
        assert (R0 : (if x =? lo p i then pauli_act p psi (lo p i) else C0) = (if x =? lo p i then pauli_act p psi x else C0)) by (destruct (N.eqb_spec x (lo p i)) as [->|]; reflexivity).
        assert (R1 : (if x =? hi p i then pauli_act p psi (hi p i) else C0) = (if x =? hi p i then pauli_act p psi x else C0)) by (destruct (N.eqb_spec x (hi p i)) as [->|]; reflexivity).
        rewrite R0, R1. ring.
      + intros b' x Hb'. rewrite !eqb_res.
        assert (F : (b' =? b) = false) by now apply N.eqb_neq. rewrite F. cbn [andb]. ring.
  Qed.
  Lemma body_run b i terms : Forall (pauli_fits n) terms -> i < K -> forall m, (forall y, y < D -> m (st_at b y) = psi y) ->
    (forall x, arun saddr_eqb (applied_body 0 0 terms b i) m (res_at b x) = (m (res_at b x) + Csuml (fun p => tc p i x) terms)%C) /\
    (Forall (fun p => p_bf p <> 0) terms -> forall x, apend saddr_eqb (applied_body 0 0 terms b i) m (res_at b x) = Csuml (fun p => tc p i x) terms) /\
    (forall b' x, b' <> b -> apend saddr_eqb (applied_body 0 0 terms b i) m (res_at b' x) = C0).
  Proof.
    intros Hf Hi. induction Hf as [|p l Hp _ IH]; intros m Hm.
    - unfold applied_body. simpl. split; [|split]; intros; try reflexivity. unfold Csuml. simpl. ring.
    - unfold applied_body. cbn [fold_right]. fold (applied_body 0 0 l b i).
      destruct (term_run b i p (applied_body 0 0 l b i) m Hp Hi Hm) as (m' & R & V & S & P & Q).
      destruct (IH m') as (I1 & I2 & I3); [intros y Hy; rewrite S; now apply Hm|]. split; [|split].
      + intros x. rewrite R, I1, V. change (Csuml (fun q => tc q i x) (p :: l)) with (tc p i x + Csuml (fun q => tc q i x) l)%C. ring.
      + intros Ha x. inversion Ha; subst. rewrite P by assumption. rewrite I2 by assumption. reflexivity.
      + intros b' x Hb'. rewrite Q by assumption. now apply I3.
  Qed.
  (** private cells: no bit flips but on qubit 0 *)
  Definition private (terms : list pauli) : Prop := Forall (fun p => p_bf p <= 1) terms.
  Definition flipping (terms : list pauli) : Prop := Forall (fun p => p_bf p <> 0) terms.
  Lemma private_lo_hi p i : p_bf p <= 1 -> i < K -> lo p i = 2 * i /\ hi p i = 2 * i + 1.
  Proof.
    intros Hb Hi. destruct (shiftr_half n Hn0) as [E1 E2]. unfold hi, lo. destruct (N.eqb_spec (p_bf p) 0) as [E|E]; [auto|].
    assert (Eb : p_bf p = 1) by lia. rewrite Eb. change (bit_width 1 - 1) with 0.
    assert (Hz : insert_zero_to_basis_index i 0 = 2 * i).
    { unfold insert_zero_to_basis_index. change (sub64 (shl64 1 0) 1) with 0. rewrite N.land_0_r, N.lor_0_r, N.shiftr_0_r. unfold shl64. rewrite N.shiftl_mul_pow2. change (2 ^ (0 + 1)) with 2.
      rewrite wrap_small; [lia|]. assert (2 ^ n <= two64) by (unfold two64; apply N.pow_le_mono_r; lia). unfold K, D in *. rewrite E1 in Hi. lia. }
    rewrite Hz. split; [reflexivity|]. now destruct i.
  Qed.
  Lemma private_sum terms x : private terms -> x < D -> Csuml (fun p => tc p (x / 2) x) terms = terms_act terms psi x.
  Proof.
    intros Hp Hx. unfold terms_act. apply Csuml_ext. intros p Hin. apply (proj1 (Forall_forall _ _) Hp) in Hin as Hp1. clear Hp. rename Hp1 into Hp.
    assert (Hi : x / 2 < K).
    { destruct (shiftr_half n Hn0) as [E1 E2]. unfold K, D in *. rewrite E1. apply N.div_lt_upper_bound; lia. }
    destruct (private_lo_hi p (x / 2) Hp Hi) as [Elo Ehi]. unfold tc. rewrite Elo, Ehi.
    pose proof (N.div_mod x 2 ltac:(lia)) as Hd. pose proof (N.mod_lt x 2 ltac:(lia)) as Hm.
    destruct (N.eqb_spec x (2 * (x / 2))), (N.eqb_spec x (2 * (x / 2) + 1)); try lia; ring.
  Qed.
  Lemma shared_sum terms x : Forall (pauli_fits n) terms -> x < D -> Csum K (fun i => Csuml (fun p => tc p i x) terms) = terms_act terms psi x.
  Proof.
    intros Hf Hx. unfold Csum, terms_act. rewrite Csuml_swap. apply Csuml_ext. intros p Hin. rewrite Forall_forall in Hf. apply tc_sum; auto.
  Qed.
End Row.

(** ** One round of elements *)
Section Blocks.
  Context {T U : Type} (F : T -> N -> U) (K : N) (d : U).
  Definition blocks (G : list T) : list U := flat_map (fun g => map (F g) (seqN K)) G.
  Lemma lenN_block g : lenN (map (F g) (seqN K)) = K.
  Proof. unfold lenN. rewrite map_length, length_seqN. lia. Qed.
  Lemma nth_block g i : i < K -> nth (N.to_nat i) (map (F g) (seqN K)) d = F g i.
  Proof.
    intros H. rewrite (nth_indep _ d (F g 0)) by (rewrite map_length, length_seqN; lia). rewrite map_nth. f_equal.
    rewrite nth_seqN; lia.
  Qed.
  Lemma nth_blocks G : forall p g i, nth_error G p = Some g -> i < K -> nth (N.to_nat (N.of_nat p * K + i)) (blocks G) d = F g i /\ N.of_nat p * K + i < lenN (blocks G).
  Proof.
    induction G as [|h G IH]; intros p g i E Hi; [destruct p; discriminate|]. unfold blocks. cbn [flat_map]. fold (blocks G). rewrite lenN_app, lenN_block. destruct p as [|p].
    - injection E as ->. split; [|lia]. rewrite app_nth1 by (rewrite map_length, length_seqN; lia). replace (N.of_nat 0 * K + i) with i by lia. now apply nth_block.
    - destruct (IH p g i E Hi) as [H1 H2]. split; [|lia]. rewrite app_nth2 by (rewrite map_length, length_seqN; lia). rewrite map_length, length_seqN. rewrite <- H1. f_equal. lia.
  Qed.
  Lemma blocks_inv G : forall t, t < lenN (blocks G) -> exists p g i, nth_error G p = Some g /\ i < K /\ t = N.of_nat p * K + i.
  Proof.
    induction G as [|h G IH]; intros t Ht; [unfold lenN in Ht; simpl in Ht; lia|]. unfold blocks in Ht. cbn [flat_map] in Ht. fold (blocks G) in Ht. rewrite lenN_app, lenN_block in Ht.
    destruct (N.ltb_spec t K) as [H|H].
    - exists 0%nat, h, t. split; [reflexivity|]. split; [assumption|lia].
    - destruct (IH (t - K)) as (p & g & i & E & Hi & Et); [lia|]. exists (S p), g, i. split; [assumption|]. split; [assumption|lia].
  Qed.
  Lemma blocks_sum (H : U -> C) G : Csum (lenN (blocks G)) (fun t => H (nth (N.to_nat t) (blocks G) d)) = Csuml (fun g => Csum K (fun i => H (F g i))) G.
  Proof.
    transitivity (Csuml H (blocks G)).
    - unfold Csum. transitivity (Csuml H (map (fun i => nth (N.to_nat i) (blocks G) d) (seqN (lenN (blocks G))))); [now rewrite Csuml_map|now rewrite map_nth_seqN].
    - unfold blocks. rewrite Csuml_flat_map. apply Csuml_ext. intros g _. rewrite Csuml_map. reflexivity.
  Qed.
End Blocks.

Fixpoint pos (H : list (N * list pauli)) (b : N) : option (N * list pauli) :=
  match H with
  | [] => None
  | (b', l) :: r => if b' =? b then Some (0, l) else match pos r b with Some (p, l') => Some (1 + p, l') | None => None end
  end.
Lemma pos_nth H : forall p b l, NoDup (map fst H) -> nth_error H p = Some (b, l) -> pos H b = Some (N.of_nat p, l).
Proof.
  induction H as [|[b' l'] H IH]; intros p b l Hd E; [destruct p; discriminate|]. cbn [pos]. inversion Hd; subst. destruct p as [|p].
  - injection E as -> ->. now rewrite N.eqb_refl.
  - cbn [nth_error] in E. destruct (N.eqb_spec b' b) as [->|_].
    + exfalso. apply H2. apply nth_error_In in E. now apply (in_map fst) in E.
    + rewrite (IH p b l) by assumption. do 2 f_equal. lia.
Qed.
Lemma pos_some H : forall p b l, pos H b = Some (p, l) -> nth_error H (N.to_nat p) = Some (b, l).
Proof.
  induction H as [|[b' l'] H IH]; intros p b l E; [discriminate|]. cbn [pos] in E. destruct (N.eqb_spec b' b) as [->|_].
  - injection E as <- <-. reflexivity.
  - destruct (pos H b) as [[q m]|] eqn:Eq; [|discriminate]. injection E as <- <-. apply IH in Eq. rewrite N.add_1_l, Nnat.N2Nat.inj_succ. exact Eq.
Qed.
Definition is_private (l : list pauli) : bool := forallb (fun p => p_bf p <=? 1) l.
Lemma is_private_spec l : is_private l = true <-> private l.
Proof. unfold is_private, private. rewrite forallb_forall, Forall_forall. split; intros H p Hp; specialize (H p Hp); now apply N.leb_le. Qed.
Section Round.
  Variables (n : N) (psi : state) (B : N) (G : list (N * list pauli)).
  Hypothesis Hn0 : 0 < n.
  Hypothesis Hn : n <= 63.
  Hypothesis HG : NoDup (map fst G).
  Hypothesis HB : Forall (fun g => fst g < B) G.
  Hypothesis Hfit : Forall (fun g => Forall (pauli_fits n) (snd g)) G.
  Hypothesis Hkind : Forall (fun g => private (snd g) \/ flipping (snd g)) G.
  Let D := 2 ^ n.
  Let K := N.shiftr D 1.
  Let F (g : N * list pauli) (i : N) : aprog saddr := applied_body 0 0 (snd g) (fst g) i.
  Definition its : list (aprog saddr) := blocks F K G.
  Definition cls (a : saddr) : cell :=
    let '(r, (b, x)) := a in
    if r && (x <? D) then match pos G b with
                          | Some (p, l) => if is_private l then Own (p * K + x / 2) else Shared
                          | None => ReadOnly
                          end
    else ReadOnly.
  Lemma foot_terms p b i l0 : nth_error G p = Some (b, l0) -> i < K -> forall l, Forall (pauli_fits n) l -> (is_private l0 = true /\ private l \/ is_private l0 = false /\ flipping l) ->
    afoot (svalid B D) cls (N.of_nat p * K + i) (applied_body 0 0 l b i).
  Proof using All.
    intros Ep Hi. assert (Epos : pos G b = Some (N.of_nat p, l0)) by (apply pos_nth; assumption).
    assert (Hb : b < B) by (rewrite Forall_forall in HB; apply nth_error_In in Ep; exact (HB _ Ep)).
    induction l as [|q l IH]; intros Hf Hk; [exact I|]. inversion Hf as [|? ? Hq Hf']; subst.
    assert (Hk' : is_private l0 = true /\ private l \/ is_private l0 = false /\ flipping l).
    { destruct Hk as [[H1 H2]|[H1 H2]]; [left|right]; (split; [assumption|now inversion H2]). }
    specialize (IH Hf' Hk'). unfold applied_body. cbn [fold_right]. fold (applied_body 0 0 l b i).
    destruct (lo_hi_lt n Hn0 Hn q i Hq Hi) as [Hlo Hhi].
    assert (V : forall r x, x < D -> svalid B D (r, (b, x)) = true).
    { intros r x Hx. unfold svalid. cbn [fst snd]. apply andb_true_iff. split; now apply N.ltb_lt. }
    assert (Cr : forall x, x < D -> cls (res_at b x) = if is_private l0 then Own (N.of_nat p * K + x / 2) else Shared).
    { intros x Hx. unfold cls, res_at. apply N.ltb_lt in Hx. rewrite Hx, Epos. reflexivity. }
    unfold applied_term. destruct (N.eqb_spec (p_bf q) 0) as [E|E].
    - destruct Hk as [[H1 H2]|[H1 H2]]; [|exfalso; inversion H2; contradiction].
      rewrite H1 in Cr. assert (Elo : lo q i = 2 * i) by (unfold lo; now rewrite E). assert (Ehi : hi q i = 2 * i + 1) by (unfold hi; now rewrite E).
      rewrite Elo in Hlo. rewrite Ehi in Hhi.
      assert (C0' : cls (res_at b (2 * i)) = Own (N.of_nat p * K + i)) by (rewrite Cr by assumption; do 2 f_equal; rewrite N.mul_comm; now apply N.div_mul).
      assert (C1' : cls (res_at b (2 * i + 1)) = Own (N.of_nat p * K + i)).
      { rewrite Cr by assumption. do 2 f_equal. symmetry. apply (N.div_unique (2 * i + 1) 2 i 1); lia. }
      unfold applied_diag. rewrite !insert_none. cbn [afoot].
      repeat (first [split | intros v]); try (apply V; assumption); try (left; reflexivity); try (right; assumption); auto.
    - unfold applied_pair. cbv zeta.
      assert (Hq' : bit_width (p_bf q) - 1 < n).
      { destruct (pivot_spec (p_bf q) E) as [_ Hlog]. rewrite Hlog. destruct Hq as [Hb' _]. apply N.log2_lt_pow2; [lia|exact Hb']. }
      rewrite (basis0_eq n _ i Hn Hq' Hi). apply N.eqb_neq in E as E'.
      assert (Elo : insert_zero_to_basis_index i (bit_width (p_bf q) - 1) = lo q i) by (unfold lo; now rewrite E').
      rewrite Elo. assert (Ehi : N.lxor (lo q i) (p_bf q) = hi q i) by (unfold hi; now rewrite E'). rewrite Ehi.
      assert (Cc : (cls (res_at b (lo q i)) = Shared \/ cls (res_at b (lo q i)) = Own (N.of_nat p * K + i)) /\
                   (cls (res_at b (hi q i)) = Shared \/ cls (res_at b (hi q i)) = Own (N.of_nat p * K + i))).
      { rewrite !Cr by assumption. destruct Hk as [[H1 H2]|[H1 H2]]; rewrite H1; [|auto]. 
        assert (Hq1 : p_bf q <= 1) by now inversion H2. destruct (private_lo_hi n Hn0 Hn q i Hq1 Hi) as [-> ->].
        split; right; do 2 f_equal; [rewrite N.mul_comm; now apply N.div_mul|symmetry; apply (N.div_unique (2 * i + 1) 2 i 1); lia]. }
      destruct Cc as [Cc1 Cc2]. cbn [afoot].
      repeat (first [split | intros v]); try (apply V; assumption); try (left; reflexivity); auto.
  Qed.
  Definition after (m : saddr -> C) (a : saddr) : C :=
    let '(r, (b, x)) := a in
    if r && (x <? D) then match pos G b with Some (_, l) => (m a + terms_act l psi x)%C | None => m a end else m a.
  Lemma round_ok m : (forall b y, y < D -> m (st_at b y) = psi y) ->
    apar_computes saddr_eqb (svalid B D) (lenN its) (fun g => nth (N.to_nat g) its ARet) m (after m).
  Proof using All.
    intros Hm. eapply apar_computes_ext; [|apply (atomic_par_computes saddr_eqb saddr_eqb_spec _ _ _ _ cls)].
    - intros [r [b x]]. unfold afinal, cls, after. destruct (r && (x <? D)) eqn:Er; [|reflexivity].
      apply andb_true_iff in Er as [-> Hx]. apply N.ltb_lt in Hx. destruct (pos G b) as [[p l]|] eqn:Ep; [|reflexivity].
      apply pos_some in Ep. assert (Hl : Forall (pauli_fits n) l) by (rewrite Forall_forall in Hfit; apply nth_error_In in Ep; exact (Hfit _ Ep)).
      destruct (is_private l) eqn:Ek.
      + assert (Hi : x / 2 < K).
        { destruct (shiftr_half n Hn0) as [E1 E2]. unfold K, D in *. rewrite E1. apply N.div_lt_upper_bound; lia. }
        destruct (nth_blocks F K ARet G (N.to_nat p) (b, l) (x / 2) Ep Hi) as [H1 H2]. rewrite Nnat.N2Nat.id in H1, H2. fold its in H1, H2.
        apply N.ltb_lt in H2. rewrite H2, H1. unfold F. cbn [fst snd].
        destruct (body_run n psi Hn0 Hn b (x / 2) l Hl Hi m (Hm b)) as (R & _ & _). change (true, (b, x)) with (res_at b x). rewrite R.
        f_equal. apply private_sum with (n := n); auto. now apply is_private_spec.
      + f_equal. unfold its. rewrite (blocks_sum F K ARet (fun q => apend saddr_eqb q m (true, (b, x)))).
        assert (Hs : Forall (fun g => private (snd g) \/ flipping (snd g)) G -> Forall (fun g => Forall (pauli_fits n) (snd g)) G -> NoDup (map fst G) -> forall k, nth_error G k = Some (b, l) ->
          Csuml (fun g => Csum K (fun i => apend saddr_eqb (F g i) m (true, (b, x)))) G = terms_act l psi x).
        { assert (Z : forall g : N * list pauli, fst g <> b -> Forall (pauli_fits n) (snd g) -> Csum K (fun i => apend saddr_eqb (F g i) m (true, (b, x))) = C0).
          { intros g Hg Hfg. rewrite (Csum_ext _ _ (fun _ => C0)); [now apply Csum_zero|]. intros i Hi. unfold F.
            destruct (body_run n psi Hn0 Hn (fst g) i (snd g) Hfg Hi m (Hm (fst g))) as (_ & _ & R). apply R. congruence. }
          clear HG HB Hfit Hkind Ep. induction G as [|g H IH]; intros Hk Hf Hd k Ek'; [destruct k; discriminate|].
          inversion Hk; inversion Hf; inversion Hd; subst. unfold Csuml. cbn [map fold_right]. fold (Csuml (fun g => Csum K (fun i => apend saddr_eqb (F g i) m (true, (b, x)))) H).
          destruct k as [|k].
          - injection Ek' as ->. cbn [fst snd] in *.
            assert (R0 : Csuml (fun g => Csum K (fun i => apend saddr_eqb (F g i) m (true, (b, x)))) H = C0).
            { assert (Hfst : forall g, In g H -> fst g <> b) by (intros g Hg Hgb; apply H10; rewrite <- Hgb; now apply in_map).
              clear IH. clear - Hfst H7 Z. unfold Csuml. induction H as [|g H IH]; [reflexivity|]. cbn [map fold_right]. inversion H7; subst. rewrite IH; auto; [|intros; apply Hfst; now right].
              rewrite Z; [ring|apply Hfst; now left|assumption]. }
            rewrite R0. rewrite <- (shared_sum n psi Hn0 Hn l x H6 Hx). rewrite (Csum_ext K (fun i => apend saddr_eqb (F (b, l) i) m (true, (b, x))) (fun i => Csuml (fun p => tc psi p i x) l)); [unfold K, D; ring|].
            intros i Hi. unfold F. cbn [fst snd]. destruct (body_run n psi Hn0 Hn b i l H6 Hi m (Hm b)) as (_ & R & _). apply R.
            destruct H2 as [H2|H2]; [|assumption]. apply is_private_spec in H2. congruence.
          - cbn [nth_error] in Ek'. rewrite Z; [|intros E; apply H10; rewrite E; apply nth_error_In in Ek'; now apply (in_map fst) in Ek'|assumption].
            rewrite (IH H3 H7 H11 k Ek'). ring. }
        apply (Hs Hkind Hfit HG _ Ep).
    - intros t Ht. destruct (blocks_inv F K G t Ht) as (p & [b l] & i & E & Hi & ->).
      destruct (nth_blocks F K ARet G p (b, l) i E Hi) as [H1 _]. fold its in H1. rewrite H1. unfold F. cbn [fst snd].
      apply (foot_terms p b i l E Hi l).
      + rewrite Forall_forall in Hfit. apply nth_error_In in E. exact (Hfit _ E).
      + rewrite Forall_forall in Hkind. apply nth_error_In in E. specialize (Hkind _ E). cbn [snd] in Hkind. destruct (is_private l) eqn:Ek.
        * left. split; [reflexivity|now apply is_private_spec].
        * right. split; [reflexivity|]. destruct Hkind as [H|H]; [apply is_private_spec in H; congruence|assumption].
  Qed.
End Round.

(** ** All the rounds *)
Section Rounds.
  Variables (n : N) (psi : state) (B : N).
  Hypothesis Hn0 : 0 < n.
  Hypothesis Hn : n <= 63.
  Let D := 2 ^ n.
  Definition element_ok (g : N * list pauli) : Prop := fst g < B /\ Forall (pauli_fits n) (snd g) /\ (private (snd g) \/ flipping (snd g)).
  Definition rounds_result (H : list (N * list pauli)) (m m' : saddr -> C) : Prop :=
    (forall b y, m' (st_at b y) = m (st_at b y)) /\
    (forall b l x, In (b, l) H -> x < D -> m' (res_at b x) = (m (res_at b x) + terms_act l psi x)%C) /\
    (forall b x, ~ In b (map fst H) -> m' (res_at b x) = m (res_at b x)).
  Lemma pos_in H b : ~ In b (map fst H) -> pos H b = None.
  Proof using.
    clear. intros Hb. destruct (pos H b) as [[p l]|] eqn:E; [|reflexivity]. apply pos_some in E. exfalso. apply Hb. apply nth_error_In in E. now apply (in_map fst) in E.
  Qed.
  Lemma after_result G m m' : NoDup (map fst G) -> (forall a, m' a = after n psi G m a) -> rounds_result G m m'.
  Proof using All.
    intros Hd H. split; [|split].
    - intros b y. rewrite H. reflexivity.
    - intros b l x Hin Hx. rewrite H. unfold after, res_at. apply N.ltb_lt in Hx. unfold D in Hx. rewrite Hx. cbn [andb].
      apply In_nth_error in Hin as [p Hp]. now rewrite (pos_nth G p b l Hd Hp).
    - intros b x Hb. rewrite H. unfold after, res_at. rewrite pos_in by assumption. now destruct (true && _).
  Qed.
  Lemma result_app G H m m1 m2 : NoDup (map fst (G ++ H)) -> rounds_result G m m1 -> rounds_result H m1 m2 -> rounds_result (G ++ H) m m2.
  Proof using.
    intros Hd (A1 & A2 & A3) (B1 & B2 & B3). rewrite map_app in Hd.
    assert (Hdis : forall b, In b (map fst G) -> ~ In b (map fst H)).
    { clear - Hd. induction (map fst G) as [|a l IH]; intros b; [now intros []|]. inversion Hd; subst. intros [->|Hb]; [|now apply IH]. intros Hb. apply H2. apply in_app_iff. now right. }
    split; [|split].
    - intros b y. now rewrite B1, A1.
    - intros b l x Hin Hx. apply in_app_iff in Hin as [Hin|Hin].
      + rewrite B3 by (apply Hdis; now apply (in_map fst) in Hin). now apply A2.
      + rewrite (B2 b l x Hin Hx). rewrite A3; [reflexivity|]. intros Hb. apply (Hdis b Hb). now apply (in_map fst) in Hin.
    - intros b x Hb. rewrite map_app, in_app_iff in Hb. rewrite B3 by tauto. apply A3. tauto.
  Qed.
  Lemma run_rounds_ok GG : forall m, NoDup (map fst (concat GG)) -> Forall element_ok (concat GG) -> (forall b y, y < D -> m (st_at b y) = psi y) ->
    (forall scheds, run_rounds B D (map (its n) GG) scheds m = None \/ exists m', run_rounds B D (map (its n) GG) scheds m = Some (Ok m') /\ rounds_result (concat GG) m m') /\
    (exists scheds m', run_rounds B D (map (its n) GG) scheds m = Some (Ok m') /\ rounds_result (concat GG) m m').
  Proof using All.
    induction GG as [|G GG IH]; intros m Hd Hok Hm.
    - assert (R : rounds_result [] m m) by (split; [|split]; [reflexivity|intros b l x []|reflexivity]).
      split; [intros scheds; right|exists []]; exists m; (split; [reflexivity|exact R]).
    - cbn [concat] in *. assert (Hd1 : NoDup (map fst G)).
      { rewrite map_app in Hd. clear - Hd. induction (map fst G) as [|a l IH]; [constructor|]. inversion Hd; subst. constructor; [|now apply IH]. intros H. apply H1, in_app_iff. now left. }
      assert (Hd2 : NoDup (map fst (concat GG))).
      { rewrite map_app in Hd. clear - Hd. induction (map fst G) as [|a l IH]; [exact Hd|]. inversion Hd; subst. now apply IH. }
      apply Forall_app in Hok as [Hok1 Hok2].
      assert (P : apar_computes saddr_eqb (svalid B D) (lenN (its n G)) (fun g => nth (N.to_nat g) (its n G) ARet) m (after n psi G m)).
      { apply round_ok; auto; eapply Forall_impl; try exact Hok1; intros g Hg; apply Hg. }
      destruct P as [P1 (s0 & r0 & P2)].
      assert (Step : forall s r, aparallel_for saddr_eqb (svalid B D) (lenN (its n G)) (fun g => nth (N.to_nat g) (its n G) ARet) m s = AFinished r ->
        rounds_result G m r /\ forall b y, y < D -> r (st_at b y) = psi y).
      { intros s r E. specialize (P1 s). rewrite E in P1. pose proof (after_result G m r Hd1 P1) as R. split; [exact R|]. intros b y Hy. destruct R as [R _]. rewrite R. now apply Hm. }
      split.
      + intros scheds. cbn [map run_rounds]. specialize (P1 (hd [] scheds)).
        destruct (aparallel_for saddr_eqb (svalid B D) (lenN (its n G)) (fun g => nth (N.to_nat g) (its n G) ARet) m (hd [] scheds)) as [r| | |] eqn:E; try contradiction; [|now left].
        destruct (Step _ _ E) as [R Hr]. destruct (IH r Hd2 Hok2 Hr) as [I1 _]. destruct (I1 (tl scheds)) as [->|(m' & -> & Rm)]; [now left|]. right. exists m'. split; [reflexivity|].
        eapply result_app; eassumption.
      + destruct (Step _ _ P2) as [R Hr]. destruct (IH r0 Hd2 Hok2 Hr) as [_ (ss & m' & E & Rm)]. exists (s0 :: ss), m'. cbn [map run_rounds hd tl]. rewrite P2. split; [exact E|].
        eapply result_app; eassumption.
  Qed.
End Rounds.

Lemma in_groups_concat {T} size fuel : forall l : list T, (0 < size)%nat -> (length l <= fuel)%nat -> concat (in_groups size fuel l) = l.
Proof.
  induction fuel as [|fuel IH]; intros l Hs Hl.
  - destruct l; [reflexivity|simpl in Hl; lia].
  - destruct l as [|a l]; [reflexivity|]. change (in_groups size (S fuel) (a :: l)) with (firstn size (a :: l) :: in_groups size fuel (skipn size (a :: l))). cbn [concat].
    rewrite IH; [apply firstn_skipn|assumption|]. rewrite skipn_length. cbn [length] in *. lia.
Qed.
Lemma in_groups_map {T U} (f : T -> U) size fuel : forall l, in_groups size fuel (map f l) = map (map f) (in_groups size fuel l).
Proof.
  induction fuel as [|fuel IH]; intros l; [destruct l; reflexivity|]. destruct l as [|a l]; [reflexivity|].
  change (in_groups size (S fuel) (a :: l)) with (firstn size (a :: l) :: in_groups size fuel (skipn size (a :: l))).
  change (in_groups size (S fuel) (map f (a :: l))) with (firstn size (map f (a :: l)) :: in_groups size fuel (skipn size (map f (a :: l)))).
  cbn [map]. rewrite <- !map_cons. now rewrite skipn_map, IH, firstn_map.
Qed.
Lemma map_fst_numbered {T} (L : list T) : map fst (combine (seqN (lenN L)) L) = seqN (lenN L).
Proof.
  assert (H : length (seqN (lenN L)) = length L) by (rewrite length_seqN; unfold lenN; lia).
  revert H. generalize (seqN (lenN L)). induction L as [|a L IH]; intros [|x l] H; try discriminate; [reflexivity|]. cbn [combine map fst]. f_equal. apply IH. simpl in H. lia.
Qed.
Lemma in_numbered {T} (L : list T) b l : In (b, l) (combine (seqN (lenN L)) L) <-> nth_error L (N.to_nat b) = Some l.
Proof.
  unfold seqN. assert (G : forall s b, In (b, l) (combine (map N.of_nat (seq s (length L))) L) <-> exists i, b = N.of_nat (s + i) /\ nth_error L i = Some l).
  { clear b. induction L as [|a L IH]; intros s b.
    - simpl. split; [intros []|]. intros ([|i] & _ & H); discriminate.
    - cbn [length seq map combine In]. rewrite IH. split.
      + intros [H|(i & -> & H)]; [injection H as <- <-; exists 0%nat; split; [f_equal; lia|reflexivity]|]. exists (S i). split; [f_equal; lia|assumption].
      + intros ([|i] & -> & H); [injection H as ->; left; f_equal; f_equal; lia|right; exists i; split; [f_equal; lia|assumption]]. }
  unfold lenN. rewrite Nnat.Nat2N.id, G. split; [intros (i & -> & H); now rewrite Nat.add_0_l, Nnat.Nat2N.id|]. intros H. exists (N.to_nat b). split; [lia|assumption].
Qed.
Lemma round_iters_its n o group : round_iters 0 0 (2 ^ n) o group = its n (map (fun '(b, (begin, end_)) => (b, slice (ob_ops o) begin end_)) group).
Proof.
  unfold round_iters, its, blocks. change (popcount 0 + 1) with 1. induction group as [|[b [s e]] g IH]; [reflexivity|]. cbn [flat_map map]. f_equal. exact IH.
Qed.
(** What get_applied_states should return. *)
Definition applied_lists (n : N) (L : list (list pauli)) (psi : state) (r : N -> state) : Prop :=
  forall b l x, nth_error L b = Some l -> x < 2 ^ n -> r (N.of_nat b) x = op_act (op_of_terms l) psi x.
Theorem ob_applied_correct L n psi batch_size : 0 < n -> n <= 63 -> 0 < batch_size -> Forall (Forall (pauli_fits n)) L -> Forall (fun l => private l \/ flipping l) L ->
  (forall scheds, ob_applied_states (ob_of_lists L) n psi batch_size scheds = None \/
     exists r, ob_applied_states (ob_of_lists L) n psi batch_size scheds = Some (Ok r) /\ applied_lists n L psi r) /\
  (exists scheds r, ob_applied_states (ob_of_lists L) n psi batch_size scheds = Some (Ok r) /\ applied_lists n L psi r).
Proof.
  intros Hn0 Hn Hbs Hfit Hkind. set (RR := ranges 0 (map lenN L)).
  assert (Hlen : length RR = length L) by (unfold RR; now rewrite length_ranges, map_length).
  assert (Enum : map (fun '(b, (begin, end_)) => (b, slice (ob_ops (ob_of_lists L)) begin end_)) (combine (seqN (lenN RR)) RR) = combine (seqN (lenN L)) L).
  { rewrite <- (map_id (combine (seqN (lenN L)) L)). apply map_numbered; [assumption|].
    intros i a l Ea El. destruct (nth_ranges L 0 i l El) as (P & R & E1 & E2 & E3). unfold RR in Ea. rewrite E3 in Ea. injection Ea as <-. f_equal.
    cbn [ob_ops ob_of_lists]. rewrite N.add_0_l. rewrite E1, concat_app. cbn [concat]. apply slice_mid. }
  set (GG := in_groups (N.to_nat batch_size) (length RR) (combine (seqN (lenN L)) L)).
  assert (EGG : map (round_iters 0 0 (2 ^ n) (ob_of_lists L)) (in_groups (N.to_nat batch_size) (length RR) (combine (seqN (lenN RR)) RR)) = map (its n) GG).
  { unfold GG. rewrite <- Enum, in_groups_map, map_map. apply map_ext. intros g. apply round_iters_its. }
  assert (EC : concat GG = combine (seqN (lenN L)) L).
  { unfold GG. apply in_groups_concat; [lia|]. rewrite combine_length, Hlen. lia. }
  assert (HB : lenN RR = lenN L) by (unfold lenN; now rewrite Hlen).
  set (m0 := fun a : saddr => if fst a then C0 else psi (snd (snd a))).
  destruct (run_rounds_ok n psi (lenN L) Hn0 Hn GG m0) as [R1 R2].
  - rewrite EC, map_fst_numbered. apply NoDup_seqN.
  - rewrite EC. apply Forall_forall. intros [b l] Hin. apply in_numbered in Hin as Hl. unfold element_ok. cbn [fst snd].
    split; [|split; [rewrite Forall_forall in Hfit; apply Hfit; eapply nth_error_In; eassumption|rewrite Forall_forall in Hkind; apply Hkind; eapply nth_error_In; eassumption]].
    assert (N.to_nat b < length L)%nat by (apply nth_error_Some; congruence). unfold lenN. lia.
  - intros b y _. reflexivity.
  - assert (Rows : forall m', rounds_result n psi (concat GG) m0 m' -> applied_lists n L psi (fun b i => m' (res_at b i))).
    { intros m' (_ & H & _) b l x El Hx. rewrite (H (N.of_nat b) l x); [unfold m0, res_at; cbn [fst]; unfold op_act; cbn [o_terms op_of_terms]; ring| |assumption].
      rewrite EC. apply in_numbered. now rewrite Nnat.Nat2N.id. }
    assert (Hb0 : (batch_size =? 0) = false) by (apply N.eqb_neq; lia).
    unfold ob_applied_states. rewrite rows_of_lists. fold RR. rewrite Hb0. cbn [andb]. cbv zeta. rewrite EGG, HB. fold m0. split.
    + intros scheds. destruct (R1 scheds) as [->|(m' & -> & H)]; [now left|]. right. eexists. split; [reflexivity|]. now apply Rows.
    + destruct R2 as (scheds & m' & E & H). exists scheds. rewrite E. eexists. split; [reflexivity|]. now apply Rows.
Qed.
