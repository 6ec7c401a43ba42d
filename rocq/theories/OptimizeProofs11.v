(** The size of the gates optimize makes. *)
From Verif Require Export OptimizeProofs10.
From Coq Require Import Lia ZifyBool ZifyN ZifyNat.
Open Scope N_scope.
Open Scope list_scope.

(** ** Merging two gates *)
Definition ops_of (e : tgate) : N := base_operands (g_base (snd e)).
Definition common_of (e1 e2 : tgate) : N :=
  N.land (N.land (g_c (g_base (snd e1))) (g_c (g_base (snd e2)))) (not64 (N.lxor (g_cv (g_base (snd e1))) (g_cv (g_base (snd e2))))).
Lemma common_in e1 e2 q : N.testbit (common_of e1 e2) q = true -> N.testbit (g_c (g_base (snd e1))) q = true /\ N.testbit (g_c (g_base (snd e2))) q = true.
Proof. unfold common_of. rewrite !N.land_spec, !andb_true_iff. tauto. Qed.
Lemma target_uncommon e1 e2 q : gate_wf (snd e1) \/ True -> N.land (g_t (g_base (snd e1))) (g_c (g_base (snd e1))) = 0 -> N.testbit (g_t (g_base (snd e1))) q = true -> N.testbit (common_of e1 e2) q = false.
Proof. intros _ Hd Ht. apply not_true_is_false. intros Hc. apply common_in in Hc. destruct Hc as [Hc _]. rewrite (land0_tb _ _ q Hd Ht) in Hc. discriminate. Qed.
Lemma target_uncommon2 e1 e2 q : N.land (g_t (g_base (snd e2))) (g_c (g_base (snd e2))) = 0 -> N.testbit (g_t (g_base (snd e2))) q = true -> N.testbit (common_of e1 e2) q = false.
Proof. intros Hd Ht. apply not_true_is_false. intros Hc. apply common_in in Hc. destruct Hc as [_ Hc]. rewrite (land0_tb _ _ q Hd Ht) in Hc. discriminate. Qed.
Lemma in_with_values cs vs q : In q (map fst (with_values cs vs)) -> In q cs.
Proof. unfold with_values. intros H. apply in_map_iff in H. destruct H as ([a b] & <- & H). now apply in_combine_l in H. Qed.

Lemma lor_u64 a b : a < two64 -> b < two64 -> N.lor a b < two64.
Proof. exact (fun Ha Hb => proj2 (lor_lt_iff a b 64) (conj Ha Hb)). Qed.
Lemma land_u64 a b : a < two64 -> N.land a b < two64.
Proof. exact (fun Ha => land_lt_l a b 64 Ha). Qed.
Section Sized.
  Variables (vf : bool) (g1 g2 : tgate).
  Hypothesis W1 : gate_wf (snd g1).
  Hypothesis W2 : gate_wf (snd g2).
  Definition inside (q : N) : Prop := N.testbit (ops_of g1) q = true \/ N.testbit (ops_of g2) q = true.
  Definition block (q : N) : Prop := inside q /\ N.testbit (common_of g1 g2) q = false.
  Definition sized_call (k : call) : Prop := call_typed k /\ (forall q, In q (call_targets k) -> block q) /\ forall q, In q (map fst (call_controls k)) -> inside q.
  Definition sized (r : res (tgate * R)) : Prop := forall g ph, r = Ok (g, ph) -> exists k, sized_call k /\ make vf k = Ok (snd g) /\ fst g = true.
  Definition sized_case (c : case) : Prop := forall r, c = Some r -> sized r.
  Lemma t1_block q : N.testbit (g_t (g_base (snd g1))) q = true -> block q.
  Proof using W1. intros H. split; [left; unfold ops_of, base_operands; now rewrite N.lor_spec, H|]. apply target_uncommon; [now right|apply W1|assumption]. Qed.
  Lemma t2_block q : N.testbit (g_t (g_base (snd g2))) q = true -> block q.
  Proof using W2. intros H. split; [right; unfold ops_of, base_operands; now rewrite N.lor_spec, H|]. apply target_uncommon2; [apply W2|assumption]. Qed.
  Lemma c1_inside vs q : In q (map fst (with_values (gate_control_list (snd g1)) vs)) -> inside q.
  Proof using W1.
    intros H. apply in_with_values in H. unfold gate_control_list in H. rewrite mask_to_vector_bits in H by apply W1. apply in_bits in H. left. unfold ops_of, base_operands. rewrite N.lor_spec, H. apply orb_true_r.
  Qed.
  Lemma sized_returning k ph : sized_call k -> sized (returning vf k ph).
  Proof. intros Hk g ph' H. unfold returning in H. inv_bind H. injection H as <- _. now exists k. Qed.
  Lemma sized_I ph : sized (returning vf CallI ph).
  Proof. apply sized_returning. split; [exact I|]. split; intros q []. Qed.
  Lemma sized_or a b : sized_case a -> sized_case b -> sized_case (or_else a b).
  Proof. intros Ha Hb r. unfold or_else. destruct a as [r'|]; [apply Ha|apply Hb]. Qed.
  Lemma sized_1 k1 b1 k ph : seen_type g1 = Some (EStd k1 b1) -> sized (return1 vf g1 k ph).
  Proof using W1.
    intros V. apply seen_snd in V. apply sized_returning. split; [exact I|]. split; [|apply c1_inside].
    cbn [call_targets]. intros q [<-|[]]. pose proof W1 as W. rewrite V in W. destruct (sem_std k1 b1 W) as (t & Ht & _ & _ & Hh & _). apply t1_block. rewrite V, Hh. cbn [g_base]. rewrite Ht. apply N.pow2_bits_true.
  Qed.
  Lemma sized_dense : sized (merge_gate_dense_matrix vf (snd g1) (snd g2)).
  Proof using W1 W2.
    intros g ph H. unfold merge_gate_dense_matrix in H. repeat (inv_bind H). injection H as <- _. eexists. split; cycle 1; [split; [eassumption|reflexivity]|].
    fold (common_of g1 g2) in *. pose proof W1 as [(_ & _ & Ht1 & Hc1) _]. pose proof W2 as [(_ & _ & Ht2 & Hc2) _].
    match goal with |- sized_call (CallDense ?l _ ?c _ _) => set (ops := l); set (cs := c) end.
    assert (Hu : N.lor (N.lor (g_t (g_base (snd g1))) (g_c (g_base (snd g1)))) (N.lor (g_t (g_base (snd g2))) (g_c (g_base (snd g2)))) < two64) by (apply lor_u64; apply lor_u64; assumption).
    split; [exact I|]. cbn [call_targets call_controls]. split.
    - intros q Hq. unfold ops in Hq. rewrite mask_to_vector_bits in Hq by (apply land_u64; exact Hu). apply in_bits in Hq.
      rewrite land_not64 in Hq by exact Hu. rewrite N.ldiff_spec, andb_true_iff, negb_true_iff in Hq. destruct Hq as [Hq Hn]. split; [|exact Hn].
      rewrite N.lor_spec, orb_true_iff in Hq. exact Hq.
    - intros q Hq. apply in_with_values in Hq. unfold cs in Hq. rewrite mask_to_vector_bits in Hq by (unfold common_of; apply land_u64, land_u64; exact Hc1). apply in_bits in Hq. apply common_in in Hq. left. unfold ops_of, base_operands. rewrite N.lor_spec. destruct Hq as [-> _]. apply orb_true_r.
  Qed.
  Hypothesis NI1 : seen_type g1 <> Some EI.
  Hypothesis NI2 : seen_type g2 <> Some EI.
  Lemma sized_phases : sized_case (merge_phases vf g1 g2).
  Proof using W1.
    clear NI1 NI2. intros r H. unfold merge_phases in H. destruct (seen_type g1) as [[]|]; try discriminate. destruct (seen_type g2) as [[]|]; try discriminate. injection H as <-. apply sized_returning.
    split; [exact I|]. split; [intros q []|apply c1_inside].
  Qed.
  Lemma sized_paulis1 : sized_case (merge_paulis1 vf g1 g2).
  Proof using W1 NI1.
    intros r H. unfold merge_paulis1 in H. destruct (get_pauli_id (seen_type g1)) as [i|] eqn:P1; [|discriminate]. destruct (get_pauli_id (seen_type g2)) as [j|] eqn:P2; [|discriminate].
    destruct (std_of_pauli_id _ _ NI1 P1) as (k1 & b1 & V1 & _).
    repeat match type of H with (if ?c then _ else _) = _ => destruct c | (match ?c with _ => _ end) = _ => destruct c end; try discriminate; injection H as <-; first [apply sized_I|apply (sized_1 k1 b1 _ _ V1)].
  Qed.
  Lemma pauli_view_mask v e target p : v = Some e -> e <> EI -> gate_wf e -> (forall k b, e = EStd k b -> hd 0 (gate_target_list e) = target) -> pauli_view v target = Some (Ok p) ->
    pauli_u64 p /\ g_t (g_base e) = N.lor (p_bf p) (p_pf p).
  Proof.
    intros V He W Ht H. destruct e as [| |k b| | | |b p0| | |]; try (subst v; discriminate); try (now elim He).
    - destruct (pauli_view_ok (true, EI) (true, EI) 0 eq_refl eq_refl eq_refl v (EStd k b) target V He W) with (rp := Ok p) as (p' & [= <-] & Hu & Hm & _); auto.
      destruct W as [_ [q Hq]]. cbn [g_base] in *. rewrite Hq, popcount_pow2. lia.
    - subst v. cbn in H. injection H as <-. destruct W as [(_ & _ & Hl & _) Hw]. cbn [g_base] in *. rewrite Hw in Hl. split; [exact (proj1 (lor_lt_iff _ _ 64) Hl)|exact Hw].
  Qed.
  Lemma sized_paulis : sized_case (merge_paulis vf g1 g2).
  Proof using W1 W2 NI1 NI2.
    intros r H. unfold merge_paulis in H.
    destruct (pauli_view (seen_type g1) (hd 0 (gate_target_list (snd g1)))) as [rp1|] eqn:P1; [|discriminate].
    destruct (pauli_view (seen_type g2) (hd 0 (gate_target_list (snd g2)))) as [rp2|] eqn:P2; [|discriminate].
    assert (V1 : seen_type g1 = Some (snd g1)). { destruct g1 as [[] e]; [reflexivity|discriminate P1]. }
    assert (V2 : seen_type g2 = Some (snd g2)). { destruct g2 as [[] e]; [reflexivity|discriminate P2]. }
    injection H as <-. intros g ph H. inv_bind H. inv_bind H. subst rp1 rp2.
    destruct (pauli_view_mask _ _ _ _ V1 (seen_not_I _ _ NI1 V1) W1 (fun _ _ _ => eq_refl) P1) as [U1 T1].
    destruct (pauli_view_mask _ _ _ _ V2 (seen_not_I _ _ NI2 V2) W2 (fun _ _ _ => eq_refl) P2) as [U2 T2].
    revert g ph H. apply sized_returning. split; [now apply pauli_mul_u64|]. split; [|apply c1_inside].
    cbn [call_targets]. intros q Hq. apply in_bits in Hq. unfold pauli_mul in Hq. cbn [p_bf p_pf] in Hq. rewrite N.lor_spec, !N.lxor_spec in Hq.
    destruct (N.testbit (g_t (g_base (snd g1))) q) eqn:E1; [now apply t1_block|]. destruct (N.testbit (g_t (g_base (snd g2))) q) eqn:E2; [now apply t2_block|].
    rewrite T1, N.lor_spec in E1. rewrite T2, N.lor_spec in E2. apply orb_false_iff in E1. apply orb_false_iff in E2. destruct E1 as [A1 A2], E2 as [A3 A4]. rewrite A1, A2, A3, A4 in Hq. discriminate.
  Qed.
  Lemma sized_table f tbl m : (forall v o, f v = Some o -> v = Some EI \/ exists k b, v = Some (EStd k b)) -> sized_case (merge_table vf g1 g2 f tbl m).
  Proof using W1 NI1.
    intros Hf r H. unfold merge_table in H. destruct (f (seen_type g1)) eqn:E; [|discriminate]. destruct (f (seen_type g2)); [|discriminate]. destruct (_ =? _); [|discriminate].
    destruct (tbl _) as [k|]; [|discriminate]. injection H as <-. unfold return_opt. destruct (Hf _ _ E) as [|(k1 & b1 & V)]; [contradiction|]. destruct k as [k|]; [apply (sized_1 k1 b1 _ _ V)|apply sized_I].
  Qed.
  Lemma sized_rotations view K : (forall v o, view v = Some o -> v = Some EI \/ exists k b, v = Some (EStd k b)) -> sized_case (merge_rotations vf g1 g2 view K).
  Proof using W1 NI1.
    intros Hf r H. unfold merge_rotations in H. destruct (view (seen_type g1)) as [[a1 p1]|] eqn:E; [|discriminate]. destruct (view (seen_type g2)) as [[a2 p2]|]; [|discriminate]. destruct (_ =? _); [|discriminate].
    destruct (_ || _); [|discriminate]. injection H as <-. destruct (Hf _ _ E) as [|(k1 & b1 & V)]; [contradiction|]. apply (sized_1 k1 b1 _ _ V).
  Qed.
  Lemma sized_swaps : sized_case (merge_swaps vf g1 g2).
  Proof using Type. clear NI1 NI2. intros r H. unfold merge_swaps in H. destruct (seen_type g1) as [[]|]; try discriminate. destruct (seen_type g2) as [[]|]; try discriminate. destruct (_ =? _); [|discriminate]. injection H as <-. apply sized_I. Qed.
End Sized.
Lemma view_oct v o : get_oct_phase v = Some o -> v = Some EI \/ exists k b, v = Some (EStd k b).
Proof. destruct v as [[]|]; intros H; try discriminate; eauto. Qed.
Lemma view_qx v o : get_quad_rx v = Some o -> v = Some EI \/ exists k b, v = Some (EStd k b).
Proof. destruct v as [[]|]; intros H; try discriminate; eauto. Qed.
Lemma view_qy v o : get_quad_ry v = Some o -> v = Some EI \/ exists k b, v = Some (EStd k b).
Proof. destruct v as [[]|]; intros H; try discriminate; eauto. Qed.
Lemma view_rz v o : rz_view v = Some o -> v = Some EI \/ exists k b, v = Some (EStd k b).
Proof. destruct v as [[]|]; intros H; try discriminate; eauto. Qed.
Lemma view_rx v o : rx_view v = Some o -> v = Some EI \/ exists k b, v = Some (EStd k b).
Proof. destruct v as [[]|]; intros H; try discriminate; eauto. Qed.
Lemma view_ry v o : ry_view v = Some o -> v = Some EI \/ exists k b, v = Some (EStd k b).
Proof. destruct v as [[]|]; intros H; try discriminate; eauto. Qed.

Definition merge_result (vf : bool) (g1 g2 g : tgate) : Prop :=
  gate_wf (snd g) /\ (forall q, N.testbit (ops_of g) q = true -> inside g1 g2 q) /\ forall q, N.testbit (g_t (g_base (snd g))) q = true -> block g1 g2 q.
Lemma result_1 vf g1 g2 : gate_wf (snd g1) -> merge_result vf g1 g2 g1.
Proof. intros W. split; [exact W|]. split; [intros q H; now left|apply (t1_block g1 g2 W)]. Qed.
Lemma result_2 vf g1 g2 : gate_wf (snd g2) -> merge_result vf g1 g2 g2.
Proof. intros W. split; [exact W|]. split; [intros q H; now right|apply (t2_block g1 g2 W)]. Qed.
Lemma sized_result vf g1 g2 r g ph : sized vf g1 g2 r -> r = Ok (g, ph) -> merge_result vf g1 g2 g.
Proof.
  intros Hs H. destruct (Hs g ph H) as (k & (Hty & Ht & Hc) & Hk & _). pose proof (make_means vf k (snd g) Hty Hk) as Hm. split; [apply Hm|]. split.
  - intros q Hq. unfold ops_of, base_operands in Hq. rewrite N.lor_spec, orb_true_iff in Hq. destruct Hq as [Hq|Hq]; [apply (means_t _ _ _ _ Hm) in Hq; apply (Ht q Hq)|apply (means_c _ _ _ _ Hm) in Hq; apply (Hc q Hq)].
  - intros q Hq. apply (means_t _ _ _ _ Hm) in Hq. apply (Ht q Hq).
Qed.
Definition general_merge (vf : bool) (g1 g2 : tgate) : res (tgate * R) :=
  if negb ((g_c (g_base (snd g1)) =? g_c (g_base (snd g2))) && (g_cv (g_base (snd g1)) =? g_cv (g_base (snd g2)))) then merge_gate_dense_matrix vf (snd g1) (snd g2)
      else
        match or_else (merge_phases vf g1 g2)
             (or_else (merge_paulis1 vf g1 g2)
             (or_else (merge_paulis vf g1 g2)
             (or_else (merge_table vf g1 g2 get_oct_phase oct_phase_gate 8)
             (or_else (merge_rotations vf g1 g2 rz_view GU1)
             (or_else (merge_table vf g1 g2 get_quad_rx quad_rx_gate 4)
             (or_else (merge_rotations vf g1 g2 rx_view GRX)
             (or_else (merge_table vf g1 g2 get_quad_ry quad_ry_gate 4)
             (or_else (merge_rotations vf g1 g2 ry_view GRY)
                      (merge_swaps vf g1 g2))))))))) with
        | Some r => r
        | None => merge_gate_dense_matrix vf (snd g1) (snd g2)
        end.
Lemma general_sized vf g1 g2 : gate_wf (snd g1) -> gate_wf (snd g2) -> seen_type g1 <> Some EI -> seen_type g2 <> Some EI -> sized vf g1 g2 (general_merge vf g1 g2).
Proof.
  intros W1 W2 N1 N2. assert (Hd := sized_dense vf g1 g2 W1 W2). unfold general_merge. destruct (negb _); [exact Hd|].
  match goal with |- sized _ _ _ (match ?c with _ => _ end) => assert (Hc : sized_case vf g1 g2 c); [|destruct c; [now apply Hc|exact Hd]] end.
  repeat apply sized_or; try (apply sized_table; [exact W1|exact N1|first [exact view_oct|exact view_qx|exact view_qy]]); try (apply sized_rotations; [exact W1|exact N1|first [exact view_rz|exact view_rx|exact view_ry]]).
  - now apply sized_phases.
  - now apply sized_paulis1.
  - now apply sized_paulis.
  - apply sized_swaps.
Qed.
Lemma merge_gate_cases vf g1 g2 r : merge_gate vf g1 g2 = Ok r ->
  (seen_type g1 = Some EI /\ fst r = g2) \/ (seen_type g2 = Some EI /\ fst r = g1) \/ (fst r = g1 /\ exists b p, seen_type g2 = Some (EGlobalPhase b p)) \/ (fst r = g2 /\ exists b p, seen_type g1 = Some (EGlobalPhase b p)) \/
  (seen_type g1 <> Some EI /\ seen_type g2 <> Some EI /\ general_merge vf g1 g2 = Ok r).
Proof.
  unfold merge_gate. cbv zeta. match goal with |- (if ?c then _ else _) = _ -> _ => destruct c; [discriminate|] end. fold (general_merge vf g1 g2).
  destruct (seen_type g1) as [[]|] eqn:V1; try (intros [= <-]; tauto).
  all: destruct (seen_type g2) as [[]|] eqn:V2; try (intros [= <-]; tauto).
  all: repeat match goal with |- (if g_c ?b =? 0 then _ else _) = _ -> _ => destruct (g_c b =? 0) end.
  all: intros H; try (injection H as <-; cbn [fst]; eauto 8; fail).
  all: right; right; right; right; repeat split; try congruence; exact H.
Qed.
Lemma merge_sized vf g1 g2 g ph : gate_wf (snd g1) -> gate_wf (snd g2) -> merge_gate vf g1 g2 = Ok (g, ph) -> merge_result vf g1 g2 g.
Proof.
  intros W1 W2 H. destruct (merge_gate_cases _ _ _ _ H) as [[_ E]|[[_ E]|[[E _]|[[E _]|(N1 & N2 & E)]]]]; cbn [fst] in *.
  1,4: subst g; now apply result_2. 1,2: subst g; now apply result_1. exact (sized_result vf g1 g2 _ g ph (general_sized vf g1 g2 W1 W2 N1 N2) E).
Qed.
(** Pauli gates merge to a Pauli gate or to nothing *)
Definition pauli_kind (e : tgate) : bool := is_pauli_type (CElem e).
Lemma merge_pauli vf g1 g2 g ph : gate_wf (snd g1) -> gate_wf (snd g2) -> pauli_kind g1 = true -> pauli_kind g2 = true ->
  g_c (g_base (snd g1)) = g_c (g_base (snd g2)) -> g_cv (g_base (snd g1)) = g_cv (g_base (snd g2)) -> merge_gate vf g1 g2 = Ok (g, ph) ->
  g = (true, EI) \/ (pauli_kind g = true /\ (g_c (g_base (snd g1)) = 0 -> g_c (g_base (snd g)) = 0)).
Proof.
  intros W1 W2 P1 P2 Ec Ev H. destruct g1 as [[] e1]; [|discriminate]. destruct g2 as [[] e2]; [|discriminate]. cbn [snd] in *.
  destruct (merge_gate_cases _ _ _ _ H) as [[V E]|[[V E]|[[E (b & p & V)]|[[E (b & p & V)]|(N1 & N2 & E)]]]]; cbn [seen_type fst snd] in *; try (injection V as ->; discriminate).
  unfold general_merge in E. cbn [snd] in E. rewrite Ec, Ev, !N.eqb_refl in E. cbn [andb negb] in E.
  assert (Hsome : forall k, k = GX \/ k = GY \/ k = GZ -> forall ph', return1 vf (true, e1) k ph' = Ok (g, ph) -> pauli_kind g = true /\ (g_c (g_base e1) = 0 -> g_c (g_base (snd g)) = 0)).
  { intros k Hk ph' Hr. unfold return1, returning in Hr. inv_bind Hr. injection Hr as <- _. pose proof (make_kind _ _ _ E0) as Hkind. pose proof (make_means vf (Call1 _ _ _ _) _ I E0) as Hm. destruct v as [| |k' b| | | | | | |]; try contradiction. cbn in Hkind. subst k'. split; [destruct Hk as [->|[->| ->]]; reflexivity|].
    intros Hc. cbn [snd]. apply N.bits_inj_0. intros q. apply not_true_is_false. intros Hq. apply (means_c _ _ _ _ Hm) in Hq. cbn [call_controls] in Hq. apply in_with_values in Hq. unfold gate_control_list in Hq. cbn [snd] in Hq. rewrite Hc in Hq. exact Hq. }
  assert (Hpauli : forall r, merge_paulis vf (true, e1) (true, e2) = Some r -> r = Ok (g, ph) -> pauli_kind g = true /\ (g_c (g_base e1) = 0 -> g_c (g_base (snd g)) = 0)).
  { intros r Hr Eg. unfold merge_paulis in Hr. destruct (pauli_view _ _) as [rp1|] eqn:Q1; [|discriminate]. destruct (pauli_view (seen_type (true, e2)) _) as [rp2|] eqn:Q2; [|discriminate]. injection Hr as <-. inv_bind Eg. inv_bind Eg.
    subst rp1 rp2. unfold returning in Eg. inv_bind Eg. injection Eg as <- _.
    destruct (pauli_view_mask _ e1 _ _ eq_refl ltac:(congruence) W1 (fun _ _ _ => eq_refl) Q1) as [U1 _]. destruct (pauli_view_mask _ e2 _ _ eq_refl ltac:(congruence) W2 (fun _ _ _ => eq_refl) Q2) as [U2 _].
    pose proof (make_kind _ _ _ E0) as Hkind. pose proof (make_means vf (CallPauli _ _ _) _ (pauli_mul_u64 _ _ U2 U1) E0) as Hm. destruct v1; try contradiction. split; [reflexivity|].
    intros Hc. cbn [snd]. apply N.bits_inj_0. intros q. apply not_true_is_false. intros Hq. apply (means_c _ _ _ _ Hm) in Hq. cbn [call_controls] in Hq. apply in_with_values in Hq. unfold gate_control_list in Hq. cbn [snd] in Hq. rewrite Hc in Hq. exact Hq. }
  assert (Hph : merge_phases vf (true, e1) (true, e2) = None) by (unfold merge_phases; cbn [seen_type fst snd]; destruct e1; try reflexivity; discriminate P1). rewrite Hph in E. cbn [or_else] in E.
  destruct (merge_paulis1 vf (true, e1) (true, e2)) as [r|] eqn:M1; cbn [or_else] in E.
  - unfold merge_paulis1 in M1. destruct (get_pauli_id _) as [i|]; [|discriminate]. destruct (get_pauli_id _) as [j|]; [|discriminate]. destruct (_ =? _); [|discriminate].
    destruct (i =? j); [injection M1 as <-; left; unfold returning in E; inv_bind E; injection E as <- _; cbn in E0; now injection E0 as <-|]. right.
    repeat match type of M1 with (if ?c then _ else _) = _ => destruct c | (match ?c with _ => _ end) = _ => destruct c end; try discriminate; injection M1 as <-; eapply Hsome; try exact E; auto.
  - destruct (merge_paulis vf (true, e1) (true, e2)) as [r|] eqn:M2; cbn [or_else] in E; [right; now apply (Hpauli r)|]. exfalso. unfold merge_paulis in M2. cbn [seen_type fst snd] in M2.
    assert (Hv : forall e t, pauli_kind (true, e) = true -> exists r, pauli_view (Some e) t = Some r).
    { intros e t Hp. destruct e as [| |k b| | | | | | |]; try discriminate; cbn; eauto. destruct k; try discriminate; cbn; eauto. }
    destruct (Hv e1 (hd 0 (gate_target_list e1)) P1) as [r1 R1]. destruct (Hv e2 (hd 0 (gate_target_list e2)) P2) as [r2 R2]. rewrite R1, R2 in M2. discriminate.
Qed.
