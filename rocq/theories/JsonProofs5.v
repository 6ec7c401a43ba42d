(** Reading JSON that was not written by the library. *)
From Verif Require Export QasmProofs7 JsonProofs4 JsonProofs2.
From Coq Require Import Lia Lra ZifyBool ZifyN ZifyNat Permutation.
Open Scope N_scope.

(** ** Operands of what is read *)
Lemma values_within l : forall vs m r, vector_to_mask_values_aux m l vs = Ok r -> forall i, N.testbit r i = true -> N.testbit m i = true \/ In i l.
Proof.
  induction l as [|x l IH]; intros vs m r H i Hi; cbn in H; [injection H as <-; now left|]. destruct vs as [|v vs]; [discriminate|].
  destruct (v =? 1).
  - destruct (N.leb_spec 64 x); [discriminate|]. destruct (IH _ _ _ H i Hi) as [H1|H1]; [|right; now right].
    rewrite N.lor_spec, shl64_one, pow2_tb in H1 by assumption. apply orb_prop in H1. destruct H1 as [H1|H1]; [now left|]. apply N.eqb_eq in H1. right. left. congruence.
  - destruct (v =? 0); [|discriminate]. destruct (IH _ _ _ H i Hi) as [H1|H1]; [now left|right; now right].
Qed.
Lemma values_of_controls cs vs c cv : vector_to_mask cs = Ok c -> vector_to_mask_values cs vs = Ok cv -> N.land cv c = cv.
Proof.
  intros Hc Hv. apply vector_to_mask_ok in Hc. destruct Hc as (_ & _ & Hc). apply N.bits_inj. intros i. rewrite N.land_spec.
  destruct (N.testbit cv i) eqn:E; [|reflexivity]. destruct (values_within _ _ _ _ Hv i E) as [H|H]; [now rewrite N.bits_0 in H|]. apply Hc in H. now rewrite H.
Qed.
Lemma two64_pos : 0 < two64. Proof. reflexivity. Qed.
Lemma novalidate_u64 l : forall m r, m < two64 -> vector_to_mask_novalidate_aux m l = Ok r -> r < two64.
Proof.
  induction l as [|x l IH]; intros m r Hm H; cbn in H; [now injection H as <-|]. destruct (N.leb_spec 64 x); [discriminate|].
  eapply IH; [|exact H]. rewrite shl64_one by assumption. apply lor_two64; [exact Hm|now apply two64_pow2].
Qed.
Lemma masks_read vf j t m : masks_from_json vf j t = Ok m -> t = Ok (fst (fst m)) /\ snd (fst m) < two64 /\ N.land (snd m) (snd (fst m)) = snd m.
Proof.
  intros H. unfold masks_from_json in H. inv_bind H. inv_bind H. inv_bind H. inv_bind H. destruct m as [[t' c] cv]. apply mask_args_ok in H.
  destruct H as (Ht & Hc & Hv). cbn [fst snd]. split; [exact Ht|]. split; [now apply vector_to_mask_u64 in Hc|now apply (values_of_controls v0 v2)].
Qed.
Lemma base_read vf j t m b : masks_from_json vf j t = Ok m -> (forall x, t = Ok x -> x < two64) -> make_base (fst (fst m)) (snd (fst m)) (snd m) = Ok b -> base_ok b.
Proof.
  intros H Ht Hb. apply masks_read in H. destruct H as (H1 & H2 & H3). apply make_base_ok in Hb. destruct Hb as [Hd ->]. apply Ht in H1.
  unfold base_ok. cbn [g_t g_c g_cv]. auto.
Qed.
Lemma key_u64 j key x : mask_of_key j key = Ok x -> x < two64.
Proof. unfold mask_of_key. intros H. inv_bind H. inv_bind H. now apply vector_to_mask_u64 in H. Qed.
Local Transparent vector_to_mask_novalidate.
Lemma pauli_base_read vf j m p b : masks_from_json vf j (Ok 0) = Ok m -> make_pauli_base p (snd (fst m)) (snd m) = Ok b -> base_ok b.
Proof.
  intros H Hb. apply masks_read in H. destruct H as (H1 & H2 & H3). unfold make_pauli_base in Hb. inv_bind Hb. apply make_base_ok in Hb. destruct Hb as [Hd ->].
  unfold vector_to_mask_novalidate in E. pose proof (novalidate_u64 _ _ _ two64_pos E). unfold base_ok. cbn [g_t g_c g_cv]. auto.
Qed.
Lemma permutation_read l g : make_permutation_impl l = Ok g -> base_ok (g_base g).
Proof.
  unfold make_permutation_impl. intros H. inv_bind H. destruct (64 <=? _); [discriminate|]. destruct (negb _); [discriminate|]. inv_bind H. injection H as <-.
  cbn [g_base]. apply make_base_ok in E0. destruct E0 as [Hd ->]. apply vector_to_mask_u64 in E. unfold base_ok. cbn [g_t g_c g_cv]. rewrite N.land_0_r. pose proof two64_pos. auto.
Qed.
Lemma egate_read vf type j g : egate_from_json vf type j = Some (Ok g) -> base_ok (g_base g).
Proof.
  unfold egate_from_json. destruct (std1_from_json type j) as [k|].
  - intros H. injection H as H. inv_bind H. inv_bind H. destruct v as [[t c] cv] eqn:Ev. inv_bind H. injection H as <-. cbn [g_base].
    eapply base_read; [exact E|intros x; apply key_u64|exact E1].
  - destruct (String.eqb type "I"); [intros [= <-]; split; [reflexivity|]; split; [reflexivity|]; split; apply two64_pos|].
    destruct (String.eqb type "GlobalPhase").
    { intros H. injection H as H. inv_bind H. inv_bind H. destruct v as [[t c] cv] eqn:Ev. inv_bind H. injection H as <-. cbn [g_base].
      eapply base_read; [exact E|intros x Hx; injection Hx as <-; apply two64_pos|exact E1]. }
    destruct (String.eqb type "Swap").
    { intros H. injection H as H. unfold base_from_json in H. inv_bind H. injection H as <-. cbn [g_base]. inv_bind E. destruct v0 as [[t c] cv] eqn:Ev.
      eapply base_read; [exact E0|intros x; apply key_u64|exact E]. }
    destruct (String.eqb type "Ecr").
    { intros H. injection H as H. inv_bind H. inv_bind H. inv_bind H. destruct v as [[t c] cv] eqn:Ev. inv_bind H. injection H as <-. cbn [g_base].
      eapply base_read; [exact E|intros x; apply key_u64|exact E2]. }
    destruct (String.eqb type "Permutation").
    { intros H. injection H as H. inv_bind H. inv_bind H. now apply permutation_read in H. }
    destruct (String.eqb type "Pauli").
    { intros H. injection H as H. inv_bind H. inv_bind H. inv_bind H. destruct v as [[t c] cv] eqn:Ev. inv_bind H. injection H as <-. cbn [g_base].
      eapply pauli_base_read; [exact E|exact E2]. }
    destruct (String.eqb type "PauliRotation").
    { intros H. injection H as H. inv_bind H. inv_bind H. inv_bind H. inv_bind H. destruct v as [[t c] cv] eqn:Ev. inv_bind H. injection H as <-. cbn [g_base].
      eapply pauli_base_read; [exact E|exact E3]. }
    discriminate.
Qed.
Lemma collect_in {A B} (f : A -> res B) l m : collectR f l = Ok m -> forall y, In y m -> exists x, In x l /\ f x = Ok y.
Proof.
  revert m. induction l as [|a l IH]; intros m H y Hy; cbn [collectR] in H; [injection H as <-; destruct Hy|]. inv_bind H. inv_bind H. injection H as <-.
  destruct Hy as [<-|Hy]; [exists a; split; [now left|assumption]|]. destruct (IH _ E0 y Hy) as (x & Hx & Ex). exists x. split; [now right|exact Ex].
Qed.
Lemma rec_read vf fuel : forall j g, gate_from_json_rec vf fuel j = Ok g -> stored_as (fun g => base_ok (g_base g)) g.
Proof.
  induction fuel as [|fuel IH]; intros j g H; cbn [gate_from_json_rec] in H; [discriminate|]. inv_bind H. inv_bind H.
  destruct (egate_from_json vf v0 j) as [r|] eqn:Er.
  - inv_bind H. injection H as <-. constructor. subst. now apply egate_read in Er.
  - destruct (String.eqb v0 "Measurement").
    + unfold measurement_from_json in H. inv_bind H. inv_bind H. inv_bind H. inv_bind H. inv_bind H. injection H as <-.
      apply make_base_ok in E5. destruct E5 as [_ ->]. constructor. cbn [g_t]. now apply key_u64 in E2.
    + destruct (String.eqb v0 "Probabilistic"); [|discriminate]. inv_bind H. inv_bind H. inv_bind H. inv_bind H. unfold make_probabilistic in H. inv_bind H. injection H as <-.
      eapply stored_impl; [|exact E5]. intros g Hg. unfold get_vector in E4. destruct v3; try discriminate. destruct (collect_in _ _ _ E4 g Hg) as (x & _ & Hx). now apply IH in Hx.
Qed.
Lemma stored_sound g : stored_as (fun g => base_ok (g_base g)) g -> sound g.
Proof.
  induction 1 as [t g Hb|t bit reset Ht|t d gs (Hne & Hl & Hu & Hs) Hst IH Hal].
  - constructor. destruct (base_operands_distinct _ Hb) as [Hd Hf]. unfold sound_operands, gate_target_list, gate_control_list, gate_control_values.
    split; [|split].
    + eapply Permutation_NoDup; [apply Permutation_app_comm|exact Hd].
    + apply Forall_app in Hf. destruct Hf as [H1 H2]. apply Forall_app. split; assumption.
    + destruct Hb as (_ & _ & _ & Hc). rewrite mask_to_values_bits, mask_to_vector_bits, map_length by exact Hc. reflexivity.
  - constructor.
  - constructor; auto.
    + now apply forallb_unit.
    + now apply sum_is_one_iff.
    + intros g Hg. apply Hal in Hg. destruct g as [|?|]; [exact I|destruct Hg|exact I].
Qed.
Theorem read_sound vf j g : gate_from_json vf j = Ok g -> sound g.
Proof. intros H. now apply rec_read, stored_sound in H. Qed.

(** ** What goes wrong *)
Definition X0 : egate := EStd GX (GBase 1 0 0).
Definition Y0 : egate := EStd GY (GBase 1 0 0).
Definition Z0 : egate := EStd GZ (GBase 1 0 0).
Lemma std_held k g : make true (Call1 k 0 [] []) = Ok g -> held (CElem (true, g)).
Proof. intros H. apply held_gate. apply made_call with true (Call1 k 0 [] []); [exact I|exact H]. Qed.

Definition halves : list R := [/ 2; / 2]%R.
Lemma halves_ok {G} (a b : G) : shape halves [a; b].
Proof.
  split; [discriminate|]. split; [reflexivity|]. split; [apply forallb_unit; repeat constructor; lra|]. apply sum_is_one_iff. unfold halves, Rsuml. cbn [map fold_right].
  replace (/ 2 + (/ 2 + 0) - 1)%R with 0%R by lra. rewrite Rabs_R0. lra.
Qed.
Definition inner : cgate := CProb true halves [CElem (true, X0); CElem (true, Y0)].
Definition inner' : cgate := CProb false halves [CElem (false, X0); CElem (false, Y0)].
Definition outer : cgate := CProb true halves [inner'; CElem (true, Z0)].
Lemma inner_made : make_probabilistic halves [CElem (true, X0); CElem (true, Y0)] = Ok inner.
Proof. unfold make_probabilistic. rewrite impl_singles; [reflexivity|apply halves_ok|]. intros p g [<-|[<-|[]]]; reflexivity. Qed.
Lemma inner_inverse : c_inverse inner = Ok inner'.
Proof.
  change (c_inverse inner) with (x <- probabilistic_impl flatten_probabilistic_gate halves [CElem (false, X0); CElem (false, Y0)] ;; Ok (CProb false (fst x) (snd x))).
  rewrite impl_singles; [reflexivity|apply halves_ok|]. intros p g [<-|[<-|[]]]; reflexivity.
Qed.
Lemma outer_made : make_probabilistic halves [inner'; CElem (true, Z0)] = Ok outer.
Proof. unfold make_probabilistic. rewrite impl_singles; [reflexivity|apply halves_ok|]. intros p g [<-|[<-|[]]]; reflexivity. Qed.
Lemma outer_held : held outer.
Proof.
  eapply held_probabilistic; [|exact outer_made]. intros g [<-|[<-|[]]]; [|apply (std_held GZ); reflexivity].
  eapply held_inverse; [|exact inner_inverse]. eapply held_probabilistic; [|exact inner_made].
  intros g [<-|[<-|[]]]; [apply (std_held GX)|apply (std_held GY)]; reflexivity.
Qed.
Lemma outer_read vf : gate_from_json vf (gate_to_json outer) =
  Ok (CProb true [/ 2 * / 2; / 2 * / 2; / 2]%R [CElem (true, X0); CElem (true, Y0); CElem (true, Z0)]).
Proof.
  assert (Hw : forall k, gate_wf (EStd k (GBase 1 0 0))).
  { intros k. split; [split; [reflexivity|]; split; [reflexivity|]; split; reflexivity|]. now exists 0. }
  assert (E1 : gate_from_json_rec vf 6 (gate_to_json inner') = Ok inner).
  { rewrite read_gate; [reflexivity| | |cbn; lia].
    - constructor; [apply halves_ok| |]; intros g [<-|[<-|[]]]; try exact I; constructor; apply Hw.
    - repeat constructor. }
  assert (E2 : gate_from_json_rec vf 6 (gate_to_json (CElem (true, Z0))) = Ok (CElem (true, Z0))) by (apply read_egate; [apply Hw|reflexivity]).
  transitivity (d <- get_vector get_double (double_list halves) ;; l <- collectR (gate_from_json_rec vf 6) [gate_to_json inner'; gate_to_json (CElem (true, Z0))] ;; make_probabilistic d l);
    [reflexivity|]. rewrite read_double_list. cbn [bindR collectR]. rewrite E1, E2. cbn [bindR]. unfold make_probabilistic, probabilistic_impl.
  destruct (halves_ok inner (CElem (true, Z0))) as (_ & _ & Hu & _). rewrite Hu. cbn [halves length Nat.eqb negb].
  change (flatten_all flatten_probabilistic_gate halves [inner; CElem (true, Z0)]) with
    (Ok [((/ 2 * / 2)%R, CElem (true, X0)); ((/ 2 * / 2)%R, CElem (true, Y0)); ((/ 2)%R, CElem (true, Z0))]). cbn [bindR map fst snd].
  replace (sum_is_one _) with true; [reflexivity|]. symmetry. apply sum_is_one_iff. unfold Rsuml. cbn [map fold_right].
  replace (/ 2 * / 2 + (/ 2 * / 2 + (/ 2 + 0)) - 1)%R with 0%R by lra. rewrite Rabs_R0. lra.
Qed.
Theorem nested_changes : exists g g', held g /\ (forall vf, gate_from_json vf (gate_to_json g) = Ok g') /\ length (alternatives g') <> length (alternatives g).
Proof. exists outer. eexists. split; [exact outer_held|]. split; [exact outer_read|]. cbn. lia. Qed.

(** P0, DenseMatrix and SparseMatrix gates cannot be read *)
Theorem projection_unread : exists g, fresh_gate g /\ forall vf, gate_from_json vf (gate_to_json g) = Throw.
Proof.
  exists (CElem (true, EStd GP0 (GBase 1 0 0))). assert (H : fresh_gate (CElem (true, EStd GP0 (GBase 1 0 0)))).
  { apply fm_gate with true (Call1 GP0 0 [] []); [exact I|reflexivity]. }
  split; [exact H|]. intros vf. now apply factory_unreadable.
Qed.
Theorem matrix_unread : exists g, fresh_gate g /\ (exists b M u, g = CElem (true, EDense b M u)) /\ forall vf, gate_from_json vf (gate_to_json g) = Throw.
Proof.
  exists (CElem (true, EDense (GBase 1 0 0) (DMat 2 2 (fun i j => if i =? j then C1 else C0)) true)).
  match goal with |- fresh_gate ?g /\ _ => assert (H : fresh_gate g) end.
  { apply fm_gate with true (CallDense [0] (DMat 2 2 (fun i j => if i =? j then C1 else C0)) [] [] true); [exact I|reflexivity]. }
  split; [exact H|]. split; [eauto|]. intros vf. now apply factory_unreadable.
Qed.
(** the Hermitian flag *)
Theorem flag_lost : exists o o', op_u64 o /\ op_from_json (op_to_json o) = Ok o' /\ o_herm o = true /\ o_herm o' = false.
Proof.
  exists (Op [Pauli Ci 1 0] true false). eexists. assert (H : op_u64 (Op [Pauli Ci 1 0] true false)) by (repeat constructor).
  split; [exact H|]. split; [apply read_operator; exact H|]. split; [reflexivity|]. cbn [o_terms op_of_terms o_herm].
  unfold all_real. cbn [forallb p_coef]. unfold is_real, Ci. cbn [snd fst]. destruct (Req_EM_T 1 0); [lra|]. reflexivity.
Qed.
Theorem default_batch_unwritten : ob_to_json ob_default = UB.
Proof. reflexivity. Qed.

(** malformed JSON *)
Theorem two_targets vf : gate_from_json vf (x_json [0; 1] [] []) = Ok (CElem (true, EStd GX (GBase 3 0 0))).
Proof. destruct vf; reflexivity. Qed.
Theorem no_target vf : gate_from_json vf (x_json [] [] []) = Ok (CElem (true, EStd GX (GBase 0 0 0))).
Proof. destruct vf; reflexivity. Qed.
Theorem missing_value vf : gate_from_json vf (x_json [0] [1] []) = UB.
Proof. destruct vf; reflexivity. Qed.
Theorem missing_imaginary_part r : complex_from_json (JObject [("real", JFloat r)]%string) = UB.
Proof. reflexivity. Qed.
Theorem empty_matrix : matrix_from_json (JArray []) = UB.
Proof. reflexivity. Qed.

(** ** As stated *)
Theorem gate_back vf g : held g -> one_level g -> readable g = true -> gate_from_json vf (gate_to_json g) = Ok (typed g).
Proof. intros H1 H2 H3. rewrite gate_round_trip, H3 by assumption. reflexivity. Qed.
Theorem gate_lost vf g : held g -> one_level g -> readable g = false -> gate_from_json vf (gate_to_json g) = Throw.
Proof. intros H1 H2 H3. rewrite gate_round_trip, H3 by assumption. reflexivity. Qed.
Theorem param_back vf g : held_param g -> one_level_param g -> readable_param g = true -> param_gate_from_json vf (param_gate_to_json g) = Ok (typed_param g).
Proof. intros H1 H2 H3. rewrite param_round_trip, H3 by assumption. reflexivity. Qed.
Theorem circuit_back vf c : length (c_gates c) = length (c_conds c) -> Forall held_item (c_gates c) -> all_readable (c_gates c) ->
  Forall (fun f => f = None) (c_conds c) ->
  exists j, circuit_to_json c = Ok j /\ circuit_from_json vf j = Ok (Circuit (map typed_item (c_gates c)) (c_conds c)).
Proof.
  intros Hl Hh Hr Hn. destruct (circuit_round_trip vf c Hl Hh) as [_ H]. destruct (H Hn) as (j & H1 & H2). exists j. split; [exact H1|]. rewrite H2.
  replace (forallb readable_item (c_gates c)) with true by (symmetry; apply forallb_forall; exact Hr). reflexivity.
Qed.
Theorem conditions_unwritten c : length (c_gates c) = length (c_conds c) -> Exists (fun f => f <> None) (c_conds c) -> circuit_to_json c = Throw.
Proof.
  intros Hl HE. unfold circuit_to_json. rewrite conditions_written by exact Hl. replace (forallb _ (c_conds c)) with false; [reflexivity|].
  symmetry. apply Bool.not_true_is_false. intros H. rewrite forallb_forall in H. apply Exists_exists in HE. destruct HE as (f & Hf & Hn). apply H in Hf. now destruct f.
Qed.
Theorem wrong_size n amps w : n < 64 -> N.of_nat (length amps) <> 2 ^ n ->
  runs (state_from_json (JObject [("n_qubits", JUnsigned n); ("amplitudes", JArray (map complex_to_json amps))]%string)) w (fun o => exists w', o = HThrown w').
Proof.
  intros Hn Hl. unfold state_from_json. eapply lift_then; [reflexivity|]. eapply lift_then; [reflexivity|]. destruct (N.leb_spec 64 n); [lia|].
  eapply runs_bind_done; [apply set_zero_state_ok|]. intros [] u1 _. eapply lift_then; [reflexivity|]. eapply lift_then; [apply read_complex_list|].
  eapply runs_bind; [apply (load_throws n amps u1 Hl)| | |]; cbn; intros; try discriminate; eauto; contradiction.
Qed.
Theorem unknown_type vf type more : ~ In type known_types -> gate_from_json vf (JObject (("type", JString type) :: more)%string) = Throw.
Proof.
  intros H. unfold gate_from_json. cbn [gate_from_json_rec at_key member String.eqb Ascii.eqb Bool.eqb bindR get_string].
  assert (Hne : forall s, In s known_types -> String.eqb type s = false) by (intros s Hs; apply String.eqb_neq; intros ->; auto).
  unfold egate_from_json, std1_from_json. repeat rewrite Hne by (unfold known_types; cbn [In]; tauto). reflexivity.
Qed.
Theorem targets_unchecked vf : gate_from_json vf (x_json [0; 1] [] []) = Ok (CElem (true, EStd GX (GBase 3 0 0))) /\
  gate_from_json vf (x_json [] [] []) = Ok (CElem (true, EStd GX (GBase 0 0 0))).
Proof. split; [apply two_targets|apply no_target]. Qed.
Theorem missing_unnoticed : (forall vf, gate_from_json vf (x_json [0] [1] []) = UB) /\
  (forall r, complex_from_json (JObject [("real", JFloat r)]%string) = UB) /\ matrix_from_json (JArray []) = UB.
Proof. split; [exact missing_value|]. split; [exact missing_imaginary_part|exact empty_matrix]. Qed.

(** ** Examples *)
Lemma u3_fresh : fresh_gate (CElem (true, EStd (GU3 1 2 3) (GBase 8 5 4))) /\ readable (CElem (true, EStd (GU3 1 2 3) (GBase 8 5 4))) = true.
Proof. split; [|reflexivity]. apply fm_gate with true (Call1 (GU3 1 2 3) 3 [0; 2] [0; 1]); [exact I|reflexivity]. Qed.
Lemma inverse_held : exists g, held g /\ one_level g /\ readable g = true /\ typed g <> g.
Proof.
  exists inner'. split; [|split; [repeat constructor|split; [reflexivity|discriminate]]].
  eapply held_inverse; [|exact inner_inverse]. eapply held_probabilistic; [|exact inner_made].
  intros g [<-|[<-|[]]]; [apply (std_held GX)|apply (std_held GY)]; reflexivity.
Qed.
Lemma inner_fresh : fresh_gate inner.
Proof.
  eapply fm_probabilistic; [|exact inner_made]. intros g [<-|[<-|[]]];
    [apply fm_gate with true (Call1 GX 0 [] [])|apply fm_gate with true (Call1 GY 0 [] [])]; try exact I; reflexivity.
Qed.
Lemma probabilistic_fresh : exists d gs, fresh_gate (CProb true d gs) /\ length gs = 2%nat /\ readable (CProb true d gs) = true.
Proof. do 2 eexists. split; [exact inner_fresh|]. split; reflexivity. Qed.
Lemma param_fresh : exists g, fresh_param g /\ readable_param g = true /\ (exists d gs, g = PProb true d gs).
Proof.
  exists (PProb true halves [inl (CElem (true, X0)); inr (PRot true RotY (GBase 2 0 0) 3)]). split; [|split; [reflexivity|eauto]].
  eapply fmp_probabilistic with (dist := halves).
  3:{ unfold make_param_probabilistic. rewrite impl_singles; [reflexivity|apply halves_ok|]. intros p g [<-|[<-|[]]]; reflexivity. }
  - intros g [E|[E|[]]]; [|discriminate]. injection E as <-. apply fm_gate with true (Call1 GX 0 [] []); [exact I|reflexivity].
  - intros g [E|[E|[]]]; [discriminate|]. injection E as <-. apply fmp_gate with true (PCallRot RotY 1 3 [] []); [exact I|reflexivity].
Qed.
Lemma operator_u64 : op_u64 (op_of_terms [Pauli Ci 5 3; Pauli C1 0 1]).
Proof. repeat constructor. Qed.
