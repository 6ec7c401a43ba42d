(** Reading back what was written: numbers, Pauli operators and elementary gates. *)
From Verif Require Export JsonSpec MergeProofs5 PauliTextProofs GatesProofs7.
From Coq Require Import Lia ZifyBool ZifyN ZifyNat.
Open Scope N_scope.

Lemma collect_map {A B} (f : A -> res B) (g : B -> A) l : (forall x, In x l -> f (g x) = Ok x) -> collectR f (map g l) = Ok l.
Proof.
  induction l as [|x l IH]; intros H; [reflexivity|]. cbn [map collectR]. rewrite H by now left. cbn [bindR].
  rewrite IH by (intros; apply H; now right). reflexivity.
Qed.
Lemma read_u64_list l : get_vector get_u64 (u64_list l) = Ok l.
Proof. unfold u64_list. cbn [get_vector]. now apply collect_map. Qed.
Lemma read_double_list l : get_vector get_double (double_list l) = Ok l.
Proof. unfold double_list. cbn [get_vector]. now apply collect_map. Qed.
Lemma read_complex c : complex_from_json (complex_to_json c) = Ok c.
Proof. destruct c. reflexivity. Qed.
Lemma read_pauli p : pauli_u64 p -> pauli_from_json (pauli_to_json p) = Ok p.
Proof.
  intros H. unfold pauli_to_json, pauli_from_json. cbn [at_key member String.eqb Ascii.eqb Bool.eqb bindR get_string].
  rewrite read_complex. cbn [bindR]. unfold to_text. rewrite list_ascii_of_string_of_list_ascii. now apply text_round_trip.
Qed.

(** ** Masks *)
Lemma values_mask c cv : c < two64 -> N.land cv c = cv -> vector_to_mask_values (mask_to_vector c) (mask_to_values c cv) = Ok cv.
Proof.
  intros Hc Hs. rewrite mask_to_vector_bits, mask_to_values_bits by exact Hc.
  destruct (vector_to_mask_values_ok (bits c) (map (fun i => N.b2n (N.testbit cv i)) (bits c))) as (r & E & _ & Ht).
  - exact (bits_lt _ 64 Hc).
  - apply map_length.
  - apply Forall_forall. intros v Hv. apply in_map_iff in Hv. destruct Hv as (i & <- & _). destruct (N.testbit cv i); cbn; lia.
  - rewrite E. f_equal. apply N.bits_inj. intros i. apply Bool.eq_iff_eq_true. rewrite Ht.
    transitivity (N.testbit cv i = true /\ In i (bits c)).
    + clear. induction (bits c) as [|x l IH]; [cbn; tauto|]. cbn [map combine In]. rewrite IH. split.
      * intros [H|H]; [|tauto]. injection H as <- H. split; [|now left]. now destruct (N.testbit cv x).
      * intros [H [<-|H']]; [left; now rewrite H|right; tauto].
    + rewrite in_bits. split; [tauto|]. intros H. split; [exact H|]. rewrite <- Hs, N.land_spec in H. now apply andb_prop in H.
Qed.
Lemma read_masks vf b t : base_ok b ->
  (cs <- get_vector get_u64 (u64_list (mask_to_vector (g_c b))) ;;
   vs <- get_vector get_u64 (u64_list (mask_to_values (g_c b) (g_cv b))) ;; mask_args vf (Ok t) cs vs) = Ok (t, g_c b, g_cv b).
Proof.
  intros (Hd & Hs & Ht & Hc). rewrite !read_u64_list. cbn [bindR]. apply mask_args_eval; [now apply mask_to_vector_to_mask|].
  now apply values_mask.
Qed.
Lemma remake_base b : base_ok b -> make_base (g_t b) (g_c b) (g_cv b) = Ok b.
Proof. intros (Hd & _). unfold make_base. rewrite Hd. now destruct b. Qed.

Ltac keys := cbn [at_key member String.eqb Ascii.eqb Bool.eqb bindR fst snd app].
Lemma operands_masks vf type b more : base_ok b ->
  masks_from_json vf (with_operands type b more) (mask_of_key (with_operands type b more) "target") = Ok (g_t b, g_c b, g_cv b).
Proof.
  intros Hb. unfold masks_from_json, mask_of_key, with_operands. keys. rewrite !read_u64_list. cbn [bindR].
  rewrite mask_to_vector_to_mask by apply Hb. pose proof (read_masks vf b (g_t b) Hb) as H. rewrite !read_u64_list in H. exact H.
Qed.
Lemma operands_controls vf type b more t : base_ok b -> masks_from_json vf (with_operands type b more) (Ok t) = Ok (t, g_c b, g_cv b).
Proof. intros Hb. unfold masks_from_json, with_operands. keys. now apply read_masks. Qed.
Lemma controls_controls vf type b more t : base_ok b -> masks_from_json vf (with_controls type b more) (Ok t) = Ok (t, g_c b, g_cv b).
Proof. intros Hb. unfold masks_from_json, with_controls. keys. now apply read_masks. Qed.

(** ** Elementary gates *)
Definition type_of (g : egate) : string :=
  match g with
  | EI => "I" | EGlobalPhase _ _ => "GlobalPhase" | EStd k _ => fst (std1_json k) | ESwap _ => "Swap" | EEcr _ _ _ => "Ecr"
  | EPermutation _ _ _ => "Permutation" | EPauli _ _ => "Pauli" | EPauliRotation _ _ _ => "PauliRotation"
  | EDense _ _ _ => "DenseMatrix" | ESparse _ _ => "SparseMatrix"
  end.
Lemma written_type g : at_key (egate_to_json g) "type" = Ok (JString (type_of g)).
Proof. destruct g as [|b ph|k b|b|b pc pt|b dst s|b p|b p a|b M u|b Sp]; try reflexivity. Qed.
Lemma lor_u64_iff p : N.lor (p_bf p) (p_pf p) < two64 -> pauli_u64 p.
Proof. unfold pauli_u64, two64. apply lor_lt_iff. Qed.
Lemma read_elementary vf g : gate_wf g -> readable_kind g = true ->
  egate_from_json vf (type_of g) (egate_to_json g) = Some (Ok g).
Proof.
  intros (Hb & Hw) Hr. destruct g as [|b ph|k b|b|b pc pt|b dst s|b p|b p a|b M u|b Sp]; try discriminate Hr; cbn [g_base type_of egate_to_json] in *.
  - reflexivity.
  - unfold egate_from_json. cbn [std1_from_json String.eqb Ascii.eqb Bool.eqb]. rewrite operands_controls by exact Hb. cbn [bindR].
    unfold with_operands, double_of_key. keys. cbn [get_double bindR]. rewrite <- Hw, remake_base by exact Hb. reflexivity.
  - unfold egate_from_json.
    assert (E : std1_from_json (fst (std1_json k)) (with_operands (fst (std1_json k)) b (snd (std1_json k))) = Some (Ok k)).
    { destruct k; try discriminate Hr; reflexivity. }
    rewrite E. rewrite operands_masks by exact Hb. cbn [bindR]. rewrite remake_base by exact Hb. reflexivity.
  - unfold egate_from_json. cbn [std1_from_json String.eqb Ascii.eqb Bool.eqb]. unfold base_from_json. rewrite operands_masks by exact Hb.
    cbn [bindR]. rewrite remake_base by exact Hb. reflexivity.
  - unfold egate_from_json. cbn [std1_from_json String.eqb Ascii.eqb Bool.eqb]. rewrite operands_masks by exact Hb. cbn [bindR].
    destruct Hw as (p & q & Hpq & Hpc & Hpt & Ht). unfold mask_of_key, with_operands. keys. rewrite !read_u64_list. cbn [bindR].
    destruct Hb as (Hd & Hs & Ht64 & Hc). assert (pc < two64 /\ pt < two64) as [Hpc64 Hpt64] by (apply lor_lt_iff; rewrite <- Ht; exact Ht64).
    rewrite !mask_to_vector_to_mask by assumption. cbn [bindR]. rewrite remake_base by (repeat split; assumption). reflexivity.
  - destruct Hw as (HP & Hl & -> & ->). unfold egate_from_json. cbn [std1_from_json String.eqb Ascii.eqb Bool.eqb]. keys.
    rewrite read_u64_list. cbn [bindR]. rewrite make_permutation_impl_ok by assumption. reflexivity.
  - unfold egate_from_json. cbn [std1_from_json String.eqb Ascii.eqb Bool.eqb]. rewrite controls_controls by exact Hb. cbn [bindR].
    unfold with_controls. keys. rewrite read_pauli by (apply lor_u64_iff; rewrite <- Hw; apply Hb). cbn [bindR].
    rewrite make_pauli_base_same by assumption. reflexivity.
  - unfold egate_from_json. cbn [std1_from_json String.eqb Ascii.eqb Bool.eqb]. rewrite controls_controls by exact Hb. cbn [bindR].
    unfold with_controls, double_of_key. keys. rewrite read_pauli by (apply lor_u64_iff; rewrite <- Hw; apply Hb). cbn [bindR].
    cbn [get_double bindR]. rewrite make_pauli_base_same by assumption. reflexivity.
Qed.
Lemma unread_elementary vf g : readable_kind g = false -> egate_from_json vf (type_of g) (egate_to_json g) = None.
Proof. destruct g as [|b ph|k b|b|b pc pt|b dst s|b p|b p a|b M u|b Sp]; try discriminate; intros H; [destruct k; try discriminate|..]; reflexivity. Qed.
Lemma made_wf t g : made (t, g) -> gate_wf g.
Proof.
  intros H. remember (t, g) as x eqn:E. revert t g E. induction H as [vf k g0 Hty Hm|t0 g0 g1 H IH Hi]; intros t g E; injection E as Et Eg; subst.
  - exact (means_wf _ _ _ _ (make_means vf k _ Hty Hm)).
  - exact (proj1 (inverse_wf _ _ (IH _ _ eq_refl) Hi)).
Qed.
