(** Reading an orderly document is defined. *)
From Verif Require Export ReadSpec JsonProofs5 CircuitProofs12.
From Coq Require Import Lia Lra ZifyBool ZifyN ZifyNat.
Open Scope N_scope.

Lemma bind_total {A B} (x : res A) (k : A -> res B) : x <> UB -> (forall v, x = Ok v -> k v <> UB) -> (v <- x ;; k v) <> UB.
Proof. intros Hx Hk. destruct x; cbn [bindR]; [now apply Hk|discriminate|congruence]. Qed.
Lemma at_key_total j key : at_key j key <> UB.
Proof. destruct j; cbn; try discriminate. now destruct (member key l). Qed.
Lemma get_string_total j : get_string j <> UB.
Proof. now destruct j. Qed.
Lemma get_bool_total j : get_bool j <> UB.
Proof. now destruct j. Qed.
Lemma get_double_total j : get_double j <> UB.
Proof. now destruct j. Qed.
Lemma double_of_key_total j key : double_of_key j key <> UB.
Proof. apply bind_total; [apply at_key_total|]. intros; apply get_double_total. Qed.
Lemma get_u64_total j : in_range j -> get_u64 j <> UB.
Proof.
  destruct j; cbn; try discriminate. intros [H1 H2]. destruct (Rlt_dec _ _); [|contradiction]. destruct (Rlt_dec _ _); [discriminate|contradiction].
Qed.
Lemma collect_total {A B} (f : A -> res B) l : Forall (fun x => f x <> UB) l -> collectR f l <> UB.
Proof.
  induction 1 as [|x l Hx _ IH]; [discriminate|]. cbn [collectR]. apply bind_total; [exact Hx|]. intros v _. apply bind_total; [exact IH|]. discriminate.
Qed.
Lemma get_vector_total {T} (get : json -> res T) j : (forall l, j = JArray l -> Forall (fun x => get x <> UB) l) -> get_vector get j <> UB.
Proof. destruct j; cbn; try discriminate. intros H. apply collect_total. now apply H. Qed.
Lemma u64s_total j : numbers_in_range j -> get_vector get_u64 j <> UB.
Proof. intros H. apply get_vector_total. intros l ->. eapply Forall_impl; [|exact H]. apply get_u64_total. Qed.
Lemma collect_in {A B} (f : A -> res B) l : forall m, collectR f l = Ok m -> length m = length l /\ forall y, In y m -> exists x, In x l /\ f x = Ok y.
Proof.
  induction l as [|x l IH]; intros m H; cbn [collectR] in H; [injection H as <-; split; [reflexivity|intros y []]|].
  inv_bind H. inv_bind H. injection H as <-. destruct (IH _ E0) as [Hl Hi]. split; [cbn [length]; now rewrite Hl|].
  intros y [<-|Hy]; [exists x; split; [now left|exact E]|]. destruct (Hi y Hy) as (z & Hz & Ez). exists z. split; [now right|exact Ez].
Qed.
Lemma at_member j key v : at_key j key = Ok v -> exists l, j = JObject l /\ member key l = Some v.
Proof. destruct j; cbn; try discriminate. destruct (member key l) eqn:E; [|discriminate]. intros [= <-]. eauto. Qed.
Lemma values_aux_total cs : forall vs m, (length cs <= length vs)%nat -> Forall (fun q => q < 64) cs -> vector_to_mask_values_aux m cs vs <> UB.
Proof.
  induction cs as [|c cs IH]; intros [|v vs] m Hl HF; cbn [vector_to_mask_values_aux length] in *; try discriminate; try lia.
  inversion HF; subst. destruct (v =? 1).
  - replace (64 <=? c) with false by lia. apply IH; [lia|assumption].
  - destruct (v =? 0); [apply IH; [lia|assumption]|discriminate].
Qed.
Lemma mask_args_defined vf t cs vs : t <> UB -> (length cs <= length vs)%nat -> Forall (fun q => q < 64) cs -> mask_args vf t cs vs <> UB.
Proof.
  intros Ht Hl HF. unfold mask_args, vector_to_mask_values. pose proof (values_aux_total cs vs 0 Hl HF). pose proof (mask_total cs).
  destruct vf; repeat (apply bind_total; [assumption|intros ? _]); discriminate.
Qed.

Section Object.
  Variables (vf : bool) (j : json).
  Hypothesis Hj : orderly_object j.
  Lemma mask_of_key_total key : In key ["target"; "dst"; "physical_control"; "physical_target"]%string -> mask_of_key j key <> UB.
  Proof.
    intros Hk. apply bind_total; [apply at_key_total|]. intros v Hv. apply at_member in Hv. destruct Hv as (l & El & Hv). rewrite El in Hj. destruct Hj as (H1 & _).
    apply bind_total; [|intros; apply mask_total]. apply u64s_total. apply (H1 key); [|exact Hv]. cbn in *. tauto.
  Qed.
  Lemma masks_total t : t <> UB -> masks_from_json vf j t <> UB.
  Proof.
    intros Ht. apply bind_total; [apply at_key_total|]. intros c Hc. apply at_member in Hc. destruct Hc as (l & El & Hc). rewrite El in Hj. destruct Hj as (H1 & _ & H2 & H3 & _).
    apply bind_total; [apply u64s_total; apply (H1 "control"%string); [cbn; tauto|exact Hc]|]. intros cs Hcs.
    apply bind_total; [apply at_key_total|]. intros v Hv. apply at_member in Hv. destruct Hv as (l' & El' & Hv). rewrite El in El'. injection El' as <-.
    apply bind_total; [apply u64s_total; apply (H1 "control_value"%string); [cbn; tauto|exact Hv]|]. intros vs Hvs.
    destruct c as [| | | | | |cl|]; try discriminate Hcs. destruct v as [| | | | | |vl|]; try discriminate Hvs. cbn [get_vector] in Hcs, Hvs.
    destruct (collect_in _ _ _ Hcs) as [Lc Ic]. destruct (collect_in _ _ _ Hvs) as [Lv _]. apply mask_args_defined; [exact Ht| |].
    - rewrite Lc, Lv. now apply H2.
    - apply Forall_forall. intros q Hq. destruct (Ic q Hq) as (x & Hx & Ex). now apply (H3 cl x q).
  Qed.
End Object.

Lemma everywhere_here P j : everywhere P j -> P j.
Proof. destruct j; now intros [H _]. Qed.
Lemma everywhere_in P l x : everywhere P (JArray l) -> In x l -> everywhere P x.
Proof. intros [_ H]. induction l as [|y l IH]; [intros []|]. cbn in H. destruct H as [H1 H2]. intros [<-|Hx]; [exact H1|auto]. Qed.
Lemma everywhere_member P l key v : everywhere P (JObject l) -> member key l = Some v -> everywhere P v.
Proof.
  intros [_ H]. induction l as [|[k y] l IH]; [discriminate|]. cbn in H. destruct H as [H1 H2]. cbn [member]. destruct (String.eqb k key); [|auto]. now intros [= <-].
Qed.
Lemma everywhere_at P j key v : everywhere P j -> at_key j key = Ok v -> everywhere P v.
Proof. intros H Hv. apply at_member in Hv. destruct Hv as (l & -> & Hv). eapply everywhere_member; eassumption. Qed.
Lemma everywhere_elements P j : everywhere P j -> Forall (everywhere P) (elements j).
Proof.
  intros H. destruct j as [| | | | | |l|l]; cbn [elements]; try (constructor; [exact H|constructor]).
  - constructor.
  - apply Forall_forall. intros x Hx. eapply everywhere_in; eassumption.
  - destruct H as [_ H]. induction l as [|[k y] l IH]; [constructor|]. cbn in H. destruct H as [H1 H2]. cbn [map snd]. constructor; [exact H1|auto].
Qed.

(** ** Numbers and Pauli operators *)
Lemma complex_total j : has_parts j -> complex_from_json j <> UB.
Proof.
  intros H. unfold complex_from_json.
  assert (E : forall key, key = "real"%string \/ key = "imag"%string -> const_index j key <> UB).
  { intros key Hk. destruct j; cbn; try discriminate. cbn in H. destruct H as [H1 H2]. destruct Hk as [-> | ->]; [destruct (member "real" l); congruence|destruct (member "imag" l); congruence]. }
  apply bind_total; [apply E; now left|]. intros x _. apply bind_total; [apply get_double_total|]. intros r _.
  apply bind_total; [apply E; now right|]. intros y _. apply bind_total; [apply get_double_total|]. discriminate.
Qed.
Lemma text_total l c : pauli_from_text l c <> UB.
Proof. unfold pauli_from_text. pose proof (parse_ok_spells (S (List.length l)) l (Pauli c 0 0) ltac:(lia)). now destruct (parse_pauli _ _ _). Qed.
Lemma pauli_total j : orderly j -> pauli_from_json j <> UB.
Proof.
  intros Hj. apply everywhere_here in Hj. apply bind_total; [apply at_key_total|]. intros s _. apply bind_total; [apply get_string_total|]. intros t _.
  apply bind_total; [apply at_key_total|]. intros c Hc. apply bind_total; [|intros; apply text_total]. apply complex_total.
  apply at_member in Hc. destruct Hc as (l & -> & Hc). now apply Hj.
Qed.
Lemma text_u64 l c p : pauli_from_text l c = Ok p -> pauli_u64 p.
Proof.
  intros H. pose proof (parse_ok_spells (S (List.length l)) l (Pauli c 0 0) ltac:(lia)) as G. unfold pauli_from_text in H. rewrite H in G. destruct G as [items G].
  destruct (text_accepts l items c G) as (p' & E & _ & Hu & Hv & _); [|unfold pauli_from_text in E; rewrite H in E; injection E as <-; now split].
  rewrite (parse_spells l items G) in H by lia. now apply (add_items_inv items _ _ (zero_u64 c) H).
Qed.

(** ** Gates *)
Ltac tot := repeat (apply bind_total; [first [assumption | apply at_key_total | apply get_string_total | apply get_bool_total | apply get_double_total | apply double_of_key_total
  | apply make_base_total | now apply mask_of_key_total; cbn; tauto | now apply masks_total; [|apply mask_of_key_total; cbn; tauto] | now apply masks_total]|intros]); try discriminate.
Lemma pauli_base_defined j' p c cv : pauli_from_json j' = Ok p -> make_pauli_base p c cv <> UB.
Proof.
  intros H. apply pauli_base_total. unfold pauli_from_json in H. repeat (inv_bind H). apply text_u64 in H. destruct H. now apply lor_u64.
Qed.
Lemma std1_total type j k : std1_from_json type j = Some k -> k <> UB.
Proof.
  unfold std1_from_json. repeat (destruct (String.eqb _ _); [intros [= <-]; tot; fail|]). discriminate.
Qed.
Lemma egate_total vf type j g : orderly j -> egate_from_json vf type j = Some g -> g <> UB.
Proof.
  intros Hw. pose proof (everywhere_here _ _ Hw) as Hj. unfold egate_from_json.
  assert (HM : masks_from_json vf j (mask_of_key j "target") <> UB) by (apply masks_total; [exact Hj|apply mask_of_key_total; [exact Hj|cbn; tauto]]).
  assert (H0 : masks_from_json vf j (Ok 0) <> UB) by (apply masks_total; [exact Hj|discriminate]).
  assert (HP : forall p, at_key j "pauli" = Ok p -> pauli_from_json p <> UB) by (intros p Hp; apply pauli_total; eapply everywhere_at; eassumption).
  destruct (std1_from_json type j) as [k|] eqn:Ek.
  { apply std1_total in Ek. intros [= <-]. apply bind_total; [exact HM|]. intros [[t c] cv] _. apply bind_total; [exact Ek|]. intros. tot. }
  destruct (String.eqb _ _); [intros [= <-]; discriminate|].
  destruct (String.eqb _ _); [intros [= <-]; apply bind_total; [exact H0|intros [[t c] cv] _; tot]|].
  destruct (String.eqb _ _); [intros [= <-]; apply bind_total; [apply bind_total; [exact HM|intros [[t c] cv] _; apply make_base_total]|discriminate]|].
  destruct (String.eqb _ _).
  { intros [= <-]. apply bind_total; [exact HM|]. intros [[t c] cv] _. do 2 (apply bind_total; [apply mask_of_key_total; [exact Hj|cbn; tauto]|intros]). tot. }
  destruct (String.eqb _ _).
  { intros [= <-]. apply bind_total; [apply at_key_total|]. intros d Hd. apply at_member in Hd. destruct Hd as (l & -> & Hd). destruct Hj as (H1 & _ & _ & _ & H5 & _).
    apply bind_total; [apply u64s_total; apply (H1 "dst"%string); [cbn; tauto|exact Hd]|]. intros ds Hds. destruct d as [| | | | | |dl|]; try discriminate Hds.
    cbn [get_vector] in Hds. destruct (collect_in _ _ _ Hds) as [Ld _]. specialize (H5 dl Hd). unfold make_permutation_impl.
    apply bind_total; [apply mask_total|]. intros m _. replace (64 <=? N.of_nat (length ds)) with false by lia. destruct (negb _); [discriminate|]. tot. }
  destruct (String.eqb _ _).
  { intros [= <-]. apply bind_total; [exact H0|]. intros [[t c] cv] _. apply bind_total; [apply at_key_total|]. intros p Hp. apply bind_total; [now apply HP|]. intros q Hq.
    apply bind_total; [eapply pauli_base_defined; eassumption|]. discriminate. }
  destruct (String.eqb _ _); [|discriminate].
  intros [= <-]. apply bind_total; [exact H0|]. intros [[t c] cv] _. apply bind_total; [apply at_key_total|]. intros p Hp. apply bind_total; [now apply HP|]. intros q Hq.
  apply bind_total; [apply double_of_key_total|]. intros a _. apply bind_total; [eapply pauli_base_defined; eassumption|]. discriminate.
Qed.
Lemma measurement_total j : orderly j -> measurement_from_json j <> UB.
Proof.
  intros Hw. pose proof (everywhere_here _ _ Hw) as Hj. unfold measurement_from_json. apply bind_total; [destruct (Json.contains j "reset"); tot; apply get_bool_total|].
  intros r _. apply bind_total; [apply mask_of_key_total; [exact Hj|cbn; tauto]|]. intros t _. apply bind_total; [apply at_key_total|]. intros b Hb.
  apply bind_total; [|intros; tot]. apply get_u64_total. apply at_member in Hb. destruct Hb as (l & -> & Hb). now apply Hj.
Qed.

(** ** Probabilistic gates *)
Definition shallow (g : vgate) : Prop :=
  match g with
  | inl (CProb true d gs) => length d = length gs /\ Forall (fun g => leaf (inl g)) gs
  | inr (PProb true d gs) => length d = length gs /\ Forall leaf gs
  | _ => True
  end.
Lemma leaf_flat g p : leaf g -> flatten_param_probabilistic_gate p g <> UB.
Proof. destruct g as [[[t g]|t b r|[|] d gs]|[t k b c|t b q c|[|] d gs]]; cbn; try discriminate; tauto. Qed.
Lemma shallow_flat g p : shallow g -> flatten_param_probabilistic_gate p g <> UB.
Proof.
  destruct g as [[[t g]|t b r|[|] d gs]|[t k b c|t b q c|[|] d gs]]; cbn [shallow]; try discriminate.
  - intros [Hl HF]. cbn [flatten_param_probabilistic_gate]. rewrite non_param_known. revert d Hl. induction HF as [|g gs Hg _ IH]; intros [|x d] Hl; cbn [non_param_zip]; try discriminate.
    apply bind_total; [exact (leaf_flat (inl g) (p * x)%R Hg)|]. intros l _. apply bind_total; [apply IH; cbn in Hl; lia|]. discriminate.
  - intros [Hl HF]. cbn [flatten_param_probabilistic_gate]. rewrite param_known. revert d Hl. induction HF as [|g gs Hg _ IH]; intros [|x d] Hl; cbn [param_zip]; try discriminate.
    apply bind_total; [exact (leaf_flat g (p * x)%R Hg)|]. intros l _. apply bind_total; [apply IH; cbn in Hl; lia|]. discriminate.
Qed.
Lemma all_flat_total {G} (flat : R -> G -> res (list (R * G))) dist : forall gs, Forall (fun g => forall p, flat p g <> UB) gs -> flatten_all flat dist gs <> UB.
Proof.
  induction dist as [|d dist IH]; intros gs HF; [discriminate|]. destruct HF as [|g gs Hg HF]; [discriminate|]. cbn [flatten_all].
  apply bind_total; [apply Hg|]. intros. apply bind_total; [now apply IH|]. discriminate.
Qed.
Lemma impl_total {G} (flat : R -> G -> res (list (R * G))) dist gs : Forall (fun g => forall p, flat p g <> UB) gs -> probabilistic_impl flat dist gs <> UB.
Proof.
  intros H. unfold probabilistic_impl. destruct (_ =? _)%nat; [discriminate|]. destruct (negb _); [discriminate|]. destruct (negb _); [discriminate|].
  apply bind_total; [now apply all_flat_total|]. intros l _. destruct (sum_is_one _); discriminate.
Qed.
Lemma flat_total g p : shallow (inl g) -> flatten_probabilistic_gate p g <> UB.
Proof. intros H E. apply (shallow_flat _ p H). cbn [flatten_param_probabilistic_gate]. rewrite non_param_lift, E. reflexivity. Qed.
Lemma make_probabilistic_total dist gs : Forall (fun g => shallow (inl g)) gs -> make_probabilistic dist gs <> UB.
Proof. intros H. apply bind_total; [|discriminate]. apply impl_total. eapply Forall_impl; [|exact H]. intros g Hg p. now apply flat_total. Qed.
Lemma make_param_probabilistic_total dist gs : Forall shallow gs -> make_param_probabilistic dist gs <> UB.
Proof. intros H. apply bind_total; [|discriminate]. apply impl_total. eapply Forall_impl; [|exact H]. intros g Hg p. now apply shallow_flat. Qed.
Lemma impl_leaves {G} (flat : R -> G -> res (list (R * G))) (P : G -> Prop) dist gs x :
  (forall p g l, flat p g = Ok l -> Forall (fun y => P (snd y)) l) -> probabilistic_impl flat dist gs = Ok x -> length (fst x) = length (snd x) /\ Forall P (snd x).
Proof.
  intros HP H. unfold probabilistic_impl in H. destruct (_ =? _)%nat; [discriminate|]. destruct (negb _); [discriminate|]. destruct (negb _); [discriminate|].
  inv_bind H. destruct (sum_is_one _); [|discriminate]. injection H as <-. cbn [fst snd]. rewrite !map_length. split; [reflexivity|]. apply Forall_map. clear -HP E.
  revert gs v E. induction dist as [|d dist IH]; intros [|g gs] v E; cbn [flatten_all] in E; try (injection E as <-; constructor).
  inv_bind E. inv_bind E. injection E as <-. apply Forall_app. split; [eapply HP; eassumption|eapply IH; eassumption].
Qed.
Lemma made_shallow dist gs g : make_probabilistic dist gs = Ok g -> shallow (inl g).
Proof.
  intros H. unfold make_probabilistic in H. inv_bind H. injection H as <-. cbn [shallow]. eapply impl_leaves; [|exact E].
  intros p g l Hl. apply flat_leaves in Hl. eapply Forall_impl; [|exact Hl]. simpl. intros [x [| |[|]]]; tauto.
Qed.
Lemma param_made_shallow dist gs g : make_param_probabilistic dist gs = Ok g -> shallow (inr g).
Proof.
  intros H. unfold make_param_probabilistic in H. inv_bind H. injection H as <-. cbn [shallow]. eapply impl_leaves; [|exact E]. intros. eapply param_leaves; eassumption.
Qed.
Lemma read_shallow vf fuel j g : gate_from_json_rec vf fuel j = Ok g -> shallow (inl g).
Proof.
  destruct fuel as [|fuel]; [discriminate|]. cbn [gate_from_json_rec]. intros H. inv_bind H. inv_bind H. destruct (egate_from_json vf _ j).
  { inv_bind H. injection H as <-. exact I. }
  destruct (String.eqb _ _).
  { unfold measurement_from_json in H. repeat (inv_bind H). injection H as <-. exact I. }
  destruct (String.eqb _ _); [|discriminate]. do 4 (inv_bind H). eapply made_shallow; eassumption.
Qed.
