(** Reading an orderly document is defined: gates, circuits, operators, states. *)
From Verif Require Export ReadProofs.
From Coq Require Import Lia Lra ZifyBool ZifyN ZifyNat.
Open Scope N_scope.

Lemma depth_in l x : In x l -> (json_depth x < json_depth (JArray l))%nat.
Proof. intros H. cbn [json_depth]. induction l as [|y l IH]; [destruct H|]. cbn [fold_right]. destruct H as [->|H]; [lia|specialize (IH H); lia]. Qed.
Lemma depth_member l key v : member key l = Some v -> (json_depth v < json_depth (JObject l))%nat.
Proof.
  intros H. cbn [json_depth]. induction l as [|[k y] l IH]; [discriminate|]. cbn [fold_right snd member] in *. destruct (String.eqb k key); [injection H as ->; lia|specialize (IH H); lia].
Qed.
Lemma depth_at j key v : at_key j key = Ok v -> (json_depth v < json_depth j)%nat.
Proof. intros H. apply at_member in H. destruct H as (l & -> & H). eapply depth_member; eassumption. Qed.
Lemma depth_elements j x : In x (elements j) -> (json_depth x <= json_depth j)%nat.
Proof.
  destruct j as [| | | | | |l|l]; cbn [elements]; try (intros [<-|[]]; lia); try (intros []); try (intros H; apply depth_in in H; lia).
  intros H. cbn [json_depth]. induction l as [|[k y] l IH]; [destruct H|]. cbn [map snd fold_right] in *. destruct H as [->|H]; [lia|specialize (IH H); lia].
Qed.
Lemma rec_total vf fuel : forall j, (json_depth j < fuel)%nat -> orderly j -> gate_from_json_rec vf fuel j <> UB.
Proof.
  induction fuel as [|fuel IH]; intros j Hd Hj; [lia|]. cbn [gate_from_json_rec]. apply bind_total; [apply at_key_total|]. intros t _. apply bind_total; [apply get_string_total|]. intros type _.
  destruct (egate_from_json vf type j) as [g|] eqn:Eg.
  { apply bind_total; [eapply egate_total; eassumption|]. discriminate. }
  destruct (String.eqb _ _); [now apply measurement_total|]. destruct (String.eqb _ _); [|discriminate].
  apply bind_total; [apply at_key_total|]. intros d _. apply bind_total; [apply get_vector_total; intros l _; apply Forall_forall; intros; apply get_double_total|]. intros ds _.
  apply bind_total; [apply at_key_total|]. intros gl Hg. pose proof (depth_at _ _ _ Hg) as Hdg. pose proof (everywhere_at _ _ _ _ Hj Hg) as Hog.
  apply bind_total.
  - apply get_vector_total. intros l ->. apply Forall_forall. intros x Hx. apply IH; [apply depth_in in Hx; lia|eapply everywhere_in; eassumption].
  - intros gs Hgs. destruct gl as [| | | | | |l|]; try discriminate Hgs. cbn [get_vector] in Hgs. apply make_probabilistic_total.
    apply Forall_forall. intros g Hin. destruct (collect_in _ _ _ Hgs) as [_ Hi]. destruct (Hi g Hin) as (x & _ & Ex). eapply read_shallow; eassumption.
Qed.
Theorem gate_total vf j : orderly j -> gate_from_json vf j <> UB.
Proof. apply rec_total. lia. Qed.
Lemma rot_total vf k j : orderly j -> rot_from_json vf k j <> UB.
Proof.
  intros Hw. pose proof (everywhere_here _ _ Hw) as Hj. apply bind_total; [apply masks_total; [exact Hj|apply mask_of_key_total; [exact Hj|cbn; tauto]]|].
  intros [[t c] cv] _. tot.
Qed.
Lemma rot_shallow vf k j g : rot_from_json vf k j = Ok g -> shallow (inr g).
Proof. intros H. unfold rot_from_json in H. inv_bind H. inv_bind H. destruct v as [[t c] cv]. inv_bind H. injection H as <-. exact I. Qed.
Lemma read_param_shallow vf fuel j g : param_gate_from_json_rec vf fuel j = Ok g -> shallow (inr g).
Proof.
  destruct fuel as [|fuel]; [discriminate|]. cbn [param_gate_from_json_rec]. intros H. inv_bind H. inv_bind H.
  do 3 (destruct (String.eqb _ _); [eapply rot_shallow; eassumption|]).
  destruct (String.eqb _ _).
  { do 4 (inv_bind H). destruct v1 as [[t c] cv]. inv_bind H. injection H as <-. exact I. }
  destruct (String.eqb _ _); [|discriminate]. do 4 (inv_bind H). eapply param_made_shallow; eassumption.
Qed.
Lemma param_rec_total vf fuel : forall j, (json_depth j < fuel)%nat -> orderly j -> param_gate_from_json_rec vf fuel j <> UB.
Proof.
  induction fuel as [|fuel IH]; intros j Hd Hj; [lia|]. cbn [param_gate_from_json_rec]. apply bind_total; [apply at_key_total|]. intros t _. apply bind_total; [apply get_string_total|]. intros type _.
  do 3 (destruct (String.eqb _ _); [now apply rot_total|]).
  destruct (String.eqb _ _).
  { apply bind_total; [apply masks_total; [exact (everywhere_here _ _ Hj)|discriminate]|]. intros [[t' c] cv] _. apply bind_total; [apply at_key_total|]. intros p Hp.
    apply bind_total; [apply pauli_total; eapply everywhere_at; eassumption|]. intros q Hq. apply bind_total; [apply double_of_key_total|]. intros a _.
    apply bind_total; [eapply pauli_base_defined; eassumption|]. discriminate. }
  destruct (String.eqb _ _); [|discriminate].
  apply bind_total; [apply at_key_total|]. intros d _. apply bind_total; [apply get_vector_total; intros l _; apply Forall_forall; intros; apply get_double_total|]. intros ds _.
  apply bind_total; [apply at_key_total|]. intros gl Hg. pose proof (depth_at _ _ _ Hg) as Hdg. pose proof (everywhere_elements _ _ (everywhere_at _ _ _ _ Hj Hg)) as Hog.
  apply bind_total.
  - apply collect_total. apply Forall_forall. intros x Hx. rewrite Forall_forall in Hog. specialize (Hog x Hx). apply depth_elements in Hx.
    apply bind_total; [apply at_key_total|]. intros t' _. apply bind_total; [apply get_string_total|]. intros ty _.
    destruct (string_starts_with _ _); (apply bind_total; [|discriminate]); [apply IH; [lia|exact Hog]|now apply gate_total].
  - intros gs Hgs. apply make_param_probabilistic_total. apply Forall_forall. intros g Hin. destruct (collect_in _ _ _ Hgs) as [_ Hi]. destruct (Hi g Hin) as (x & _ & Ex).
    inv_bind Ex. inv_bind Ex. destruct (string_starts_with _ _); inv_bind Ex; injection Ex as <-; [eapply read_param_shallow; eassumption|eapply read_shallow; eassumption].
Qed.
Theorem param_total vf j : orderly j -> param_gate_from_json vf j <> UB.
Proof. apply param_rec_total. lia. Qed.
Lemma item_total vf j : orderly j -> item_from_json vf j <> UB.
Proof.
  intros Hj. unfold item_from_json. destruct (Json.contains j "key"); (apply bind_total; [apply at_key_total|]); intros g Hg; pose proof (everywhere_at _ _ _ _ Hj Hg) as Hog;
    (apply bind_total; [now apply param_total || now apply gate_total|]); intros; tot; try apply get_string_total.
Qed.
Theorem circuit_total vf j : orderly j -> circuit_from_json vf j <> UB.
Proof.
  intros Hj. unfold circuit_from_json. apply bind_total; [apply at_key_total|]. intros l Hl. apply bind_total; [|discriminate]. apply collect_total.
  eapply Forall_impl; [|exact (everywhere_elements _ _ (everywhere_at _ _ _ _ Hj Hl))]. intros x Hx. now apply item_total.
Qed.
Theorem operator_total j : orderly j -> op_from_json j <> UB.
Proof.
  intros Hj. unfold op_from_json. apply bind_total; [apply at_key_total|]. intros l Hl. apply bind_total; [|discriminate]. apply collect_total.
  eapply Forall_impl; [|exact (everywhere_elements _ _ (everywhere_at _ _ _ _ Hj Hl))]. apply pauli_total.
Qed.
Theorem operators_total j : orderly j -> ob_from_json j <> UB.
Proof.
  intros Hj. unfold ob_from_json. apply bind_total; [apply at_key_total|]. intros l Hl. apply bind_total; [|discriminate]. apply collect_total.
  eapply Forall_impl; [|exact (everywhere_elements _ _ (everywhere_at _ _ _ _ Hj Hl))]. apply operator_total.
Qed.

(** ** States *)
Lemma defined_lift {W T U} (x : res T) (k : T -> host W U) w : x <> UB -> (forall t, x = Ok t -> defined (k t) w) -> defined (hbind (hlift x) k) w.
Proof.
  intros Hx Hk. destruct x as [t| |]; [| |congruence].
  - eapply lift_then; [reflexivity|]. now apply Hk.
  - apply (runs_bind _ _ _ (fun o => o = HThrown w)); [now apply runs_throw|discriminate|intros; discriminate|discriminate].
Qed.
Lemma defined_bind {W T U} (p : host W T) (k : T -> host W U) w : defined p w -> (forall t u, defined (k t) u) -> defined (hbind p k) w.
Proof. intros Hp Hk. apply (runs_bind _ _ _ _ _ Hp); [intros; apply Hk|discriminate|congruence]. Qed.
Lemma defined_ret {W T} (t : T) (w : W) : defined (hret t) w.
Proof. apply runs_ret. discriminate. Qed.
Lemma defined_throw {W T} (w : W) : defined (@hthrow W T) w.
Proof. apply runs_throw. discriminate. Qed.
Lemma defined_done {W T} (p : host W T) w Q : runs p w (done Q) -> defined p w.
Proof. intros H. eapply runs_weaken; [exact H|]. intros [t u|u|] Ho; [discriminate|discriminate|destruct Ho]. Qed.
Theorem state_total j w : orderly_state j -> defined (state_from_json j) w.
Proof.
  intros [Hn Ha]. unfold state_from_json. apply defined_lift; [apply at_key_total|]. intros v Hv. destruct (Hn v Hv) as [Hr Hn'].
  apply defined_lift; [now apply get_u64_total|]. intros n En. specialize (Hn' n En). destruct (N.leb_spec 64 n); [lia|].
  apply defined_bind; [eapply defined_done; apply set_zero_state_ok|]. intros [] u. apply defined_lift; [apply at_key_total|]. intros a Ea.
  apply defined_lift.
  { apply get_vector_total. intros l ->. eapply Forall_impl; [|exact (Ha l Ea)]. apply complex_total. }
  intros l _. apply defined_bind; [|intros; apply defined_ret]. destruct (N.eqb_spec (N.of_nat (length l)) (2 ^ n)) as [E|E].
  - eapply defined_done. now apply load_ok.
  - unfold load. replace (N.of_nat (length l) =? 2 ^ n) with false by lia. apply defined_throw.
Qed.
Theorem states_total j w : orderly_states j -> defined (states_from_json j) w.
Proof.
  intros (Hn & HB & Ha). unfold states_from_json. apply defined_lift; [apply at_key_total|]. intros v Hv.
  apply defined_lift; [apply get_u64_total; now apply HB|]. intros B _. apply defined_lift; [apply at_key_total|]. intros v' Hv'. destruct (Hn v' Hv') as [Hr Hn'].
  apply defined_lift; [now apply get_u64_total|]. intros n En. specialize (Hn' n En). destruct (N.leb_spec 64 n); [lia|].
  apply defined_bind.
  { eapply defined_done. unfold b_set_zero_state, b_set_computational_basis. pose proof (pow2_pos n). destruct (N.leb_spec (2 ^ n) 0); [lia|]. apply write_rows. reflexivity. }
  intros [] u. apply defined_lift; [apply at_key_total|]. intros a Ea. apply defined_lift.
  { apply get_vector_total. intros l ->. apply Forall_forall. intros x Hx. apply get_vector_total. intros r ->. eapply Forall_impl; [|exact (Ha l r Ea Hx)]. apply complex_total. }
  intros l _. apply defined_bind; [|intros; apply defined_ret].
  pose proof (b_load_ok B n l u (fun _ _ => C0)) as HL. unfold b_load. cbn [family_op] in HL. destruct (N.of_nat (length l) =? B) eqn:E1; cbn [negb]; [|apply defined_throw].
  destruct (forallb _ l) eqn:E2; cbn [negb andb] in *; [|apply defined_throw]. unfold b_load in HL. rewrite E1, E2 in HL. cbn [negb on_batches] in HL. eapply defined_done. exact HL.
Qed.
Lemma size_elements j : json_size j = N.of_nat (length (elements j)).
Proof. destruct j; cbn; try reflexivity. now rewrite map_length. Qed.
Theorem density_total j w : orderly_density j -> defined (dm_from_json j) w.
Proof.
  intros (Hn & HM). unfold dm_from_json. apply defined_lift; [apply at_key_total|]. intros v Hv. destruct (Hn v Hv) as [Hr Hn'].
  apply defined_lift; [now apply get_u64_total|]. intros n En. specialize (Hn' n En).
  apply defined_lift; [apply at_key_total|]. intros h _. apply defined_lift; [apply get_bool_total|]. intros hb _.
  apply defined_lift; [apply at_key_total|]. intros m Em. apply defined_lift.
  { destruct m as [| | | | | |l|]; try discriminate. destruct (HM l Em) as (r0 & r & -> & HF). unfold matrix_from_json. apply bind_total; [|discriminate].
    apply collect_total. eapply Forall_impl; [|exact HF]. intros x [Hx1 Hx2]. unfold row_from_json. rewrite Hx1, size_elements, N.eqb_refl. apply collect_total.
    eapply Forall_impl; [|exact Hx2]. apply complex_total. }
  intros M _. destruct (N.leb_spec 64 n); [lia|]. apply defined_bind; [apply defined_ret|]. intros [] u. apply defined_bind; [|intros; apply defined_ret].
  unfold dm_load_matrix. destruct (_ || _); [apply defined_throw|]. eapply defined_done. apply herm_dfor.
Qed.
