(** Reading back operators and states; what factories alone make. *)
From Verif Require Export JsonProofs3 OperatorBatchedSpec OperatorBatchedProofs2 DensityProofs8 StateProofs4.
From Coq Require Import Lia Lra ZifyBool ZifyN ZifyNat.
Open Scope N_scope.

(** ** Factories alone *)
Definition factory_alternative (g : cgate) : Prop := match g with CElem (true, _) => True | _ => False end.
Definition simple (g : cgate) : Prop :=
  match g with CElem (t, _) => t = true | CMeas _ _ _ => True | CProb t _ gs => t = true /\ forall g, In g gs -> factory_alternative g end.
Lemma flatten_simple g : simple g -> forall p l, flatten_probabilistic_gate p g = Ok l -> Forall (fun pg => factory_alternative (snd pg)) l.
Proof.
  intros Hs p l H. destruct g as [[t g]|t b r|t d gs].
  - injection H as <-. cbn in Hs. subst. repeat constructor.
  - discriminate.
  - destruct Hs as [-> Hs]. rewrite flatten_known in H. revert gs l Hs H. induction d as [|x d IH]; intros [|g gs] l Hs H; cbn [flatten_zip] in H; try discriminate; try (injection H as <-; constructor).
    inv_bind H. inv_bind H. injection H as <-. apply Forall_app. split; [|eapply IH; [|eassumption]; intros; apply Hs; now right].
    pose proof (Hs g (or_introl eq_refl)) as Hg. destruct g as [[[|] g]|t b r|t d' gs']; try contradiction. injection E as <-. repeat constructor.
Qed.
Lemma impl_all {G} (P : G -> Prop) flt d gs x : probabilistic_impl flt d gs = Ok x ->
  (forall p g l, In g gs -> flt p g = Ok l -> Forall (fun pg => P (snd pg)) l) -> forall g, In g (snd x) -> P g.
Proof.
  intros H HF. unfold probabilistic_impl in H. destruct (_ =? _)%nat; [discriminate|]. destruct (negb _); [discriminate|]. destruct (negb _); [discriminate|].
  inv_bind H. destruct (sum_is_one _); [|discriminate]. injection H as <-. cbn [snd]. intros g Hg. apply in_map_iff in Hg. destruct Hg as (pg & <- & Hg).
  assert (HA : Forall (fun pg => P (snd pg)) v); [|rewrite Forall_forall in HA; now apply HA]. clear Hg. revert gs v E HF.
  induction d as [|p d IH]; intros [|g gs] v E HF; cbn [flatten_all] in E; try (injection E as <-; constructor). inv_bind E. inv_bind E. injection E as <-.
  apply Forall_app. split; [eapply HF; [now left|eassumption]|eapply IH; [eassumption|]; intros q g' l' Hin Hl'; exact (HF q g' l' (or_intror Hin) Hl')].
Qed.
Lemma factory_simple g : fresh_gate g -> simple g /\ held g.
Proof.
  induction 1 as [vf k g Hty H|target bit reset g H|dist gs g Hg IH H].
  - split; [reflexivity|]. apply held_gate. now apply made_call with vf k.
  - split; [|now apply held_measurement with target bit reset]. unfold make_measurement in H. inv_bind H. inv_bind H. injection H as <-. exact I.
  - split; [|apply held_probabilistic with dist gs; [|exact H]; intros; now apply IH]. unfold make_probabilistic in H. inv_bind H. injection H as <-. split; [reflexivity|].
    apply (impl_all factory_alternative _ _ _ _ E). intros p g l Hin. apply flatten_simple. now apply IH.
Qed.
Lemma map_same {A} (f : A -> A) l : (forall x, In x l -> f x = x) -> map f l = l.
Proof. induction l as [|x l IH]; intros H; [reflexivity|]. cbn. rewrite H by now left. rewrite IH by (intros; apply H; now right). reflexivity. Qed.
Lemma simple_typed g : simple g -> one_level g /\ typed g = g.
Proof.
  destruct g as [[t g]|t b r|t d gs]; intros H.
  - cbn in H. subst. split; [exact I|reflexivity].
  - split; [exact I|reflexivity].
  - destruct H as [-> H]. cbn [one_level typed]. split.
    + apply Forall_forall. intros g Hg. apply H in Hg. destruct g as [[[|] g]| |]; try contradiction. exact I.
    + f_equal. apply map_same. intros g Hg. apply H in Hg. destruct g as [[[|] g]| |]; try contradiction. reflexivity.
Qed.
Theorem factory_round_trip vf g : fresh_gate g -> readable g = true -> gate_from_json vf (gate_to_json g) = Ok g.
Proof. intros H Hr. destruct (factory_simple g H) as [Hs Hh]. destruct (simple_typed g Hs) as [Hf Ht]. rewrite gate_round_trip, Hr, Ht by assumption. reflexivity. Qed.
Theorem factory_unreadable vf g : fresh_gate g -> readable g = false -> gate_from_json vf (gate_to_json g) = Throw.
Proof. intros H Hr. destruct (factory_simple g H) as [Hs Hh]. destruct (simple_typed g Hs) as [Hf Ht]. rewrite gate_round_trip, Hr by assumption. reflexivity. Qed.

Definition factory_alternative_any (g : vgate) : Prop :=
  match g with inl g => factory_alternative g | inr (PRot t _ _ _) | inr (PPauliRotation t _ _ _) => t = true | _ => False end.
Definition simple_param (g : pgate) : Prop :=
  match g with PRot t _ _ _ | PPauliRotation t _ _ _ => t = true | PProb t _ gs => t = true /\ forall g, In g gs -> factory_alternative_any g end.
Lemma flatten_simple_non_param g : simple g -> forall p l, flatten_non_param p g = Ok l -> Forall (fun pg => factory_alternative_any (snd pg)) l.
Proof.
  intros Hs p l H. rewrite non_param_lift in H. inv_bind H. injection H as <-. apply flatten_simple in E; [|exact Hs]. unfold lift. apply Forall_map.
  eapply Forall_impl; [|exact E]. intros [q e]. exact (fun H => H).
Qed.
Lemma flatten_simple_any g : factory_alternative_any g \/ (exists g', g = inl g' /\ simple g') \/ (exists g', g = inr g' /\ simple_param g') ->
  forall p l, flatten_param_probabilistic_gate p g = Ok l -> Forall (fun pg => factory_alternative_any (snd pg)) l.
Proof.
  assert (H0 : forall g, factory_alternative_any g -> forall p l, flatten_param_probabilistic_gate p g = Ok l -> Forall (fun pg => factory_alternative_any (snd pg)) l).
  { intros g0 Ha p l H. destruct g0 as [[[[|] g0]|t b r|t d gs]|[t k b c|t b q c|t d gs]]; try contradiction; injection H as <-; constructor; try constructor; exact Ha. }
  intros [Ha|[(g' & -> & Hs)|(g' & -> & Hs)]] p l H; [now apply (H0 g Ha p)|now apply (flatten_simple_non_param g' Hs p)|].
  destruct g' as [t k b c|t b q c|t d gs]; cbn [flatten_param_probabilistic_gate] in H; cbn [simple_param] in Hs.
  - apply (H0 (inr (PRot t k b c)) Hs p l H).
  - apply (H0 (inr (PPauliRotation t b q c)) Hs p l H).
  - destruct Hs as [-> Hs]. rewrite param_known in H. revert gs l Hs H. induction d as [|x d IH]; intros [|g gs] l Hs H; cbn [param_zip] in H; try discriminate; try (injection H as <-; constructor).
    inv_bind H. inv_bind H. injection H as <-. apply Forall_app. split; [|eapply IH; [|eassumption]; intros; apply Hs; now right].
    exact (H0 g (Hs g (or_introl eq_refl)) _ _ E).
Qed.
Lemma factory_simple_param g : fresh_param g -> simple_param g /\ held_param g.
Proof.
  induction 1 as [vf k g Hty H|dist gs g Hg Hp IH H].
  - split; [|now apply held_param_gate with vf k]. destruct k; cbn [make_param] in H; inv_bind H; inv_bind H; destruct v0 as [[t0 c0] cv0]; inv_bind H; injection H as <-; reflexivity.
  - split; [|apply held_param_probabilistic with dist gs; [|intros g' Hin; now apply IH|exact H]; intros g' Hin; now apply factory_simple, Hg].
    unfold make_param_probabilistic in H. inv_bind H. injection H as <-. split; [reflexivity|].
    apply (impl_all factory_alternative_any _ _ _ _ E). intros p g l Hin. apply flatten_simple_any. right.
    destruct g as [g|g]; [left; exists g; split; [reflexivity|]; now apply factory_simple, Hg|right; exists g; split; [reflexivity|]; now apply IH].
Qed.
Lemma simple_typed_param g : simple_param g -> one_level_param g /\ typed_param g = g.
Proof.
  destruct g as [t k b c|t b p c|t d gs]; intros H; cbn [simple_param] in H; [subst; split; [exact I|reflexivity]..|].
  destruct H as [-> H]. cbn [one_level_param typed_param]. split.
  - apply Forall_forall. intros g Hg. apply H in Hg. destruct g as [[[[|] g]| |]|[]]; try contradiction; exact I.
  - f_equal. apply map_same. intros g Hg. apply H in Hg. destruct g as [[[[|] g]| |]|[]]; try contradiction; cbn in Hg; subst; reflexivity.
Qed.
Theorem factory_param_round_trip vf g : fresh_param g -> readable_param g = true -> param_gate_from_json vf (param_gate_to_json g) = Ok g.
Proof. intros H Hr. destruct (factory_simple_param g H) as [Hs Hh]. destruct (simple_typed_param g Hs) as [Hf Ht]. rewrite param_round_trip, Hr, Ht by assumption. reflexivity. Qed.
Theorem factory_circuit_round_trip vf gates : Forall fresh_item gates -> all_readable gates ->
  exists j, circuit_to_json (Circuit gates (map (fun _ => None) gates)) = Ok j /\ circuit_from_json vf j = Ok (Circuit gates (map (fun _ => None) gates)).
Proof.
  intros HF Hr. rewrite Forall_forall in HF.
  assert (Hi : forall i, In i gates -> held_item i /\ typed_item i = i).
  { intros i Hi. apply HF in Hi. destruct i as [g|g key]; cbn in Hi.
    - destruct (factory_simple g Hi) as [Hs Hh]. destruct (simple_typed g Hs) as [Hf Ht]. repeat split; auto. cbn. now rewrite Ht.
    - destruct (factory_simple_param g Hi) as [Hs Hh]. destruct (simple_typed_param g Hs) as [Hf Ht]. repeat split; auto. cbn. now rewrite Ht. }
  destruct (circuit_round_trip vf (Circuit gates (map (fun _ => None) gates))) as [_ H]; cbn [c_gates c_conds].
  - now rewrite map_length.
  - apply Forall_forall. intros i Hin. now apply Hi.
  - destruct H as (j & H1 & H2).
    + cbn [c_conds]. apply Forall_forall. intros f Hf. apply in_map_iff in Hf. now destruct Hf as (? & <- & _).
    + exists j. split; [exact H1|]. rewrite H2. cbn [c_gates c_conds].
      replace (forallb readable_item gates) with true by (symmetry; apply forallb_forall; exact Hr). rewrite map_same; [reflexivity|]. intros i Hin. now apply Hi.
Qed.

(** ** Operators *)
Lemma read_operator o : op_u64 o -> op_from_json (op_to_json o) = Ok (op_of_terms (o_terms o)).
Proof.
  intros H. unfold op_from_json, op_to_json. keys. cbn [elements]. rewrite collect_map; [reflexivity|]. intros p Hp. apply read_pauli.
  unfold op_u64 in H. rewrite Forall_forall in H. now apply H.
Qed.
Lemma read_batch ops : fits_vector ops -> Forall op_u64 ops ->
  exists j, ob_to_json (batch_of ops) = Ok j /\ ob_from_json j = Ok (batch_of ops).
Proof.
  intros Hf Hu. unfold ob_to_json, batch_of, ob_of_operators. rewrite get_operators_ok by (unfold lenN; rewrite map_length; exact Hf). cbn [bindR]. eexists. split; [reflexivity|].
  unfold ob_from_json. keys. cbn [elements]. rewrite (collect_reads op_from_json op_to_json (fun _ => true) (fun o => op_of_terms (o_terms o))).
  - replace (forallb _ _) with true by (symmetry; now apply forallb_forall). cbn [bindR]. f_equal. unfold ob_of_operators. f_equal.
    rewrite !map_map. apply map_ext. reflexivity.
  - intros o Ho. unfold JsonProofs2.reads. apply read_operator. rewrite map_map in Ho. apply in_map_iff in Ho. destruct Ho as (p & <- & Hp).
    rewrite Forall_forall in Hu. exact (Hu p Hp).
Qed.

(** ** States *)
Lemma get_then {W T U} (f : W -> T) (k : T -> host W U) w Q : runs (k (f w)) w Q -> runs (hbind (hget f) k) w Q.
Proof. intros H. apply (runs_bind_done _ _ _ (fun t w' => t = f w /\ w' = w)); [apply runs_get; split; reflexivity|]. now intros t w' [-> ->]. Qed.
Lemma lift_then {W T U} (r : res T) t (k : T -> host W U) w Q : r = Ok t -> runs (k t) w Q -> runs (hbind (hlift r) k) w Q.
Proof. intros -> H. apply (runs_bind_done _ _ _ (fun t' w' => t' = t /\ w' = w)); [apply runs_ret; split; reflexivity|]. now intros t' w' [-> ->]. Qed.
Lemma read_complex_list l : get_vector complex_from_json (JArray (map complex_to_json l)) = Ok l.
Proof. cbn [get_vector]. apply collect_map. intros; apply read_complex. Qed.
Lemma nth_map_seqN {T} (f : N -> T) n x d : x < n -> nth (N.to_nat x) (map f (seqN n)) d = f x.
Proof. intros H. rewrite (nth_indep _ d (f 0)) by (rewrite map_length, length_seqN; lia). rewrite map_nth, nth_seqN by lia. now rewrite N2Nat.id. Qed.
Theorem state_round_trip n w : n < 64 -> restores (state_to_json n) state_from_json w (fun m u => m = n /\ forall x, x < 2 ^ n -> w_amp u x = w_amp w x).
Proof.
  intros Hn. unfold restores, state_to_json. apply get_then. apply runs_ret. cbn [done]. split; [reflexivity|]. intros u. unfold state_from_json.
  eapply lift_then; [reflexivity|]. eapply lift_then; [reflexivity|]. destruct (N.leb_spec 64 n); [lia|].
  eapply runs_bind_done; [apply set_zero_state_ok|]. intros [] u1 _. eapply lift_then; [reflexivity|]. eapply lift_then; [apply read_complex_list|].
  eapply runs_bind_done; [apply load_ok; now rewrite map_length, length_seqN, N2Nat.id|]. intros [] u2 (Ha & _).
  apply runs_ret. cbn [done]. split; [reflexivity|]. intros x Hx. rewrite Ha by exact Hx. now apply nth_map_seqN.
Qed.
Theorem states_round_trip n B w : n < 64 -> restores (states_to_json n B) states_from_json w
  (fun m u => m = (n, B) /\ forall b x, b < B -> x < 2 ^ n -> w_amp u (at_row n b x) = w_amp w (at_row n b x)).
Proof.
  intros Hn. unfold restores, states_to_json. apply get_then. apply runs_ret. cbn [done]. split; [reflexivity|]. intros u. unfold states_from_json.
  eapply lift_then; [reflexivity|]. eapply lift_then; [reflexivity|]. eapply lift_then; [reflexivity|]. eapply lift_then; [reflexivity|]. destruct (N.leb_spec 64 n); [lia|].
  eapply runs_bind_done.
  { unfold b_set_zero_state, b_set_computational_basis. pose proof (pow2_pos n). destruct (N.leb_spec (2 ^ n) 0); [lia|]. apply write_rows. reflexivity. }
  intros [] u1 _. eapply lift_then; [reflexivity|]. eapply lift_then.
  { cbn [get_vector]. apply (collect_map (get_vector complex_from_json) (fun l => JArray (map complex_to_json l))). intros l _. apply read_complex_list. }
  set (ls := map _ (seqN B)).
  assert (Hl : (N.of_nat (length ls) =? B) && forallb (fun l => N.of_nat (length l) =? 2 ^ n) ls = true).
  { unfold ls. rewrite map_length, length_seqN, N2Nat.id, N.eqb_refl. cbn [andb]. apply forallb_forall. intros l Hin. apply in_map_iff in Hin. destruct Hin as (b & <- & _).
    rewrite map_length, length_seqN, N2Nat.id. apply N.eqb_refl. }
  pose proof (b_load_ok B n ls u1 (fun _ _ => C0)) as HL. cbn [family_op] in HL. rewrite Hl in HL. cbn [on_batches] in HL.
  eapply runs_bind_done; [exact HL|]. intros [] u2 (Ha & _). apply runs_ret. cbn [done]. split; [reflexivity|]. intros b x Hb Hx.
  specialize (Ha b x Hb Hx). unfold batch in Ha. fold (at_row n b x) in Ha. rewrite Ha. unfold ls. rewrite nth_map_seqN by exact Hb. now rewrite nth_map_seqN.
Qed.
(** ** Matrices and density matrices *)
Lemma read_matrix n m f : n <> 0 -> exists g, matrix_from_json (matrix_to_json (DMat n m f)) = Ok (DMat n m g) /\
  forall i j, i < n -> j < m -> g i j = f i j.
Proof.
  intros Hn. unfold matrix_to_json. cbn [m_rows m_cols m_at]. set (row r := JArray (map (fun c => complex_to_json (f r c)) (seqN m))).
  assert (E : map row (seqN n) = row 0 :: map row (tl (seqN n))).
  { unfold seqN. destruct (N.to_nat n) eqn:En; [lia|]. reflexivity. }
  assert (Hr : collectR (row_from_json (json_size (row 0))) (map row (seqN n)) = Ok (map (fun r => map (f r) (seqN m)) (seqN n))).
  { rewrite (collect_reads _ row (fun _ => true) (fun r => map (f r) (seqN m))).
    - replace (forallb _ _) with true by (symmetry; now apply forallb_forall). reflexivity.
    - intros r _. unfold JsonProofs2.reads, row, row_from_json. cbn [elements json_size]. rewrite !map_length. rewrite N.eqb_refl.
      rewrite (collect_reads _ (fun c => complex_to_json (f r c)) (fun _ => true) (f r)).
      + replace (forallb _ _) with true by (symmetry; now apply forallb_forall). reflexivity.
      + intros c _. apply read_complex. }
  unfold matrix_from_json. rewrite E. rewrite <- E, Hr. cbn [bindR]. eexists. split.
  - f_equal. rewrite map_length, length_seqN, N2Nat.id. unfold row at 1. cbn [json_size]. rewrite map_length, length_seqN, N2Nat.id. reflexivity.
  - intros i j Hi Hj. cbv beta. rewrite nth_map_seqN by exact Hi. now rewrite nth_map_seqN.
Qed.
Theorem density_round_trip n w : n < 64 -> restores (dm_to_json n) dm_from_json w
  (fun m u => m = n /\ mat_eq (2 ^ n) (rho u) (rho w) /\ d_herm u = d_herm w).
Proof.
  intros Hn. unfold restores, dm_to_json. apply get_then. apply get_then. apply runs_ret. cbn [done]. split; [reflexivity|]. intros u. unfold dm_from_json.
  eapply lift_then; [reflexivity|]. eapply lift_then; [reflexivity|]. eapply lift_then; [reflexivity|]. eapply lift_then; [reflexivity|]. eapply lift_then; [reflexivity|].
  destruct (read_matrix (2 ^ n) (2 ^ n) (fun i j => d_raw w (i, j))) as (g & Hg & Hv); [apply N.pow_nonzero; lia|].
  eapply lift_then; [exact Hg|]. destruct (N.leb_spec 64 n); [lia|].
  apply (runs_bind_done _ _ _ (fun _ w' => w' = u)); [now apply runs_ret|]. intros [] u1 ->.
  unfold dm_load_matrix. cbn [m_rows m_cols m_at]. rewrite N.eqb_refl. cbn [negb orb].
  eapply runs_bind_done; [apply herm_dfor|]. intros [] u2 [Hm Hh]. apply runs_ret. cbn [done]. split; [reflexivity|]. split; [|exact Hh].
  intros i j Hi Hj. rewrite Hm by assumption. now apply Hv.
Qed.
