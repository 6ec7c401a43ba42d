(** Reading back parametric gates and circuits. *)
From Verif Require Export JsonProofs2.
From Coq Require Import Lia Lra ZifyBool ZifyN ZifyNat.
Open Scope N_scope.

Definition alternative_param (g : vgate) : Prop :=
  match g with inl g => alternative g | inr (PProb true _ _) => False | inr _ => True end.
Inductive stored_param : pgate -> Prop :=
| stored_rot t k b c : base_ok b -> stored_param (PRot t k b c)
| stored_pauli_rotation t b p c : base_ok b -> g_t b = N.lor (p_bf p) (p_pf p) -> stored_param (PPauliRotation t b p c)
| stored_param_prob t d gs : shape d gs -> (forall g, In (inl g) gs -> stored g) -> (forall g, In (inr g) gs -> stored_param g) ->
    (forall g, In g gs -> alternative_param g) -> stored_param (PProb t d gs).
Definition stored_any (g : vgate) : Prop := match g with inl g => stored g | inr g => stored_param g end.

Lemma flatten_non_param_stored g : stored g -> forall p l, in_unit p = true -> flatten_non_param p g = Ok l ->
  good_pairs (fun g => stored_any g /\ alternative_param g) l.
Proof.
  intros Hg p l Hp H. rewrite non_param_lift in H. inv_bind H. injection H as <-. destruct (flatten_stored gate_wf g Hg p v Hp E) as [Hne HF].
  split; [destruct v; [congruence|discriminate]|]. unfold lift. apply Forall_map. eapply Forall_impl; [|exact HF]. intros [q e]. exact (fun H => H).
Qed.
Lemma flatten_param_stored g : stored_param g -> forall p l, in_unit p = true -> flatten_param p g = Ok l ->
  good_pairs (fun g => stored_any g /\ alternative_param g) l.
Proof.
  induction 1 as [t k b c Hb|t b p0 c Hb Ht|t d gs Hs Hst Hsp IH Hal]; intros p l Hp Hf.
  - injection Hf as <-. apply good_one; [exact Hp|]. split; [now constructor|exact I].
  - injection Hf as <-. apply good_one; [exact Hp|]. split; [now constructor|exact I].
  - destruct t.
    + rewrite param_known in Hf. eapply (shape_zip _ flatten_param_probabilistic_gate (param_zip p) p); try reflexivity; eauto.
      intros q [g|g] l' Hin Hq Hl'; cbn [flatten_param_probabilistic_gate] in Hl'; [eapply flatten_non_param_stored; eauto|eapply IH; eauto].
    + injection Hf as <-. apply good_one; [exact Hp|]. split; [now constructor|exact I].
Qed.
Lemma stored_param_impl t d gs x : (forall g, In g gs -> stored_any g) ->
  probabilistic_impl flatten_param_probabilistic_gate d gs = Ok x -> stored_param (PProb t (fst x) (snd x)).
Proof.
  intros Hg H. destruct (impl_shape (fun g => stored_any g /\ alternative_param g) _ _ _ _ H) as [Hs Hx].
  - intros p [g|g] l Hin Hp Hl; cbn [flatten_param_probabilistic_gate] in Hl; apply Hg in Hin; [eapply flatten_non_param_stored; eauto|eapply flatten_param_stored; eauto].
  - constructor; [exact Hs| | |]; intros g Hin; now apply Hx in Hin.
Qed.
Lemma stored_param_inverse g : stored_param g -> forall g', p_inverse g = Ok g' -> stored_param g'.
Proof.
  induction 1 as [t k b c Hb|t b p0 c Hb Ht|t d gs Hs Hst Hsp IH Hal]; intros g' H; cbn [p_inverse] in H.
  - injection H as <-. now constructor.
  - injection H as <-. now constructor.
  - inv_bind H. inv_bind H. injection H as <-. eapply stored_param_impl; [|exact E0]. apply mapR_ok in E.
    intros g Hg. clear -E IH Hst Hg. induction E as [|a b l m Hab HE IHE]; [destruct Hg|]. destruct Hg as [<-|Hg].
    + destruct a as [a|a]; inv_bind Hab; injection Hab as <-; cbn [stored_any].
      * eapply stored_inverse; [apply Hst; now left|eassumption].
      * eapply IH; [now left|eassumption].
    + apply IHE; [| |exact Hg]; [intros x Hx; apply Hst; now right|intros x Hx y Hy; exact (IH x (or_intror Hx) y Hy)].
Qed.
Lemma held_param_stored g : held_param g -> stored_param g.
Proof.
  induction 1 as [vf k g Hty H|dist gs g Hg Hp IH H|g g' Hg IH H].
  - pose proof (proj1 (make_param_at vf k g 0%R H)) as Hm. pose proof (means_wf _ _ _ _ (make_means vf _ _ (pcall_typed_at k 0%R Hty) Hm)) as [Hb Hw].
    destruct k; cbn [make_param] in H; inv_bind H; inv_bind H; destruct v0 as [[t0 c0] cv0]; inv_bind H; injection H as <-; constructor; try exact Hb. exact Hw.
  - unfold make_param_probabilistic in H. inv_bind H. injection H as <-. apply stored_param_impl with (d := dist) (gs := gs); [|exact E].
    intros [g|g] Hin; cbn [stored_any]; [now apply held_stored, Hg|now apply IH].
  - now apply stored_param_inverse with g.
Qed.

(** ** Reading *)
Lemma read_rotation vf fuel t k b c : base_ok b -> param_gate_from_json_rec vf (S fuel) (param_gate_to_json (PRot t k b c)) = Ok (PRot true k b c).
Proof.
  intros Hb. assert (E : rot_from_json vf k (param_gate_to_json (PRot t k b c)) = Ok (PRot true k b c)).
  { unfold rot_from_json. cbn [param_gate_to_json]. rewrite operands_masks by exact Hb. cbn [bindR]. unfold with_operands, double_of_key. keys.
    cbn [get_double bindR]. rewrite remake_base by exact Hb. reflexivity. }
  rewrite <- E. destruct k; reflexivity.
Qed.
Lemma read_pauli_rotation vf fuel t b p c : base_ok b -> g_t b = N.lor (p_bf p) (p_pf p) ->
  param_gate_from_json_rec vf (S fuel) (param_gate_to_json (PPauliRotation t b p c)) = Ok (PPauliRotation true b p c).
Proof.
  intros Hb Ht. set (j := param_gate_to_json (PPauliRotation t b p c)).
  transitivity (m <- masks_from_json vf j (Ok 0) ;; p <- at_key j "pauli" ;; p <- pauli_from_json p ;; a <- double_of_key j "param_coef" ;;
        let '(_, c, cv) := m in b <- make_pauli_base p c cv ;; Ok (PPauliRotation true b p a)); [reflexivity|]. subst j. cbn [param_gate_to_json].
  rewrite controls_controls by exact Hb. cbn [bindR]. unfold with_controls, double_of_key. keys.
  rewrite read_pauli by (apply lor_u64_iff; rewrite <- Ht; apply Hb). cbn [bindR get_double]. rewrite make_pauli_base_same by assumption. reflexivity.
Qed.
Definition readable_any (g : vgate) : bool := match g with inl g => readable g | inr g => readable_param g end.
Definition typed_any (g : vgate) : vgate := match g with inl g => inl (typed g) | inr g => inr (typed_param g) end.
Definition any_to_json (g : vgate) : json := match g with inl g => gate_to_json g | inr g => param_gate_to_json g end.
Definition any_from_json (vf : bool) (fuel : nat) (x : json) : res vgate :=
  type <- at_key x "type" ;; type <- get_string type ;;
  if string_starts_with "Param" type then g <- param_gate_from_json_rec vf fuel x ;; Ok (inr g) else g <- gate_from_json vf x ;; Ok (inl g).
Lemma not_param_type g : string_starts_with "Param" (type_of g) = false.
Proof. destruct g as [|b ph|k b|b|b pc pt|b dst s|b p|b p a|b M u|b Sp]; try reflexivity. destruct k; reflexivity. Qed.
Lemma read_any vf fuel g : stored_any g -> match g with inl (CElem _) | inr (PRot _ _ _ _) | inr (PPauliRotation _ _ _ _) => True | _ => False end ->
  any_from_json vf (S fuel) (any_to_json g) = if readable_any g then Ok (typed_any g) else Throw.
Proof.
  intros Hs Hk. unfold any_from_json. destruct g as [[[t g]|t b r|t d gs]|[t k b c|t b p c|t d gs]]; try contradiction; inversion Hs; subst.
  - cbn [any_to_json gate_to_json]. rewrite written_type. cbn [bindR get_string]. rewrite not_param_type.
    change (egate_to_json g) with (gate_to_json (CElem (t, g))). unfold gate_from_json. cbn [readable_any readable typed_any typed].
    destruct (readable_kind g) eqn:E; [now rewrite read_egate|now rewrite unread_egate].
  - cbn [any_to_json]. assert (E : at_key (param_gate_to_json (PRot t k b c)) "type" = Ok (JString (rot_type k))) by reflexivity.
    rewrite E. cbn [bindR get_string]. assert (E' : string_starts_with "Param" (rot_type k) = true) by (destruct k; reflexivity). rewrite E'.
    rewrite read_rotation by assumption. reflexivity.
  - cbn [any_to_json]. assert (E : at_key (param_gate_to_json (PPauliRotation t b p c)) "type" = Ok (JString "ParamPauliRotation")) by reflexivity.
    rewrite E. cbn [bindR get_string]. change (string_starts_with "Param" "ParamPauliRotation") with true. cbn iota.
    rewrite read_pauli_rotation by assumption. reflexivity.
Qed.
Lemma read_param vf fuel g : stored_param g -> one_level_param g -> match g with PProb _ _ _ => (1 < fuel)%nat | _ => (0 < fuel)%nat end ->
  param_gate_from_json_rec vf fuel (param_gate_to_json g) = if readable_param g then Ok (typed_param g) else Throw.
Proof.
  intros Hs Hf Hfu. destruct fuel as [|fuel]; [destruct g; lia|].
  inversion Hs as [t k b c Hb|t b p c Hb Ht|t d gs Hsh Hst Hsp Hal]; subst; clear Hs.
  - now apply read_rotation.
  - now apply read_pauli_rotation.
  - destruct fuel as [|fuel]; [lia|].
    change (param_gate_from_json_rec vf (S (S fuel)) (param_gate_to_json (PProb t d gs))) with
      (d <- get_vector get_double (double_list d) ;; l <- collectR (any_from_json vf (S fuel)) (map any_to_json gs) ;; make_param_probabilistic d l).
    rewrite read_double_list. cbn [bindR]. cbn [one_level_param] in Hf. rewrite Forall_forall in Hf.
    assert (Hel : forall g, In g gs -> stored_any g /\ match g with inl (CElem _) | inr (PRot _ _ _ _) | inr (PPauliRotation _ _ _ _) => True | _ => False end).
    { intros g Hg. pose proof (Hf g Hg) as H1. pose proof (Hal g Hg) as H2. destruct g as [g|g].
      - split; [now apply Hst|]. destruct g; try contradiction. exact I.
      - split; [now apply Hsp|]. destruct g; try contradiction; exact I. }
    rewrite (collect_reads _ any_to_json readable_any typed_any).
    2:{ intros g Hg. destruct (Hel g Hg). now apply read_any. }
    cbn [readable_param typed_param]. change (fun g : cgate + pgate => match g with inl g0 => readable g0 | inr g0 => readable_param g0 end) with readable_any.
    destruct (forallb readable_any gs); [|reflexivity]. cbn [bindR]. unfold make_param_probabilistic.
    rewrite impl_singles; [reflexivity|now apply shape_map|]. intros p g Hg. apply in_map_iff in Hg. destruct Hg as (g0 & <- & Hg).
    destruct (Hel g0 Hg) as [_ Hk]. destruct g0 as [[[t' e]|t' b r|t' d' gs']|[t' k b c|t' b q c|t' d' gs']]; try contradiction; reflexivity.
Qed.
Theorem param_round_trip vf g : held_param g -> one_level_param g ->
  param_gate_from_json vf (param_gate_to_json g) = if readable_param g then Ok (typed_param g) else Throw.
Proof.
  intros H Hf. apply held_param_stored in H. apply read_param; auto. destruct g as [t k b c|t b p c|t d gs]; try lia.
  inversion H as [| |? ? ? (Hne & Hl & _)]; subst. assert (Hgs : gs <> []) by (destruct gs; [destruct d; [congruence|discriminate]|discriminate]).
  destruct gs; [congruence|]. cbn [param_gate_to_json json_depth fold_right snd map]. lia.
Qed.

(** ** Circuits *)
Lemma item_round_trip vf i : held_item i -> item_from_json vf (item_to_json i) = if readable_item i then Ok (typed_item i) else Throw.
Proof.
  intros H. destruct i as [g|g key]; destruct H as [H Hf].
  - change (item_from_json vf (item_to_json (IGate g))) with (g <- gate_from_json vf (gate_to_json g) ;; Ok (IGate g)).
    rewrite gate_round_trip by assumption. cbn [readable_item typed_item]. now destruct (readable g).
  - change (item_from_json vf (item_to_json (IParam g key))) with (g <- param_gate_from_json vf (param_gate_to_json g) ;; Ok (IParam g key)).
    rewrite param_round_trip by assumption. cbn [readable_item typed_item]. now destruct (readable_param g).
Qed.
Lemma conditions_written gates : forall conds, length gates = length conds ->
  collectR (fun gc : citem * option cond => match snd gc with Some _ => Throw | None => Ok (item_to_json (fst gc)) end) (combine gates conds) =
  if forallb (fun c => match c with None => true | Some _ => false end) conds then Ok (map item_to_json gates) else Throw.
Proof.
  induction gates as [|g gates IH]; intros [|c conds] Hl; try discriminate; [reflexivity|]. cbn [combine collectR snd fst forallb map]. destruct c; [reflexivity|].
  cbn [bindR andb]. rewrite IH by (now injection Hl). now destruct (forallb _ conds).
Qed.
Theorem circuit_round_trip vf c : length (c_gates c) = length (c_conds c) -> Forall held_item (c_gates c) ->
  (Exists (fun f => f <> None) (c_conds c) -> circuit_to_json c = Throw) /\
  (Forall (fun f => f = None) (c_conds c) -> exists j, circuit_to_json c = Ok j /\
     circuit_from_json vf j = if forallb readable_item (c_gates c) then Ok (Circuit (map typed_item (c_gates c)) (c_conds c)) else Throw).
Proof.
  intros Hl HF. unfold circuit_to_json. rewrite conditions_written by exact Hl. split.
  - intros HE. replace (forallb _ (c_conds c)) with false; [reflexivity|]. symmetry. apply Bool.not_true_is_false. intros H. rewrite forallb_forall in H.
    apply Exists_exists in HE. destruct HE as (f & Hf & Hn). apply H in Hf. now destruct f.
  - intros HN. replace (forallb _ (c_conds c)) with true by (symmetry; apply forallb_forall; rewrite Forall_forall in HN; intros f Hf; now rewrite (HN f Hf)).
    cbn [bindR]. eexists. split; [reflexivity|]. unfold circuit_from_json. keys. cbn [elements].
    rewrite (collect_reads _ item_to_json readable_item typed_item).
    2:{ intros i Hi. rewrite Forall_forall in HF. now apply item_round_trip, HF. }
    destruct (forallb readable_item (c_gates c)); [|reflexivity]. cbn [bindR]. do 2 f_equal. clear HF. revert HN Hl. generalize (c_gates c). induction (c_conds c) as [|f l IH]; intros [|g gs] HN Hl; try discriminate; [reflexivity|].
    cbn [map]. inversion HN; subst. f_equal. apply IH; [assumption|now injection Hl].
Qed.
