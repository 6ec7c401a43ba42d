(** Reading back gates, parametric gates and circuits. *)
From Verif Require Export JsonProofs CircuitProofs12 QasmProofs6.
From Coq Require Import Lia Lra ZifyBool ZifyN ZifyNat.
Open Scope N_scope.

(** ** What the gates a program can hold look like *)
Definition shape {G} (d : list R) (gs : list G) : Prop :=
  d <> [] /\ length d = length gs /\ forallb in_unit d = true /\ sum_is_one (cumulative_distribution d) = true.
Definition alternative (g : cgate) : Prop := match g with CElem _ | CProb false _ _ => True | _ => False end.
Inductive stored_as (W : egate -> Prop) : cgate -> Prop :=
| stored_elem t g : W g -> stored_as W (CElem (t, g))
| stored_meas t bit reset : t < two64 -> stored_as W (CMeas t bit reset)
| stored_prob t d gs : shape d gs -> (forall g, In g gs -> stored_as W g) -> (forall g, In g gs -> alternative g) -> stored_as W (CProb t d gs).
Notation stored := (stored_as gate_wf).

Definition good_pairs {G} (P : G -> Prop) (l : list (R * G)) : Prop :=
  l <> [] /\ Forall (fun pg => in_unit (fst pg) = true /\ P (snd pg)) l.
Lemma good_app {G} (P : G -> Prop) a b : good_pairs P a -> (b = [] \/ good_pairs P b) -> good_pairs P (a ++ b).
Proof.
  intros [Ha Fa] Hb. split; [destruct a; [congruence|discriminate]|]. apply Forall_app. split; [exact Fa|]. destruct Hb as [->|[_ Fb]]; [constructor|exact Fb].
Qed.
Lemma unit_mul p q : in_unit p = true -> in_unit q = true -> in_unit (p * q) = true.
Proof. rewrite !in_unit_iff. intros. nra. Qed.
Lemma good_one {G} (P : G -> Prop) p g : in_unit p = true -> P g -> good_pairs P [(p, g)].
Proof. intros H1 H2. split; [discriminate|]. constructor; [split; assumption|constructor]. Qed.
Lemma impl_shape {G} (P : G -> Prop) flt d gs x : probabilistic_impl flt d gs = Ok x ->
  (forall p g l, In g gs -> in_unit p = true -> flt p g = Ok l -> good_pairs P l) -> shape (fst x) (snd x) /\ forall g, In g (snd x) -> P g.
Proof.
  intros H HF. unfold probabilistic_impl in H. destruct (Nat.eqb_spec (length d) 0); [discriminate|].
  destruct (Nat.eqb_spec (length d) (length gs)) as [Hl|]; [|discriminate]. cbn [negb] in H. destruct (forallb in_unit d) eqn:Hu; [|discriminate]. cbn [negb] in H.
  inv_bind H. destruct (sum_is_one _) eqn:Es; [|discriminate]. injection H as <-.
  assert (Hg : d = [] \/ good_pairs P v).
  { clear n Es. revert gs v Hl Hu E HF. induction d as [|p d IH]; intros gs v Hl Hu E HF; [now left|right]. destruct gs as [|g gs]; [discriminate|].
    cbn [flatten_all] in E. inv_bind E. inv_bind E. injection E as <-. cbn in Hu. apply andb_prop in Hu. destruct Hu as [Hp Hu].
    apply good_app; [exact (HF _ _ _ (or_introl eq_refl) Hp E0)|]. injection Hl as Hl.
    destruct (IH gs v1 Hl Hu E1) as [->|Hg]; [intros; eapply HF; eauto; now right|left|now right]. destruct gs; cbn in E1; injection E1 as <-; reflexivity. }
  destruct Hg as [->|[Hne Hg]]; [now cbn in n|]. split.
  - split; [destruct v; [congruence|discriminate]|]. cbn [fst snd]. split; [now rewrite !map_length|]. split; [|exact Es].
    apply forallb_forall. intros p Hp. apply in_map_iff in Hp. destruct Hp as (pg & <- & Hin). rewrite Forall_forall in Hg. now apply Hg.
  - cbn [snd]. intros g Hg'. apply in_map_iff in Hg'. destruct Hg' as (pg & <- & Hin). rewrite Forall_forall in Hg. now apply Hg.
Qed.
Lemma shape_zip {G} (P : G -> Prop) (flt : R -> G -> res (list (R * G))) zip p :
  (forall d ds g gs, zip (d :: ds) (g :: gs) = (l <- flt (p * d)%R g ;; r <- zip ds gs ;; Ok (l ++ r))) -> (forall gs, zip [] gs = Ok []) ->
  in_unit p = true -> forall d gs l, shape d gs -> zip d gs = Ok l ->
  (forall q g l, In g gs -> in_unit q = true -> flt q g = Ok l -> good_pairs P l) -> good_pairs P l.
Proof.
  intros Hc Hn Hp d gs l (Hne & Hl & Hu & _) H HF.
  assert (Hg : d = [] \/ good_pairs P l); [|now destruct Hg].
  clear Hne. revert gs l Hl Hu H HF. induction d as [|q d IH]; intros gs l Hl Hu H HF; [now left|right]. destruct gs as [|g gs]; [discriminate|].
  rewrite Hc in H. inv_bind H. inv_bind H. injection H as <-. cbn in Hu. apply andb_prop in Hu. destruct Hu as [Hq Hu]. injection Hl as Hl.
  apply good_app; [exact (HF _ _ _ (or_introl eq_refl) (unit_mul _ _ Hp Hq) E)|].
  destruct (IH gs v0 Hl Hu E0) as [->|Hg]; [intros; eapply HF; eauto; now right|left|now right]. rewrite Hn in E0. now injection E0 as <-.
Qed.
Lemma flatten_stored W g : stored_as W g -> forall p l, in_unit p = true -> flatten_probabilistic_gate p g = Ok l ->
  good_pairs (fun g => stored_as W g /\ alternative g) l.
Proof.
  induction 1 as [t g Hw|t bit reset Ht|t d gs Hs Hst IH Hal]; intros p l Hp Hf.
  - injection Hf as <-. apply good_one; [exact Hp|]. split; [now constructor|exact I].
  - discriminate.
  - destruct t.
    + rewrite flatten_known in Hf. eapply (shape_zip _ flatten_probabilistic_gate (flatten_zip p) p); try reflexivity; eauto.
    + injection Hf as <-. apply good_one; [exact Hp|]. split; [now constructor|exact I].
Qed.
Lemma stored_impl W t d gs x : (forall g, In g gs -> stored_as W g) -> probabilistic_impl flatten_probabilistic_gate d gs = Ok x -> stored_as W (CProb t (fst x) (snd x)).
Proof.
  intros Hg H. destruct (impl_shape (fun g => stored_as W g /\ alternative g) _ _ _ _ H) as [Hs Hx].
  - intros p g l Hin Hp Hl. eapply flatten_stored; eauto.
  - constructor; [exact Hs| |]; intros g Hin; now apply Hx.
Qed.
Lemma stored_inverse g : stored g -> forall g', c_inverse g = Ok g' -> stored g'.
Proof.
  induction 1 as [t g Hw|t bit reset Ht|t d gs Hs Hst IH Hal]; intros g' H; cbn [c_inverse] in H.
  - inv_bind H. injection H as <-. constructor. exact (proj1 (inverse_wf _ _ Hw E)).
  - discriminate.
  - inv_bind H. inv_bind H. injection H as <-. eapply stored_impl; [|exact E0]. apply mapR_ok in E.
    intros g Hg. clear -E IH Hg. induction E as [|a b l m Hab HE IHE]; [destruct Hg|]. destruct Hg as [<-|Hg]; [eapply IH; [now left|exact Hab]|].
    apply IHE; [|exact Hg]. intros x Hx y Hy. exact (IH x (or_intror Hx) y Hy).
Qed.
Lemma held_stored g : held g -> stored g.
Proof.
  induction 1 as [t g H|target bit reset g H|dist gs g Hg IH H|g g' Hg IH H].
  - constructor. now apply made_wf in H.
  - unfold make_measurement in H. inv_bind H. inv_bind H. injection H as <-. apply make_base_ok in E0. destruct E0 as [_ ->].
    constructor. now apply vector_to_mask_u64 in E.
  - unfold make_probabilistic in H. inv_bind H. injection H as <-. now apply (stored_impl gate_wf true dist gs).
  - now apply stored_inverse with g.
Qed.

(** ** Reading gates *)
Lemma flatten_singles {G} (flt : R -> G -> res (list (R * G))) : forall d gs, length d = length gs -> (forall p g, In g gs -> flt p g = Ok [(p, g)]) ->
  flatten_all flt d gs = Ok (combine d gs).
Proof.
  induction d as [|p d IH]; intros [|g gs] Hl H; try discriminate; [reflexivity|]. cbn [flatten_all combine]. rewrite H by now left. cbn [bindR].
  rewrite IH by (auto; intros; apply H; now right). reflexivity.
Qed.
Lemma map_fst_combine {A B} : forall (l : list A) (m : list B), length l = length m -> map fst (combine l m) = l.
Proof. induction l as [|a l IH]; intros [|b m] H; try discriminate; [reflexivity|]. cbn. now rewrite IH by (now injection H). Qed.
Lemma map_snd_combine {A B} : forall (l : list A) (m : list B), length l = length m -> map snd (combine l m) = m.
Proof. induction l as [|a l IH]; intros [|b m] H; try discriminate; [reflexivity|]. cbn. now rewrite IH by (now injection H). Qed.
Lemma impl_singles {G} (flt : R -> G -> res (list (R * G))) d gs : shape d gs -> (forall p g, In g gs -> flt p g = Ok [(p, g)]) ->
  probabilistic_impl flt d gs = Ok (d, gs).
Proof.
  intros (Hne & Hl & Hu & Hs) H. unfold probabilistic_impl. destruct (Nat.eqb_spec (length d) 0) as [E|_]; [destruct d; [congruence|discriminate]|].
  rewrite Hl, Nat.eqb_refl, Hu. cbn [negb]. rewrite flatten_singles by assumption. cbn [bindR].
  rewrite map_fst_combine, map_snd_combine, Hs by exact Hl. reflexivity.
Qed.
Lemma read_egate vf fuel t g : gate_wf g -> readable_kind g = true ->
  gate_from_json_rec vf (S fuel) (gate_to_json (CElem (t, g))) = Ok (CElem (true, g)).
Proof.
  intros Hw Hr. cbn [gate_from_json_rec gate_to_json]. rewrite written_type. cbn [bindR get_string]. now rewrite read_elementary.
Qed.
Lemma unread_egate vf fuel t g : readable_kind g = false -> gate_from_json_rec vf (S fuel) (gate_to_json (CElem (t, g))) = Throw.
Proof.
  intros Hr. cbn [gate_from_json_rec gate_to_json]. rewrite written_type. cbn [bindR get_string]. rewrite unread_elementary by exact Hr.
  destruct g as [|b ph|k b|b|b pc pt|b dst s|b p|b p a|b M u|b Sp]; try discriminate Hr; [destruct k; try discriminate Hr|..]; reflexivity.
Qed.
Definition reads {J G} (from : J -> res G) (j : J) (ok : bool) (g : G) : Prop := from j = if ok then Ok g else Throw.
Lemma collect_reads {A B J} (from : J -> res B) (to : A -> J) (ok : A -> bool) (ty : A -> B) l :
  (forall x, In x l -> reads from (to x) (ok x) (ty x)) -> collectR from (map to l) = if forallb ok l then Ok (map ty l) else Throw.
Proof.
  induction l as [|x l IH]; intros H; [reflexivity|]. cbn [map collectR forallb]. rewrite (H x (or_introl eq_refl)).
  destruct (ok x); [|reflexivity]. cbn [bindR andb]. rewrite IH by (intros; apply H; now right). now destruct (forallb ok l).
Qed.
Lemma shape_map {G H} (f : G -> H) d gs : shape d gs -> shape d (map f gs).
Proof. unfold shape. now rewrite map_length. Qed.
Lemma read_gate vf fuel g : stored g -> one_level g -> match g with CProb _ _ _ => (1 < fuel)%nat | _ => (0 < fuel)%nat end ->
  gate_from_json_rec vf fuel (gate_to_json g) = if readable g then Ok (typed g) else Throw.
Proof.
  intros Hs Hf Hfu. destruct fuel as [|fuel]; [destruct g; lia|].
  assert (Helem : forall fuel t g, gate_wf g -> gate_from_json_rec vf (S fuel) (gate_to_json (CElem (t, g))) = if readable_kind g then Ok (CElem (true, g)) else Throw).
  { intros fuel' t g' Hw. destruct (readable_kind g') eqn:E; [now apply read_egate|now apply unread_egate]. }
  inversion Hs as [t g0 Hw|t bit reset Ht|t d gs Hsh Hst Hal]; subst; clear Hs.
  - cbn [readable typed]. now apply Helem.
  - cbn [readable typed gate_to_json gate_from_json_rec]. keys. cbn [get_string bindR]. unfold egate_from_json, measurement_from_json, mask_of_key.
    cbn [std1_from_json String.eqb Ascii.eqb Bool.eqb contains member]. keys. cbn [get_bool get_u64 bindR]. rewrite read_u64_list. cbn [bindR].
    rewrite mask_to_vector_to_mask by exact Ht. cbn [bindR]. unfold make_base. rewrite N.land_0_r. reflexivity.
  - destruct fuel as [|fuel]; [lia|].
    change (gate_from_json_rec vf (S (S fuel)) (gate_to_json (CProb t d gs))) with
      (d <- get_vector get_double (double_list d) ;; l <- collectR (gate_from_json_rec vf (S fuel)) (map gate_to_json gs) ;; make_probabilistic d l).
    rewrite read_double_list. cbn [bindR]. cbn [one_level] in Hf. rewrite Forall_forall in Hf.
    assert (Hel : forall g, In g gs -> exists t e, g = CElem (t, e) /\ gate_wf e).
    { intros g Hg. pose proof (Hf g Hg) as H1. pose proof (Hal g Hg) as H2. pose proof (Hst g Hg) as H3. destruct g as [[t' e]|t' b r|t' d' gs']; try contradiction.
      inversion H3; eauto. }
    rewrite (collect_reads _ gate_to_json readable typed).
    2:{ intros g Hg. destruct (Hel g Hg) as (t' & e & -> & Hw). unfold reads. cbn [readable typed]. now apply Helem. }
    cbn [readable typed]. destruct (forallb readable gs); [|reflexivity]. cbn [bindR]. unfold make_probabilistic.
    rewrite impl_singles; [reflexivity|now apply shape_map|]. intros p g Hg. apply in_map_iff in Hg. destruct Hg as (g0 & <- & Hg).
    destruct (Hel g0 Hg) as (t' & e & -> & Hw). reflexivity.
Qed.
Lemma depth_prob d gs t : gs <> [] -> (2 < S (json_depth (gate_to_json (CProb t d gs))))%nat.
Proof. intros H. destruct gs; [congruence|]. cbn [gate_to_json json_depth fold_right snd map]. lia. Qed.
Theorem gate_round_trip vf g : held g -> one_level g -> gate_from_json vf (gate_to_json g) = if readable g then Ok (typed g) else Throw.
Proof.
  intros H Hf. apply held_stored in H. apply read_gate; auto. destruct g as [g|t b r|t d gs]; try lia. inversion H as [| |? ? ? (Hne & Hl & _) Hst Hal]; subst.
  assert (Hgs : gs <> []) by (destruct gs; [destruct d; [congruence|discriminate]|discriminate]). pose proof (depth_prob d gs t Hgs). lia.
Qed.
