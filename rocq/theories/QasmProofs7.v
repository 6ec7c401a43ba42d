(** Writing gates. *)
From Verif Require Export QasmProofs6 CircuitProofs2.
From Coq Require Import Lia ZifyBool ZifyN ZifyNat Permutation.
Local Open Scope N_scope.

Lemma all_ones_values c cv : c < two64 -> N.land cv c = cv -> all_control_values_are_one (mask_to_values c cv) = true -> cv = c.
Proof.
  intros Hc Hs H. rewrite mask_to_values_bits in H by exact Hc. unfold all_control_values_are_one in H. rewrite forallb_forall in H.
  rewrite <- Hs. apply N.bits_inj. intros i. rewrite N.land_spec. destruct (N.testbit c i) eqn:E; [|now rewrite Bool.andb_false_r].
  assert (H1 : 1 =? N.b2n (N.testbit cv i) = true).
  { apply H. apply in_map_iff. exists i. split; [reflexivity|now apply in_bits]. }
  destruct (N.testbit cv i); [reflexivity|discriminate].
Qed.
Lemma ones_mask c : c < two64 -> vector_to_mask_values (mask_to_vector c) (repeat 1 (length (mask_to_vector c))) = Ok c.
Proof.
  intros Hc. rewrite mask_to_vector_bits by exact Hc.
  destruct (vector_to_mask_values_ok (bits c) (repeat 1 (length (bits c)))) as (r & E & _ & Ht).
  - apply (bits_lt _ 64). exact Hc.
  - apply repeat_length.
  - apply Forall_forall. intros v Hv. apply repeat_spec in Hv. subst. lia.
  - rewrite E. f_equal. apply N.bits_inj. intros i. apply Bool.eq_iff_eq_true. rewrite Ht. rewrite <- in_bits. clear.
    induction (bits c) as [|x l IH]; [reflexivity|]. cbn [length repeat combine In]. rewrite IH. split; (intros [H|H]; [left|now right]).
    + now injection H.
    + now subst.
Qed.
Lemma remake vf b k : base_ok b -> all_control_values_are_one (mask_to_values (g_c b) (g_cv b)) = true ->
  create vf (vector_to_mask (mask_to_vector (g_t b))) (mask_to_vector (g_c b)) (repeat 1 (length (mask_to_vector (g_c b)))) k = Ok (k b).
Proof.
  intros (Hd & Hs & Ht & Hc) H. apply all_ones_values in H; auto. unfold create, mask_args. rewrite !mask_to_vector_to_mask by auto. rewrite ones_mask by exact Hc.
  destruct vf; cbn [bindR]; unfold make_base; rewrite Hd; cbn [N.eqb bindR]; rewrite <- H at 2; destruct b; cbn in *; now subst.
Qed.
Lemma NoDup_append {A} (l m : list A) : NoDup l -> NoDup m -> (forall x, In x l -> In x m -> False) -> NoDup (l ++ m).
Proof.
  intros Hl Hm H. induction Hl as [|x l Hx Hl IH]; [exact Hm|]. cbn. constructor.
  - rewrite in_app_iff. intros [H1|H1]; [auto|]. apply (H x); [now left|exact H1].
  - apply IH. intros y Hy. apply H. now right.
Qed.
Lemma base_operands_distinct b : base_ok b -> NoDup (mask_to_vector (g_c b) ++ mask_to_vector (g_t b)) /\
  Forall (fun q => q < 64) (mask_to_vector (g_c b) ++ mask_to_vector (g_t b)).
Proof.
  intros (Hd & Hs & Ht & Hc). rewrite !mask_to_vector_bits by auto. split.
  - apply NoDup_append; auto using bits_NoDup. intros x H1 H2. apply in_bits in H1, H2.
    assert (N.testbit (N.land (g_t b) (g_c b)) x = true) by (rewrite N.land_spec, H1, H2; reflexivity). rewrite Hd, N.bits_0 in H. discriminate.
  - apply Forall_app. split; [exact (bits_lt _ 64 Hc)|exact (bits_lt _ 64 Ht)].
Qed.
Lemma two_vector l m : vector_to_mask l = Ok m -> m < two64 -> Permutation (mask_to_vector m) l.
Proof. intros H Hm. rewrite mask_to_vector_bits by exact Hm. now apply vector_to_mask_bits. Qed.
Lemma pow2_vector q : 2 ^ q < two64 -> mask_to_vector (2 ^ q) = [q].
Proof.
  intros H. assert (Hq : q < 64). { unfold two64 in H. now apply N.pow_lt_mono_r_iff in H. }
  rewrite mask_to_vector_bits by exact H. apply vector_to_mask_bits_eq; [|repeat constructor].
  apply vector_to_mask_ok. split; [repeat constructor; exact Hq|]. split; [repeat constructor; auto|].
  intros i. rewrite pow2_tb, N.eqb_eq. cbn. intuition.
Qed.
Lemma swap_vector p q : p < q -> N.lor (2 ^ p) (2 ^ q) < two64 -> mask_to_vector (N.lor (2 ^ p) (2 ^ q)) = [p; q].
Proof.
  intros Hpq H. assert (T : forall i, N.testbit (N.lor (2 ^ p) (2 ^ q)) i = true <-> In i [p; q]).
  { intros i. rewrite N.lor_spec, !pow2_tb, Bool.orb_true_iff, !N.eqb_eq. cbn. intuition. }
  rewrite mask_to_vector_bits by exact H. apply vector_to_mask_bits_eq; [|repeat constructor; auto].
  apply vector_to_mask_ok. split; [|split; [|exact T]].
  - assert (F := bits_lt _ 64 H). rewrite Forall_forall in *. intros x Hx. apply F. apply in_bits. now apply T.
  - apply incr_NoDup. repeat constructor; auto.
Qed.

Definition lowered (fmt : R -> text) (i : citem) : res (option qasm_op) := v <- classify_item i;; lower_to_qasm2 fmt v.
Definition writes_gate (vf : bool) (fmt : R -> text) (g : egate) (o : qasm_op) : Prop :=
  exists name qs, o = QGate (txt name) (map fmt (gate_angles (CElem (true, g)))) qs /\
    Permutation qs (item_qubits (IGate (CElem (true, g)))) /\ g <> EI /\
    forall f, exists k g', qelib name (map f (gate_angles (CElem (true, g)))) qs (Some k) /\ make vf k = Ok g' /\
      gate_with_angles f (CElem (true, g)) = CElem (true, g').
Ltac give_name := match goal with |- exists name qs, QGate ?t _ ?q = _ /\ _ => let n := eval compute in (string_of_list_ascii t) in exists n, q end.
Lemma make_call1 vf k q cs : make vf (Call1 k q cs []) = create vf (vector_to_mask [q]) cs (repeat 1 (length cs)) (EStd k).
Proof. unfold make, resize_and_check_control_values. rewrite repeat_length, Nat.eqb_refl. reflexivity. Qed.
Lemma make_swap vf a b cs : make vf (CallSwap a b cs []) = create vf (vector_to_mask [a; b]) cs (repeat 1 (length cs)) ESwap.
Proof. unfold make, resize_and_check_control_values. rewrite repeat_length, Nat.eqb_refl. reflexivity. Qed.
Lemma make_cx vf c q : make vf (CallCX c q) = create vf (vector_to_mask [q]) [c] (repeat 1 (length [c])) (EStd GX).
Proof. reflexivity. Qed.
Lemma make_cz vf c q : make vf (CallCZ c q) = create vf (vector_to_mask [q]) [c] (repeat 1 (length [c])) (EStd GZ).
Proof. reflexivity. Qed.
Lemma make_ccx vf c1 c2 q : make vf (CallCCX c1 c2 q) = create vf (vector_to_mask [q]) [c1; c2] (repeat 1 (length [c1; c2])) (EStd GX).
Proof. reflexivity. Qed.
Definition std_view (k : std1) (targets controls control_values : list N) : res op_view :=
  let named name := Ok (NamedUnitaryOp (txt name) targets controls control_values) in
  let rotation name angle := t <- single_target targets;; Ok (RotationOp (txt name) angle t controls control_values) in
  let u name params := t <- single_target targets;; Ok (UGateOp (txt name) params t controls control_values) in
  match k with
  | GX => named "x"%string | GY => named "y"%string | GZ => named "z"%string | GH => named "h"%string
  | GS => named "s"%string | GSdag => named "sdg"%string | GT => named "t"%string | GTdag => named "tdg"%string
  | GRX a => rotation "rx"%string a | GRY a => rotation "ry"%string a | GRZ a => rotation "rz"%string a
  | GU1 l => u "u1"%string [l] | GU2 p l => u "u2"%string [p; l] | GU3 t p l => u "u3"%string [t; p; l]
  | _ => Ok UnsupportedCircuitOp
  end.
Lemma classify_std k b : classify_item (IGate (CElem (true, EStd k b))) =
  std_view k (mask_to_vector (g_t b)) (mask_to_vector (g_c b)) (mask_to_values (g_c b) (g_cv b)).
Proof. destruct k; reflexivity. Qed.
Lemma lower_std vf fmt k q cs vs o b :
  (v <- std_view k [q] cs vs;; lower_to_qasm2 fmt v) = Ok (Some o) ->
  (all_control_values_are_one vs = true -> forall K, create vf (vector_to_mask [q]) cs (repeat 1 (length cs)) K = Ok (K b)) ->
  exists name qs, o = QGate (txt name) (map fmt (angles k)) qs /\ Permutation qs ([q] ++ cs) /\
    forall f, exists c, qelib name (map f (angles k)) qs (Some c) /\ make vf c = Ok (EStd (with_angles f k) b).
Proof.
  intros E R. assert (Ho : all_control_values_are_one vs = true).
  { destruct (all_control_values_are_one vs) eqn:Ho; [reflexivity|]. exfalso.
    destruct k; cbn [std_view bindR single_target lower_to_qasm2] in E; unfold lower_named, lower_rotation, lower_u in E; rewrite ?Ho in E; discriminate. }
  specialize (R Ho).
  destruct k; cbn [std_view bindR single_target lower_to_qasm2] in E; unfold lower_named, lower_rotation, lower_u in E; rewrite ?Ho in E; cbn [negb] in E;
  try discriminate; destruct cs as [|c1 [|c2 [|? ?]]]; try discriminate; cbn in E; try discriminate; injection E as <-; clear Ho;
  give_name; (split; [reflexivity|]);
  (split; [first [reflexivity|exact (Permutation_sym (Permutation_cons_append [_] _))|exact (Permutation_sym (Permutation_cons_append [_; _] _))]|]); intros f;
  (eexists; split; [constructor|]; rewrite ?make_call1, ?make_cx, ?make_cz, ?make_ccx; apply R).
Qed.
Lemma lowered_std vf fmt k b o : gate_wf (EStd k b) -> lowered fmt (IGate (CElem (true, EStd k b))) = Ok (Some o) -> writes_gate vf fmt (EStd k b) o.
Proof.
  intros [Hb (q & Hq)] E. cbn [g_base] in *. unfold lowered in E. rewrite classify_std in E.
  assert (Ht : mask_to_vector (g_t b) = [q]) by (rewrite Hq; apply pow2_vector; rewrite <- Hq; apply Hb).
  pose proof (fun H k => remake vf b k Hb H) as R. rewrite Ht in E, R.
  destruct (lower_std vf fmt k q _ _ o b E R) as (name & qs & -> & P & F). exists name, qs.
  split; [reflexivity|]. split.
  { unfold item_qubits, gate_target_list, gate_control_list. cbn [g_base]. rewrite Ht. exact P. }
  split; [discriminate|]. intros f. destruct (F f) as (c & F1 & F2). exists c. eexists. split; [exact F1|]. split; [exact F2|reflexivity].
Qed.
Lemma lower_swap vf (fmt : R -> text) p q cs vs o b :
  (x <- lower_named (txt "swap") [p; q] cs vs;; Ok (Some x)) = Ok (Some o) ->
  (all_control_values_are_one vs = true -> forall K, create vf (vector_to_mask [p; q]) cs (repeat 1 (length cs)) K = Ok (K b)) ->
  exists name qs, o = QGate (txt name) (map fmt []) qs /\ Permutation qs ([p; q] ++ cs) /\
    exists c, qelib name [] qs (Some c) /\ make vf c = Ok (ESwap b).
Proof.
  intros E R. unfold lower_named in E. destruct (all_control_values_are_one vs); [|discriminate]. specialize (R eq_refl). cbn [negb] in E.
  destruct cs as [|c1 [|c2 [|? ?]]]; try discriminate; cbn in E; try discriminate; injection E as <-;
  give_name; (split; [reflexivity|]);
  (split; [first [reflexivity|exact (Permutation_cons_append [_; _] _)]|]);
  (eexists; split; [constructor|]; rewrite make_swap; apply R).
Qed.
Lemma classify_swap b : classify_item (IGate (CElem (true, ESwap b))) =
  Ok (NamedUnitaryOp (txt "swap") (mask_to_vector (g_t b)) (mask_to_vector (g_c b)) (mask_to_values (g_c b) (g_cv b))).
Proof. reflexivity. Qed.
Lemma lowered_ok fmt i v : classify_item i = Ok v -> lowered fmt i = lower_to_qasm2 fmt v.
Proof. intros E. unfold lowered. now rewrite E. Qed.
Lemma lower_named_eq fmt name ts cs vs : lower_to_qasm2 fmt (NamedUnitaryOp name ts cs vs) = (x <- lower_named name ts cs vs;; Ok (Some x)).
Proof. reflexivity. Qed.
Lemma lowered_swap vf fmt b o : gate_wf (ESwap b) -> lowered fmt (IGate (CElem (true, ESwap b))) = Ok (Some o) -> writes_gate vf fmt (ESwap b) o.
Proof.
  intros [Hb (p & q & Hpq & Hq)] E. cbn [g_base] in *.
  rewrite (lowered_ok fmt _ _ (classify_swap b)), lower_named_eq in E.
  assert (Ht : mask_to_vector (g_t b) = [p; q]) by (rewrite Hq; apply swap_vector; [exact Hpq|rewrite <- Hq; apply Hb]).
  pose proof (fun H k => remake vf b k Hb H) as R. rewrite Ht in E, R.
  destruct (lower_swap vf fmt p q _ _ o b E R) as (name & qs & -> & P & c & F1 & F2). exists name, qs.
  split; [reflexivity|]. split.
  { unfold item_qubits, gate_target_list, gate_control_list. cbn [g_base]. rewrite Ht. exact P. }
  split; [discriminate|]. intros f. exists c. eexists. split; [exact F1|]. split; [exact F2|reflexivity].
Qed.
Lemma wf_of_factory vf k g : call_typed k -> make vf k = Ok g -> gate_wf g.
Proof. intros Hty H. exact (means_wf _ _ _ _ (make_means vf k g Hty H)). Qed.
(** every item: what is written *)
Inductive written_as (vf : bool) (fmt : R -> text) : citem -> option qasm_op -> Prop :=
| written_identity : written_as vf fmt (IGate (CElem (true, EI))) None
| written_gate g o : gate_wf g -> writes_gate vf fmt g o -> written_as vf fmt (IGate (CElem (true, g))) (Some o)
| written_measurement q bit : q < 64 -> bit + 1 < 2 ^ 64 -> make_measurement q bit false = Ok (CMeas (2 ^ q) bit false) ->
    written_as vf fmt (IGate (CMeas (2 ^ q) bit false)) (Some (QMeasure [q] bit)).
Lemma lowered_written vf fmt i x : from_factory vf i -> lowered fmt i = Ok x -> written_as vf fmt i x.
Proof.
  intros [k g Hty Hm|g|q bit reset g Hb Hm|known dist gs|g key] E; try discriminate.
  - pose proof (wf_of_factory _ _ _ Hty Hm) as Hw.
    assert (U : forall g', lowered fmt (IGate (CElem (true, g'))) = Ok None -> g' = EI).
    { clear. intros g' E. destruct g' as [|b a|k b|b|b p q|b d s|b p|b p a|b M u|b S]; try discriminate; [reflexivity| |].
      - unfold lowered in E. rewrite classify_std in E. inv_bind E.
        destruct v; cbn [lower_to_qasm2] in E; try discriminate; try (inv_bind E; discriminate); [|destruct reset; discriminate].
        exfalso. clear - E0. destruct k; cbn [std_view] in E0; try discriminate; inv_bind E0; discriminate.
      - rewrite (lowered_ok fmt _ _ (classify_swap b)), lower_named_eq in E.
        inv_bind E. discriminate. }
    destruct x as [o|].
    + constructor; [exact Hw|].
      destruct g as [|b a|k' b|b|b p q|b d s|b p|b p a|b M u|b S]; try discriminate; [now apply lowered_std|now apply lowered_swap].
    + rewrite (U g E). constructor.
  - destruct (measurement_mask _ _ _ _ Hm) as [Hq ->]. unfold lowered, classify_item, classify_gate in E.
    assert (Hp : 2 ^ q < two64) by (apply N.pow_lt_mono_r; lia).
    rewrite pow2_vector in E by exact Hp. cbn [single_target bindR lower_to_qasm2] in E. destruct reset; [discriminate|]. injection E as <-.
    now constructor.
Qed.
(** what can be written is written *)
Lemma created vf ts cs K g : create vf (vector_to_mask ts) cs (repeat 1 (length cs)) K = Ok g ->
  exists b, g = K b /\ Permutation (mask_to_vector (g_t b)) ts /\ Permutation (mask_to_vector (g_c b)) cs /\
    all_control_values_are_one (mask_to_values (g_c b) (g_cv b)) = true.
Proof.
  intros E. assert (M : exists t c cv, vector_to_mask ts = Ok t /\ vector_to_mask cs = Ok c /\ vector_to_mask_values cs (repeat 1 (length cs)) = Ok cv /\ g = K (GBase t c cv)).
  { unfold create, mask_args in E. inv_bind E. destruct v as [[t c] cv]. inv_bind E. injection E as <-.
    unfold make_base in E1. destruct (N.land t c =? 0); [|discriminate]. injection E1 as <-. exists t, c, cv.
    destruct vf; inv_bind E0; inv_bind E0; inv_bind E0; injection E0 as <- <- <-; auto. }
  destruct M as (t & c & cv & Et & Ec & Ev & ->). eexists. split; [reflexivity|]. cbn [g_t g_c g_cv].
  pose proof (vector_to_mask_u64 _ _ Et) as Ht. pose proof (vector_to_mask_u64 _ _ Ec) as Hc.
  split; [now apply two_vector|]. split; [now apply two_vector|].
  rewrite mask_to_values_bits by exact Hc. unfold all_control_values_are_one. apply forallb_forall. intros x Hx. apply in_map_iff in Hx.
  destruct Hx as (i & <- & Hi). apply in_bits in Hi. pose proof Ec as Ec'. apply vector_to_mask_ok in Ec'. destruct Ec' as (F & _ & T).
  apply T in Hi. destruct (vector_to_mask_values_ok cs (repeat 1 (length cs)) F) as (r & Er & _ & Tr).
  - apply repeat_length.
  - apply Forall_forall. intros v Hv. apply repeat_spec in Hv. subst. lia.
  - assert (r = cv) by congruence. subst r. replace (N.testbit cv i) with true; [reflexivity|]. symmetry. apply Tr.
    clear - Hi. induction cs as [|x l IH]; [destruct Hi|]. cbn [length repeat combine In]. destruct Hi as [->|Hi]; [now left|right; auto].
Qed.
Lemma perm_length {A} (l m : list A) : Permutation l m -> length l = length m.
Proof. apply Permutation_length. Qed.
Lemma lowered_accepts vf fmt i : exportable vf i -> exists x, lowered fmt i = Ok x.
Proof.
  intros [|name vs qs k g Hq Hm|q bit g Hm].
  - now exists None.
  - assert (S : forall k t cs, (exists x, forall vs, all_control_values_are_one vs = true -> forall c', length c' = length cs -> exists y, (v <- std_view k [t] c' vs;; lower_to_qasm2 fmt v) = y /\ y <> Throw /\ y <> UB /\ x = 0) ->
      create vf (vector_to_mask [t]) cs (repeat 1 (length cs)) (EStd k) = Ok g -> exists x, lowered fmt (IGate (CElem (true, g))) = Ok x).
    { clear. intros k t cs (x & H) E. apply created in E. destruct E as (b & -> & P1 & P2 & Ho). unfold lowered. rewrite classify_std.
      apply Permutation_sym, Permutation_length_1_inv in P1. rewrite P1.
      destruct (H _ Ho _ (perm_length _ _ P2)) as (y & <- & Y1 & Y2 & _).
      destruct (v <- std_view k [t] (mask_to_vector (g_c b)) (mask_to_values (g_c b) (g_cv b));; lower_to_qasm2 fmt v) as [z| |]; [eauto|congruence..]. }
    assert (W : forall a b cs, (length cs <= 1)%nat -> create vf (vector_to_mask [a; b]) cs (repeat 1 (length cs)) ESwap = Ok g -> exists x, lowered fmt (IGate (CElem (true, g))) = Ok x).
    { clear. intros a b' cs Hcs E. apply created in E. destruct E as (b & -> & P1 & P2 & Ho).
      rewrite (lowered_ok fmt _ _ (classify_swap b)), lower_named_eq.
      apply perm_length in P1, P2. unfold lower_named. rewrite Ho. cbn [negb].
      destruct (mask_to_vector (g_c b)) as [|c1 [|c2 l]]; cbn in P2; [|destruct (mask_to_vector (g_t b)) as [|x1 [|x2 [|? ?]]]; try discriminate|lia]; cbn; eauto. }
    inversion Hq; subst; rewrite ?make_call1, ?make_cx, ?make_cz, ?make_ccx, ?make_swap in Hm;
      try (apply (W _ _ _) in Hm; [exact Hm|cbn; lia]);
      (eapply S; [|exact Hm]); exists 0; intros vs Ho c' Hc; cbn [length] in Hc;
      destruct c' as [|? [|? [|? ?]]]; try discriminate;
      cbn [std_view bindR single_target lower_to_qasm2]; unfold lower_named, lower_rotation, lower_u; rewrite Ho; cbn [negb];
      eexists; (split; [reflexivity|]); cbn; repeat split; discriminate.
  - destruct (measurement_mask _ _ _ _ Hm) as [Hq ->]. exists (Some (QMeasure [q] bit)).
    unfold lowered, classify_item, classify_gate. rewrite pow2_vector by (apply N.pow_lt_mono_r; lia). reflexivity.
Qed.
Lemma with_angles_id k : with_angles (fun a => a) k = k.
Proof. now destruct k. Qed.
Lemma written_exportable vf fmt i x : written_as vf fmt i x -> exportable vf i.
Proof.
  intros [|g o Hw (name & qs & _ & _ & _ & F)|q bit _ _ Hm].
  - constructor.
  - destruct (F (fun a => a)) as (k & g' & F1 & F2 & F3). econstructor; [exact F1|]. rewrite F2. f_equal.
    destruct g; cbn in F3; try (injection F3 as <-; reflexivity). rewrite with_angles_id in F3. now injection F3.
  - exact (export_measurement vf _ _ _ Hm).
Qed.
Lemma lowered_total fmt vf i : from_factory vf i -> lowered fmt i <> UB.
Proof.
  assert (N : forall name ts cs vs, lower_named name ts cs vs <> UB).
  { intros name ts cs vs. unfold lower_named. destruct (negb _); [discriminate|]. 
    destruct cs as [|c1 [|c2 [|? ?]]]; try discriminate; repeat match goal with |- context [if ?b then _ else _] => destruct b end; try discriminate;
    destruct ts as [|? [|? [|? ?]]]; discriminate. }
  assert (G : forall v, lower_to_qasm2 fmt v <> UB).
  { intros [|name ts cs vs|name a t cs vs|name ps t cs vs|t c r|]; cbn [lower_to_qasm2]; try discriminate.
    - specialize (N name ts cs vs). destruct (lower_named name ts cs vs); [discriminate..|congruence].
    - unfold lower_rotation. destruct (negb _); [discriminate|]. destruct cs as [|c1 [|c2 ?]]; discriminate.
    - unfold lower_u. destruct (negb _); [discriminate|]. destruct cs as [|c1 [|c2 ?]]; try discriminate. destruct (_ || _)%bool; discriminate.
    - destruct r; discriminate. }
  intros H. unfold lowered. destruct (classify_item i) as [v| |] eqn:E; cbn [bindR]; [apply G|discriminate|].
  exfalso. destruct i as [[[vis g]|t bit reset|known dist gs]|g key]; try discriminate.
  - destruct vis; [|discriminate]. destruct g as [|b a|k b|b|b p q|b d s|b p|b p a|b M u|b S]; try discriminate.
    rewrite classify_std in E. destruct (mask_to_vector (g_t b)) as [|? [|? ?]]; destruct k; discriminate.
  - cbn [classify_item classify_gate] in E. destruct (mask_to_vector t) as [|? [|? ?]]; discriminate.
Qed.
