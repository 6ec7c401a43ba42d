(** C28: depth. *)
From Verif Require Export CircuitProofs10.
From Coq Require Import ZifyBool ZifyN ZifyNat Lra.

(** ** Chains *)
Lemma chosen_snoc {T} (l : list T) x : forall c, chosen c (l ++ [x]) <-> chosen c l \/ exists c', c = c' ++ [x] /\ chosen c' l.
Proof.
  induction l as [|y l IH]; intros c; cbn [app].
  - split.
    + intros H. inversion H as [|? c' ? Hc|? ? ? Hc]; subst; inversion Hc; subst; [right; exists []; split; [reflexivity|constructor]|left; constructor].
    + intros [H|(c' & -> & H)]; inversion H; subst; repeat constructor.
  - split.
    + intros H. inversion H as [|? c' ? Hc|? ? ? Hc]; subst; apply IH in Hc.
      * destruct Hc as [Hc|(c'' & -> & Hc)]; [left; now constructor|right; exists (y :: c''); split; [reflexivity|now constructor]].
      * destruct Hc as [Hc|(c'' & -> & Hc)]; [left; now constructor|right; exists c''; split; [reflexivity|now constructor]].
    + intros [H|(c' & -> & H)]; inversion H as [|? c'' ? Hc|? ? ? Hc]; subst; cbn [app].
      * apply chosen_keep, IH. now left.
      * apply chosen_drop, IH. now left.
      * apply chosen_keep, IH. right. eauto.
      * apply chosen_drop, IH. right. eauto.
Qed.
Definition ends_at (q : N) (c : list (list N)) : Prop := exists c' a, c = c' ++ [a] /\ In q a.
Lemma chain_snoc a : forall c, chain (c ++ [a]) <-> chain c /\ a <> [] /\ (c = [] \/ exists q, In q a /\ ends_at q c).
Proof.
  induction c as [|x c IH]; cbn [app chain]; [tauto|]. rewrite IH. destruct c as [|y c]; cbn [app].
  - split.
    + intros (H1 & (q & H2 & H3) & _ & H4 & _). split; [cbn [chain]; auto|]. split; [assumption|]. right. exists q. split; [assumption|]. exists [], x. auto.
    + intros ((H1 & _) & H2 & [H|(q & H3 & c' & a' & E & H4)]); [discriminate|]. destruct c' as [|? [|]]; try discriminate. injection E as <-. cbn [chain]. split; [assumption|]. split; [eauto|]. auto.
  - split.
    + intros (H1 & H2 & H3 & H4 & H5). split; [auto|]. split; [assumption|]. right. destruct H5 as [H5|(q & H5 & c' & a' & E & H6)]; [discriminate|]. exists q. split; [assumption|].
      exists (x :: c'), a'. rewrite E. auto.
    + intros ((H1 & H2 & H3) & H4 & [H5|(q & H5 & c' & a' & E & H6)]); [discriminate|]. split; [assumption|]. split; [assumption|]. split; [assumption|]. split; [assumption|]. right. exists q.
      split; [assumption|]. destruct c' as [|x' c']; [discriminate|]. injection E as <- E. exists c', a'. auto.
Qed.
(** ** The loop *)
Lemma max_step_spec (f : N -> N) qs : forall m, m <= max_step f qs m /\ (forall q, In q qs -> f q <= max_step f qs m) /\ (max_step f qs m = m \/ exists q, In q qs /\ max_step f qs m = f q).
Proof.
  unfold max_step. induction qs as [|q qs IH]; intros m; cbn [fold_left]; [split; [lia|split; [intros ? []|auto]]|].
  destruct (IH (if m <? f q then f q else m)) as (H1 & H2 & H3). destruct (N.ltb_spec m (f q)).
  - split; [lia|]. split; [intros q' [<-|Hq]; auto|]. right. destruct H3 as [H3|(q' & Hq & H3)]; [exists q; split; [now left|exact H3]|exists q'; split; [now right|exact H3]].
  - split; [exact H1|]. split; [intros q' [<-|Hq]; [lia|auto]|]. destruct H3 as [H3|(q' & Hq & H3)]; [auto|right; exists q'; split; [now right|exact H3]].
Qed.
Lemma fill_spec v qs : forall f q, fill qs v f q = if existsb (N.eqb q) qs then v else f q.
Proof.
  unfold fill. induction qs as [|x qs IH]; intros f q; cbn [fold_left existsb]; [reflexivity|]. rewrite IH. unfold upd. destruct (existsb (N.eqb q) qs); [now rewrite orb_true_r|].
  rewrite orb_false_r. rewrite N.eqb_sym. reflexivity.
Qed.
Definition longest (gs : list (list N)) (f : N -> N) : Prop := forall q,
  (f q = 0 \/ exists c, chosen c gs /\ chain c /\ ends_at q c /\ N.of_nat (length c) = f q) /\
  (forall c, chosen c gs -> chain c -> ends_at q c -> N.of_nat (length c) <= f q).
Lemma existsb_In q l : existsb (N.eqb q) l = true <-> In q l.
Proof. rewrite existsb_exists. split; [intros (x & H & E); apply N.eqb_eq in E; now subst|intros H; exists q; split; [assumption|apply N.eqb_refl]]. Qed.
Lemma longest_step gs f cs ts ops : longest gs f -> (forall q, In q (cs ++ ts) <-> In q ops) ->
  let m := max_step f ts (max_step f cs 0) in longest (gs ++ [ops]) (fill ts (m + 1) (fill cs (m + 1) f)).
Proof.
  intros HL Hops m. assert (Hm : (forall q, In q ops -> f q <= m) /\ (m = 0 \/ exists q, In q ops /\ f q = m)).
  { unfold m. destruct (max_step_spec f cs 0) as (_ & C2 & C3). destruct (max_step_spec f ts (max_step f cs 0)) as (T1 & T2 & T3). split.
    - intros q Hq. apply Hops, in_app_iff in Hq. destruct Hq as [Hq|Hq]; [specialize (C2 q Hq); lia|auto].
    - destruct T3 as [T3|(q & Hq & T3)]; [|right; exists q; split; [apply Hops, in_app_iff; auto|auto]]. rewrite T3.
      destruct C3 as [C3|(q & Hq & C3)]; [auto|right; exists q; split; [apply Hops, in_app_iff; auto|auto]]. }
  clearbody m. destruct Hm as [Hm1 Hm2].
  assert (Ef : forall q, fill ts (m + 1) (fill cs (m + 1) f) q = if existsb (N.eqb q) ops then m + 1 else f q).
  { intros q. rewrite !fill_spec. destruct (existsb (N.eqb q) ops) eqn:E.
    - apply existsb_In, Hops, in_app_iff in E. rewrite <- !existsb_In in E. destruct E as [-> | ->]; [now destruct (existsb _ ts)|reflexivity].
    - assert (Hn : ~ In q (cs ++ ts)) by (rewrite Hops, <- existsb_In; congruence). rewrite in_app_iff, <- !existsb_In in Hn. destruct (existsb _ ts); [tauto|]. destruct (existsb _ cs); tauto. }
  intros q. rewrite Ef. split.
  - destruct (existsb (N.eqb q) ops) eqn:E.
    + apply existsb_In in E. right. destruct Hm2 as [->|(q' & Hq' & Eq')].
      * exists [ops]. split; [apply chosen_snoc; right; exists []; split; [reflexivity|]; clear; induction gs; constructor; assumption|].
        split; [cbn [chain]; split; [now intros ->|tauto]|]. split; [exists [], ops; auto|reflexivity].
      * destruct (proj1 (HL q')) as [H0|(c & H1 & H2 & H3 & H4)].
        { exists [ops]. split; [apply chosen_snoc; right; exists []; split; [reflexivity|]; clear; induction gs; constructor; assumption|].
          split; [cbn [chain]; split; [now intros ->|tauto]|]. split; [exists [], ops; auto|simpl; lia]. }
        exists (c ++ [ops]). split; [apply chosen_snoc; right; eauto|]. split; [apply chain_snoc; split; [assumption|]; split; [now intros ->|]; right; eauto|].
        split; [exists c, ops; auto|]. rewrite app_length. simpl. lia.
    + destruct (proj1 (HL q)) as [H0|(c & H1 & H2 & H3 & H4)]; [auto|]. right. exists c. split; [apply chosen_snoc; auto|]. auto.
  - intros c Hc Hch Hq. apply chosen_snoc in Hc. destruct Hc as [Hc|(c' & -> & Hc)].
    + pose proof (proj2 (HL q) c Hc Hch Hq) as Hle. destruct (existsb (N.eqb q) ops) eqn:E; [|exact Hle]. apply existsb_In, Hm1 in E. lia.
    + destruct Hq as (c'' & a & E & Hq). apply app_inj_tail in E. destruct E as [<- <-]. rewrite (proj2 (existsb_In q ops) Hq).
      apply chain_snoc in Hch. destruct Hch as (Hch & _ & Hl). rewrite app_length. simpl. destruct Hl as [->|(q' & Hq' & He)]; [simpl; lia|].
      pose proof (proj2 (HL q') c' Hc Hch He). specialize (Hm1 q' Hq'). lia.
Qed.
Lemma item_lists i si : represents i si -> is_probabilistic i = false -> exists cs ts, item_controls i = Ok cs /\ item_targets i = Ok ts /\ forall q, In q (cs ++ ts) <-> In q (item_operands si).
Proof.
  intros Hr Hp. destruct Hr as [g s H|g key s H]; cbn [item_controls item_targets item_operands].
  - destruct H as [t g s H|q bit reset g H|]; [| |discriminate].
    + cbn [c_control_list c_target_list]. destruct (acts_spec g s H) as (qs & f & -> & Hw & Hm & _). destruct (gate_lists g Hw) as [E1 _].
      eexists _, _. split; [reflexivity|]. split; [reflexivity|]. intros q. cbn [operands]. rewrite <- Hm. unfold gate_control_list, gate_target_list, base_operands.
      destruct Hw as [(_ & _ & H1 & H2) _]. rewrite !mask_to_vector_bits by assumption. rewrite in_app_iff, !in_bits, N.lor_spec, orb_true_iff. tauto.
    + pose proof (stands_mask _ _ (stands_measure q bit reset g H)) as Hm. apply measurement_mask in H. destruct H as [Hq ->]. cbn [c_control_list c_target_list].
      eexists _, _. split; [reflexivity|]. split; [reflexivity|]. intros q'. cbn [operand_mask operands] in *. rewrite <- Hm.
      rewrite !mask_to_vector_bits; [|unfold two64; apply N.pow_lt_mono_r; lia|reflexivity]. rewrite in_app_iff, !in_bits, N.bits_0. intuition discriminate.
  - destruct (match g with PProb _ _ _ => true | _ => false end) eqn:Eg; [destruct g; discriminate|].
    assert (Hg : match g with PProb _ _ _ => False | _ => True end) by (destruct g; try exact I; discriminate).
    pose proof (pacts_at g s 0 H Hg) as Ha. destruct (acts_spec _ _ Ha) as (qs & f & Es & Hw & Hm & _). rewrite Es. cbn [operands].
    destruct Hw as [(_ & _ & H1 & H2) _].
    destruct g as [t k b pc|t b p pc|]; cbn [p_control_list p_target_list pgate_at g_base] in *; try contradiction;
      (eexists _, _; split; [reflexivity|]; split; [reflexivity|]; intros q; rewrite <- Hm; unfold base_operands;
       rewrite !mask_to_vector_bits by assumption; rewrite in_app_iff, !in_bits, N.lor_spec, orb_true_iff; tauto).
Qed.
Lemma depth_loop_spec items : forall ss gs f, Forall2 represents items ss -> forallb (fun i => negb (is_probabilistic i)) items = true -> longest gs f ->
  exists f', depth_loop items f = Ok f' /\ longest (gs ++ map item_operands ss) f'.
Proof.
  induction items as [|i items IH]; intros ss gs f H2 Hp HL; inversion H2 as [|? si ? ss' Hr H2']; subst; cbn [depth_loop map].
  - exists f. rewrite app_nil_r. auto.
  - cbn [forallb] in Hp. apply andb_true_iff in Hp. destruct Hp as [Hp1 Hp2]. destruct (item_lists i si Hr ltac:(now destruct (is_probabilistic i))) as (cs & ts & E1 & E2 & Hops).
    unfold depth_step. rewrite E1, E2. cbn [bindR]. destruct (IH ss' (gs ++ [item_operands si]) _ H2' Hp2 (longest_step gs f cs ts _ HL Hops)) as (f' & Ef & HL').
    exists f'. split; [exact Ef|]. rewrite <- app_assoc in HL'. exact HL'.
Qed.
Theorem depth_correct c p : circuit_is c p -> forallb (fun i => negb (is_probabilistic i)) (c_gates c) = true ->
  exists d, calculate_depth c = Ok d /\
    (exists ch, chosen ch (map (fun ic => item_operands (fst ic)) p) /\ chain ch /\ N.of_nat (length ch) = d) /\
    forall ch, chosen ch (map (fun ic => item_operands (fst ic)) p) -> chain ch -> N.of_nat (length ch) <= d.
Proof.
  intros Hc Hp. rewrite <- map_map with (f := fst) (g := item_operands). unfold calculate_depth.
  assert (Hin : forall n ch, required_n_qubits c <= n -> chosen ch (map item_operands (map fst p)) -> forall a q, In a ch -> In q a -> q < n).
  { intros n ch Hn Hch a q Ha Hq. assert (Hb : (required_n_qubits c <=? n) = true) by lia. rewrite (required_spec c p n Hc) in Hb. apply negb_true_iff in Hb.
    destruct (N.ltb_spec q n) as [|Hle]; [assumption|]. enough (existsb (fun q => n <=? q) (program_operands p) = true) by congruence. apply existsb_exists. exists q. split; [|lia].
    assert (Hsub : In a (map item_operands (map fst p))). { clear - Hch Ha. induction Hch; [destruct Ha|destruct Ha as [<-|Ha]; [now left|right; auto]|right; auto]. }
    unfold program_operands. apply in_flat_map. rewrite map_map in Hsub. apply in_map_iff in Hsub. destruct Hsub as (ic & <- & Hic). eauto. }
  assert (Hnil : forall T (l : list T), chosen [] l) by (intros T l; induction l; constructor; assumption).
  destruct (N.eqb_spec (required_n_qubits c) 0) as [E0|E0].
  { exists 0. split; [reflexivity|]. split; [exists []; split; [apply Hnil|split; [exact I|reflexivity]]|].
    intros [|a ch] Hch Hl; [simpl; lia|]. exfalso. destruct Hl as [Ha _]. destruct a as [|q a]; [congruence|].
    specialize (Hin 0 _ ltac:(lia) Hch (q :: a) q (or_introl eq_refl) (or_introl eq_refl)). lia. }
  destruct (depth_loop_spec (c_gates c) (map fst p) [] (fun _ => 0) (proj1 Hc) Hp) as (f & Ef & HL).
  { intros q. split; [auto|]. intros ch Hch _ (c' & a & -> & _). inversion Hch; destruct c'; discriminate. }
  rewrite Ef. cbn [bindR app] in *. eexists. split; [reflexivity|]. destruct (max_step_spec f (seqN (required_n_qubits c)) 0) as (_ & M2 & M3). split.
  - destruct M3 as [-> |(q & _ & ->)]; [exists []; split; [apply Hnil|split; [exact I|reflexivity]]|].
    destruct (proj1 (HL q)) as [-> |(ch & H1 & H2 & _ & H4)]; [exists []; split; [apply Hnil|split; [exact I|reflexivity]]|]. eauto.
  - intros ch Hch Hl. destruct ch as [|a0 ch0] eqn:E; [simpl; lia|]. rewrite <- E in *.
    assert (Hlast : exists c' a, ch = c' ++ [a]) by (destruct (exists_last (l := ch) ltac:(congruence)) as (c' & a & ->); eauto).
    destruct Hlast as (c' & a & El). assert (Hne : a <> []) by (rewrite El in Hl; apply chain_snoc in Hl; tauto).
    destruct a as [|q a]; [congruence|]. assert (He : ends_at q ch) by (exists c', (q :: a); split; [assumption|now left]).
    pose proof (proj2 (HL q) ch Hch Hl He) as Hle. assert (Hq : q < required_n_qubits c).
    { apply (Hin _ ch (N.le_refl _) Hch (q :: a)); [rewrite El; apply in_app_iff; right; now left|now left]. }
    specialize (M2 q ltac:(now apply in_seqN)). lia.
Qed.
(** probabilistic gates do not report their operands *)
Theorem depth_probabilistic c p : circuit_is c p -> existsb is_probabilistic (c_gates c) = true -> required_n_qubits c <> 0 -> calculate_depth c = Throw.
Proof.
  intros Hc Hp Hn. unfold calculate_depth. destruct (N.eqb_spec (required_n_qubits c) 0); [congruence|].
  enough (G : forall f, depth_loop (c_gates c) f = Throw) by now rewrite G. destruct Hc as [Hc _]. revert Hp Hc. generalize (map fst p). clear. induction (c_gates c) as [|i items IH]; intros ss Hp Hc f; [discriminate|].
  inversion Hc as [|? si ? ss' Hr Hc']; subst. cbn [depth_loop existsb] in *. destruct (is_probabilistic i) eqn:Ei.
  - unfold depth_step. destruct i as [[| |]|[| |]]; try discriminate; reflexivity.
  - destruct (item_lists i si Hr Ei) as (cs & ts & E1 & E2 & _). unfold depth_step. rewrite E1, E2. cbn [bindR]. eapply IH; eassumption.
Qed.
Lemma depth_example : calculate_depth (build ex_calls) = Ok 2 /\ chain [[0]; [0]] /\ chosen [[0]; [0]] (map (fun ic => item_operands (fst ic)) ex_program).
Proof.
  split; [reflexivity|]. split; [cbn [chain]; repeat split; try discriminate; exists 0; split; now left|]. apply chosen_keep, chosen_keep. do 2 apply chosen_drop. apply chosen_nil.
Qed.
