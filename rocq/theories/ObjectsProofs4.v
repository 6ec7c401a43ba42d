(** C66: sharing, where it holds and where it does not. *)
From Verif Require Export CircuitProofs18 ObjectsProofs3.
From Coq Require Import ZifyBool ZifyN ZifyNat Lia.

Lemma method_stays x o reg p st r : homely p -> method x o reg p st r -> after r (fun st' => forall z, st_env st' z = st_env st z).
Proof.
  intros Hp (r' & Hr & ->). specialize (Hp _ _ Hr). destruct r' as [t w'|w'|]; cbn [after]; [| |exact I]; cbn [w_home] in Hp; unfold settle; rewrite Hp; reflexivity.
Qed.
Lemma homely_object_gate L s g : stays g = true -> homely (object_gate L s g).
Proof. intros H. unfold object_gate. now apply homely_gate. Qed.
Lemma ostep_stays L op st r : op_stays op -> ostep L op st r -> after r (fun st' => forall z, ~ In z (rebinds op) -> st_env st' z = st_env st z).
Proof.
  intros Hst H. assert (HM : forall x o reg p, homely p -> method x o reg p st r -> after r (fun st' => forall z, ~ In z (rebinds op) -> st_env st' z = st_env st z)).
  { intros x o reg p Hp Hm. eapply after_weaken; [exact (method_stays _ _ _ _ _ _ Hp Hm)|]. auto. }
  assert (HN : forall x s junk reg p, In x (rebinds op) -> method x (Obj s (st_next st) 0) reg p (fresh x s junk st) r -> after r (fun st' => forall z, ~ In z (rebinds op) -> st_env st' z = st_env st z)).
  { intros x s junk reg p Hx Hm. eapply after_weaken; [exact (method_all _ _ _ _ _ _ Hm)|]. intros st' (_ & H2 & _) z Hz. rewrite H2 by (intros ->; contradiction). cbn. rewrite put_at_ne; [reflexivity|intros ->; contradiction]. }
  assert (HX : forall x o z, In x (rebinds op) -> ~ In z (rebinds op) -> put_at (st_env st) x (Some o) z = st_env st z) by (intros x o z Hx Hz; rewrite put_at_ne; [reflexivity|intros ->; contradiction]).
  destruct op as [x s|x y|x y|x m|x m|x c y|x y|x vf k|x ps c reg|x s b|x s b|s b y|s y]; cbn [ostep op_stays] in *.
  - apply alloc_all in H. destruct H as [junk H]. apply found_all in H. destruct H as [(o & Ho & H)| ->]; [|exact I]. cbn in Ho. rewrite put_at_eq in Ho. injection Ho as <-. eapply HN; [now left|exact H].
  - apply found_all in H. destruct H as [(o & Ho & ->)| ->]; [|exact I]. intros z Hz. cbn. apply HX; [now left|exact Hz].
  - apply found_all in H. destruct H as [(o & Ho & H)| ->]; [|exact I]. apply alloc_all in H. destruct H as [junk H]. apply found_all in H. destruct H as [(o' & Ho' & ->)| ->]; [|exact I].
    intros z Hz. cbn. apply HX; [now left|exact Hz].
  - apply found_all in H. destruct H as [(o & Ho & H)| ->]; [|exact I]. eapply HM; [|exact H]. destruct (o_shape o); [apply homely_sop|apply homely_undefined].
  - apply found_all in H. destruct H as [(o & Ho & H)| ->]; [|exact I]. eapply HM; [|exact H]. destruct (o_shape o); [apply homely_undefined|apply homely_bop].
  - apply found_all in H. destruct H as [(o & Ho & H)| ->]; [|exact I]. apply found_all in H. destruct H as [(o2 & Ho2 & H)| ->]; [|exact I]. apply get_all in H. eapply HM; [|exact H].
    destruct (o_shape o), (o_shape o2); try apply homely_undefined; [apply homely_sop|apply homely_bop].
  - apply found_all in H. destruct H as [(o & Ho & H)| ->]; [|exact I]. apply found_all in H. destruct H as [(o2 & Ho2 & H)| ->]; [|exact I]. apply get_all in H. eapply HM; [|exact H].
    destruct (o_shape o), (o_shape o2); try apply homely_undefined; [apply homely_sop|]. destruct (negb _); [apply homely_throw|]. destruct (negb _); [apply homely_throw|apply homely_bop].
  - apply found_all in H. destruct H as [(o & Ho & H)| ->]; [|exact I]. destruct H as (o1 & Hg & H). destruct (make vf k) as [g| |]; cbn [hlift] in Hg; rewrite Hg in H; [|subst r; intros z _; reflexivity|subst r; exact I].
    eapply HM; [|exact H]. apply homely_object_gate. now apply Hst.
  - apply found_all in H. destruct H as [(o & Ho & H)| ->]; [|exact I]. eapply HM; [|exact H]. destruct (o_shape o); [now apply homely_circuit|apply homely_undefined].
  - apply found_all in H. destruct H as [(o & Ho & H)| ->]; [|exact I]. destruct (o_shape o) as [n|B n]; [red in H; subst r; exact I|]. destruct (B <=? b); red in H; subst r; intros z Hz; [reflexivity|]. cbn. apply HX; [now left|exact Hz].
  - apply found_all in H. destruct H as [(o & Ho & H)| ->]; [|exact I]. destruct (o_shape o) as [n|B n]; [red in H; subst r; exact I|]. destruct (B <=? b); [red in H; subst r; intros z Hz; reflexivity|]. apply get_all in H.
    apply alloc_all in H. destruct H as [junk H]. apply found_all in H. destruct H as [(o' & Ho' & H)| ->]; [|exact I]. cbn in Ho'. rewrite put_at_eq in Ho'. injection Ho' as <-. eapply HN; [now left|exact H].
  - apply found_all in H. destruct H as [(o & Ho & H)| ->]; [|exact I]. apply found_all in H. destruct H as [(o2 & Ho2 & H)| ->]; [|exact I]. apply get_all in H. eapply HM; [|exact H].
    destruct (o_shape o), (o_shape o2); try apply homely_undefined. apply homely_bop.
  - apply found_all in H. destruct H as [(o & Ho & H)| ->]; [|exact I]. apply found_all in H. destruct H as [(o2 & Ho2 & H)| ->]; [|exact I]. apply get_all in H. eapply HM; [|exact H].
    destruct (o_shape o), (o_shape o2); try apply homely_undefined. destruct (Nat.eqb _ _); [apply homely_plan|apply homely_bop].
Qed.
Lemma orun_stays L x y l st r : Forall op_stays l -> Forall (fun op => ~ In x (rebinds op) /\ ~ In y (rebinds op)) l -> orun L l st r ->
  after r (fun st' => st_env st' x = st_env st x /\ st_env st' y = st_env st y).
Proof.
  intros H1 H2 H. pose proof (orun_after L (fun st st' => st_env st' x = st_env st x /\ st_env st' y = st_env st y) (fun op => op_stays op /\ ~ In x (rebinds op) /\ ~ In y (rebinds op))) as HO.
  specialize (HO ltac:(intros s; now split) ltac:(intros a b c [A1 A2] [B1 B2]; split; congruence) (fun _ => True)).
  eapply after_weaken; [eapply HO; [| |exact I|exact H]|intros st' [_ E]; exact E].
  - intros op s r' (S1 & S2 & S3) _ Hs. eapply after_weaken; [exact (ostep_stays L op s r' S1 Hs)|]. intros st' E. split; [exact I|]. split; now apply E.
  - rewrite Forall_forall in *. intros op Hop. split; [now apply H1|now apply H2].
Qed.
(** two names of one object *)
Theorem assigned L x y l st r : x <> y -> st_env st y <> None -> Forall op_stays l -> Forall (fun op => ~ In x (rebinds op) /\ ~ In y (rebinds op)) l ->
  orun L (OAssign x y :: l) st r -> after r (fun st' => amplitudes st' x = amplitudes st' y).
Proof.
  intros Hne Hy H1 H2 H. cbn [orun fold_right] in H. destruct H as (o1 & Ho1 & H). cbn [ostep] in Ho1. apply found_all in Ho1. destruct Ho1 as [(o & Ho & ->)| ->]; [|subst r; exact I].
  eapply after_weaken; [exact (orun_stays L x y l _ r H1 H2 H)|]. intros st' [E1 E2]. cbn in E1, E2. rewrite put_at_eq in E1. rewrite put_at_ne in E2 by congruence. unfold amplitudes. rewrite E1, E2, Ho. reflexivity.
Qed.
(** a view of an element of a batch *)
Theorem viewed L x s b l st r o B n : x <> s -> st_env st s = Some o -> o_shape o = Batch B n -> b < B -> Forall op_stays l -> Forall (fun op => ~ In x (rebinds op) /\ ~ In s (rebinds op)) l ->
  orun L (OView x s b :: l) st r -> after r (fun st' => exists row all, amplitudes st' x = Some row /\ amplitudes st' s = Some all /\
    length row = N.to_nat (2 ^ n) /\ forall i, i < 2 ^ n -> nth_error row (N.to_nat i) = nth_error all (N.to_nat (b * 2 ^ n + i))).
Proof.
  intros Hne Ho Es Hb H1 H2 H. cbn [orun fold_right] in H. destruct H as (o1 & Ho1 & H). cbn [ostep] in Ho1. apply found_all in Ho1. destruct Ho1 as [(o' & Ho' & H')| ->]; [|subst r; exact I].
  rewrite Ho in Ho'. injection Ho' as <-. rewrite Es in H'. destruct (N.leb_spec B b); [lia|]. red in H'. subst o1.
  eapply after_weaken; [exact (orun_stays L x s l _ r H1 H2 H)|]. intros st' [E1 E2]. cbn in E1, E2. rewrite put_at_eq in E1. rewrite put_at_ne in E2 by congruence. unfold amplitudes. rewrite E1, E2, Ho. rewrite Es. cbn [size o_shape].
  eexists. eexists. split; [reflexivity|]. split; [reflexivity|]. split; [now rewrite map_length, length_seqN|]. intros i Hi.
  rewrite !nth_error_map. assert (Hat : forall k j, j < k -> nth_error (seqN k) (N.to_nat j) = Some j).
  { intros k j Hj. rewrite (nth_error_nth' _ 0) by (rewrite length_seqN; lia). rewrite nth_seqN by lia. now rewrite N2Nat.id. }
  rewrite !Hat by nia. cbn [option_map]. unfold content. cbn [o_buf o_off]. do 2 f_equal. lia.
Qed.

(** ** A gate that computes into a new buffer *)
Lemma buffered_plan n D L g p : stays g = false -> update_plan n D L g = Ok p -> exists ks, p = Buffered ks.
Proof.
  intros Hst Hp. destruct g; cbn [stays update_plan] in Hst, Hp; try discriminate; destruct (within_bounds n _); try discriminate.
  - destruct ((m_rows M =? 1) && _); [discriminate|]. destruct ((m_rows M =? 2) && _); [discriminate|]. destruct ((m_rows M =? 4) && _); [discriminate|]. injection Hp as <-. eauto.
  - injection Hp as <-. eauto.
Qed.
Theorem buffered_unseen L x vf k g st o : lanes_ok L -> sound st -> st_env st x = Some o -> shape_ok (o_shape o) -> call_typed k -> make vf k = Ok g -> Forall (fun q => q < qubits (o_shape o)) (call_operands k) ->
  stays g = false -> runs (ostep L (OApply x vf k)) st (done (fun _ st' => sound st' /\
    amplitudes st' x = Some (map (acted k (content st o)) (seqN (size (o_shape o)))) /\ forall z, z <> x -> unchanged st st' z)).
Proof.
  intros HL Hs Ho Hsh Hty Hm HF Hst. cbn [ostep]. apply (found x o); [exact Ho|]. rewrite Hm. cbn [hlift]. eapply (runs_bind_done _ _ _ (fun t st' => t = g /\ st' = st)); [apply runs_ret; now split|]. intros g' st' [-> ->].
  set (w := World (content st o) None [] (st_rand st)).
  pose proof (object_gate_runs (o_shape o) L vf k g w Hsh HL Hty Hm HF) as [H1 [o1 Ho1]].
  assert (H2 : forall r, object_gate L (o_shape o) g w r -> exists w', r = HDone tt w' /\ w_home w' = Some (content st o) /\ forall a, a < size (o_shape o) -> w_amp w' a = acted k (content st o) a).
  { intros r Hr. pose proof (H1 r Hr) as Hd. destruct r as [[] w'|w'|]; try contradiction. destruct Hd as [Hd _]. exists w'. split; [reflexivity|]. split; [|exact Hd].
    unfold object_gate in Hr. destruct Hr as (o2 & Ho2 & Hr). destruct (update_plan _ _ L g) as [p| |] eqn:Ep; cbn [hlift] in Ho2; rewrite Ho2 in Hr; try discriminate.
    destruct (buffered_plan _ _ _ _ _ Hst Ep) as [ks ->]. destruct Hr as (junk & scheds & Hr). destruct (run_plan _ _ _ _ _); try contradiction; try discriminate. injection Hr as ->. reflexivity. }
  split; [|eexists; exists o1; split; [exact Ho1|reflexivity]]. intros r (r' & Hr' & ->). destruct (H2 r' Hr') as (w' & -> & Hh & Ha). cbn [done]. unfold settle. rewrite Hh.
  assert (Hheap : forall b a, (b < st_next st)%nat -> put_at (put_at (st_heap st) (o_buf o) (put (st_heap st (o_buf o)) (o_off o) (size (o_shape o)) (content st o))) (st_next st) (w_amp w') b a = st_heap st b a).
  { intros b a Hb. rewrite put_at_ne by lia. destruct (Nat.eq_dec b (o_buf o)) as [->|]; [|now rewrite put_at_ne]. rewrite put_at_eq. unfold put, content.
    destruct (N.leb_spec (o_off o) a), (N.ltb_spec a (o_off o + size (o_shape o))); cbn [andb]; auto. f_equal. lia. }
  split; [|split].
  - intros z oz. cbn. destruct (Nat.eq_dec z x) as [->|Hz]; [rewrite put_at_eq; intros [= <-]; cbn; lia|]. rewrite put_at_ne by assumption. intros Hz'. pose proof (Hs z oz Hz'). lia.
  - unfold amplitudes. cbn. rewrite put_at_eq. cbn. f_equal. apply map_ext_in. intros a Hin. apply in_seqN in Hin. unfold content. cbn. rewrite put_at_eq. now apply Ha.
  - intros z Hz. unfold unchanged, amplitudes. cbn. rewrite put_at_ne by assumption. split; [reflexivity|]. destruct (st_env st z) as [oz|] eqn:Ez; [|reflexivity]. f_equal. apply map_ext. intros a. unfold content. cbn. apply Hheap. now apply (Hs z).
Qed.

(** ** set_state_vector with a view of the batch itself *)
Theorem self_view_race L st s y os oy B n b : st_env st s = Some os -> o_shape os = Batch B n -> st_env st y = Some oy -> oy = Obj (Single n) (o_buf os) (o_off os + b * 2 ^ n) -> b < B -> 2 <= B ->
  ostep L (OSetAll s y) st HUndefined.
Proof.
  intros Es Hs Ey -> Hb HB. cbn [ostep]. eexists. split; [unfold lookup; rewrite Es; reflexivity|]. eexists. split; [unfold lookup; rewrite Ey; reflexivity|]. eexists. split; [reflexivity|].
  exists HUndefined. split; [|reflexivity]. rewrite Hs. cbn [o_shape o_buf o_off]. rewrite Nat.eqb_refl. unfold set_all_from_row, hplan.
  replace (o_off os + b * 2 ^ n - o_off os) with (b * 2 ^ n) by lia.
  assert (exists b', b' < B /\ b' <> b) as (b' & Hb' & Hne). { destruct (N.eq_dec b 0) as [->|]; [exists 1|exists 0]; lia. }
  exists (fun _ => C0), [[b' * 2 ^ n; b * 2 ^ n; b * 2 ^ n]].
  assert (Hp : 2 ^ n <> 0) by (apply N.pow_nonzero; lia). assert (Hl : forall c, N.land (c * 2 ^ n) (2 ^ n - 1) = 0).
  { intros c. rewrite <- N.pred_sub, <- N.ones_equiv, N.land_ones. now apply N.mod_mul. }
  assert (E : run_plan (B * 2 ^ n) (InPlace [Kernel (B * 2 ^ n) (fun a => Rd (b * 2 ^ n + N.land a (2 ^ n - 1)) (fun v => Wr a v Ret))]) (fun _ => C0) [[b' * 2 ^ n; b * 2 ^ n; b * 2 ^ n]] (content st os) = DataRace).
  { assert (Q1 : (b * 2 ^ n <? B * 2 ^ n) = true) by (apply N.ltb_lt; nia). assert (Q2 : (b' * 2 ^ n <? B * 2 ^ n) = true) by (apply N.ltb_lt; nia).
    assert (Q3 : (b * 2 ^ n =? b' * 2 ^ n) = false) by (apply N.eqb_neq; nia). 
    unfold run_plan, run_kernels, parallel_for. cbn [k_iters k_body exec]. rewrite Q2. rewrite !Hl, !N.add_0_r, !Q1. cbn [negb existsb]. unfold set_thread. rewrite Q3. rewrite !Hl, !N.add_0_r, !Q1. cbn [negb existsb conflicts andb orb].
    rewrite Q3, !N.eqb_refl. cbn [negb existsb conflicts andb orb]. rewrite ?Q1. cbn [negb existsb conflicts andb orb]. rewrite ?N.eqb_refl, ?Q3. reflexivity. }
  cbn [w_amp]. rewrite E. reflexivity.
Qed.

Lemma new_runs L x s st V : lanes_ok L -> inv st V -> shape_ok s -> runs (ostep L (ONew x s)) st (done (fun _ st' => inv st' (vset x (zero_value s) V))).
Proof.
  intros HL HI Hs. eapply runs_weaken; [apply (step_good L HL (ONew x s) st V HI Logic.I Hs)|]. intros [[] st'|st'|] (v & Hv & Hm); inversion Hv; subst; try contradiction. exact Hm.
Qed.
Lemma start_inv h r : (forall k, unit_draw (r k)) -> inv (start h r) (VState (fun _ => None) r).
Proof. intros Hr. split; [split; [intros x; exact I|reflexivity]|intros x o H; discriminate H|intros x y ox oy _ H; discriminate H|intros x o H; discriminate H|exact Hr]. Qed.
Lemma ex_gate_ok : call_typed (CallSparse [0] ex_csr [] []). Proof. split; [apply ex_csr_ok|reflexivity]. Qed.
Definition sparse_X : call := CallSparse [0] ex_csr [] [].
Lemma ex_acted psi : map (acted sparse_X psi) (seqN 2) = [psi 1; psi 0].
Proof.
  change (seqN 2) with [0; 1]. cbn [map]. unfold acted, apply_mat, sparse_X. cbn. unfold csr_sum. change (2 ^ N.of_nat 1) with 2.
  replace (csr_entries ex_csr (N.b2n (N.testbit 0 0) + 2 * 0)) with [(1, C1)] by reflexivity.
  replace (csr_entries ex_csr (N.b2n (N.testbit 1 0) + 2 * 0)) with [(0, C1)] by reflexivity. unfold Csum, Csuml. change (seqN 2) with [0; 1].
  cbn [fold_right fst snd]. change (set_bit 0 0 (N.odd 1)) with 1. change (set_bit 1 0 (N.odd 0)) with 0. change (1 =? 0) with false. change (1 =? 1) with true. change (0 =? 0) with true. change (0 =? 1) with false.
  f_equal; [|f_equal]; cbn iota; ring.
Qed.
Theorem assigned_refuted L h r : lanes_ok L -> (forall k, unit_draw (r k)) ->
  runs (orun L [ONew 0 (Single 1); OAssign 1 0; OApply 0 false sparse_X]) (start h r) (done (fun _ st' => amplitudes st' 0 = Some [C0; C1] /\ amplitudes st' 1 = Some [C1; C0])).
Proof.
  intros HL Hr. cbn [orun fold_right]. eapply runs_bind_done; [apply (new_runs L 0%nat (Single 1) _ _ HL (start_inv h r Hr)); split; cbn; lia|]. intros [] st HI.
  destruct (bound st _ 0%nat _ HI eq_refl) as (o & Ho & Es & _ & Hsh & Hc). cbn [zero_value shape_of] in *. cbn [ostep]. eapply (runs_bind_done _ _ _ (fun _ st' => st' = name 1 o st)); [apply (found 0%nat o); [exact Ho|apply runs_modify; reflexivity]|]. intros [] st1 ->.
  rewrite Es in Hc. destruct Hc as [_ Hc]. pose proof (inv_sound _ _ HI) as Hs. assert (Hs1 : sound (name 1 o st)).
  { intros z oz. cbn. destruct (Nat.eq_dec z 1) as [->|Hz]; [rewrite put_at_eq; intros [= <-]; exact (Hs 0%nat _ Ho)|rewrite put_at_ne by assumption; apply Hs]. }
  assert (E1 : amplitudes (name 1 o st) 1 = Some [C1; C0]). { unfold amplitudes. cbn. rewrite Es. cbn [size]. change (seqN (2 ^ 1)) with [0; 1]. cbn [map]. change (content (name 1 o st) o) with (content st o). rewrite !Hc by (cbn; lia). reflexivity. }
  eapply runs_bind_done; [eapply (buffered_unseen L 0%nat false sparse_X ex_sparse (name 1 o st) o HL Hs1); [exact Ho|rewrite Es; exact Hsh|apply ex_gate_ok|reflexivity|rewrite Es; repeat constructor|reflexivity]|].
  intros [] st2 (_ & A1 & A2). apply runs_ret. cbn [done]. split.
  - rewrite A1, Es. cbn [size]. change (2 ^ 1) with 2. rewrite ex_acted. change (content (name 1 o st) o) with (content st o). rewrite !Hc by (cbn; lia). reflexivity.
  - destruct (A2 1%nat ltac:(discriminate)) as [_ ->]. exact E1.
Qed.
Theorem viewed_refuted L h r : lanes_ok L -> (forall k, unit_draw (r k)) ->
  runs (orun L [ONew 0 (Batch 1 1); OView 1 0 0; OApply 1 false sparse_X]) (start h r) (done (fun _ st' => amplitudes st' 1 = Some [C0; C1] /\ amplitudes st' 0 = Some [C1; C0])).
Proof.
  intros HL Hr. cbn [orun fold_right]. eapply runs_bind_done; [apply (new_runs L 0%nat (Batch 1 1) _ _ HL (start_inv h r Hr)); split; cbn; lia|]. intros [] st HI.
  destruct (bound st _ 0%nat _ HI eq_refl) as (o & Ho & Es & Eo & Hsh & Hc). cbn [zero_value shape_of] in *. cbn [ostep]. set (v := Obj (Single 1) (o_buf o) (o_off o + 0 * 2 ^ 1)).
  eapply (runs_bind_done _ _ _ (fun _ st' => st' = name 1 v st)); [apply (found 0%nat o); [exact Ho|rewrite Es; cbn [N.leb]; apply runs_modify; reflexivity]|]. intros [] st1 ->.
  rewrite Es in Hc. destruct Hc as (_ & _ & Hc). pose proof (inv_sound _ _ HI) as Hs. assert (Hs1 : sound (name 1 v st)).
  { intros z oz. cbn. destruct (Nat.eq_dec z 1) as [->|Hz]; [rewrite put_at_eq; intros [= <-]; exact (Hs 0%nat _ Ho)|rewrite put_at_ne by assumption; apply Hs]. }
  assert (Hv : forall a, a < 2 -> content st o a = zero_vector a). { intros a Ha. exact (Hc 0 a eq_refl Ha). }
  assert (Ev : forall a, content (name 1 v st) v a = content st o a). { intros a. unfold content. cbn. now rewrite Eo. }
  assert (E1 : amplitudes (name 1 v st) 0 = Some [C1; C0]). { unfold amplitudes. cbn -[seqN]. rewrite Ho, Es. cbn [size]. change (seqN (1 * 2 ^ 1)) with [0; 1]. cbn [map]. change (content (name 1 v st) o) with (content st o). rewrite !Hv by lia. reflexivity. }
  eapply runs_bind_done; [eapply (buffered_unseen L 1%nat false sparse_X ex_sparse (name 1 v st) v HL Hs1); [reflexivity|split; cbn; lia|apply ex_gate_ok|reflexivity|repeat constructor|reflexivity]|].
  intros [] st2 (_ & A1 & A2). apply runs_ret. cbn [done]. split.
  - rewrite A1. cbn [size o_shape v]. change (2 ^ 1) with 2. rewrite ex_acted. rewrite !Ev, !Hv by lia. reflexivity.
  - destruct (A2 0%nat ltac:(discriminate)) as [_ ->]. exact E1.
Qed.
