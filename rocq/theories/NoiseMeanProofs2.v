(** The draws of a run of simulate_noise, and what it returns. *)
From Verif Require Import NoiseProofs NoiseProofs2 NoiseProofs3 NoiseProofs4 NoiseProofs5 NoiseMeanProofs StateProofs3 CircuitProofs4.
From Verif Require Import NoiseMeanSpec.
From Coq Require Import FunctionalExtensionality Lia Lra.
Local Open Scope nat_scope.

(** * The samples *)
Lemma split_ext counts : forall d d', (forall i, i < sum counts -> d i = d' i) -> split_draws counts d = split_draws counts d'.
Proof.
  induction counts as [|m r IH]; intros d d' H; simpl; [reflexivity|]. f_equal.
  - apply map_ext_in. intros i Hi. apply in_seq in Hi. apply H. simpl. lia.
  - apply IH. intros i Hi. apply H. simpl. lia.
Qed.
Lemma pairs_ext size es d d' : (forall i, i < sum (map e_cnt es) -> d i = d' i) -> pairs_of size es d = pairs_of size es d'.
Proof. intros H. unfold pairs_of. now rewrite (split_ext _ d d' H). Qed.
Lemma combine_app {A T} (l1 l2 : list A) : forall (m1 m2 : list T), length l1 = length m1 -> combine (l1 ++ l2) (m1 ++ m2) = combine l1 m1 ++ combine l2 m2.
Proof. induction l1 as [|x l1 IH]; intros [|y m1] m2 H; simpl in *; try discriminate; auto. f_equal. apply IH. lia. Qed.
Lemma zipw_app l1 l2 m1 m2 : length l1 = length m1 -> zipw (l1 ++ l2) (m1 ++ m2) = zipw l1 m1 ++ zipw l2 m2.
Proof. intros H. unfold zipw. now rewrite combine_app, map_app. Qed.
Lemma zipw_repeat p js : zipw (repeat p (length js)) js = map (fun j => p ++ [j]) js.
Proof. unfold zipw. induction js as [|j js IH]; simpl; [reflexivity|]. now rewrite IH. Qed.
Lemma map_seq_add {T} (d : nat -> T) m k : map d (seq m k) = map (fun i => d (m + i)) (seq 0 k).
Proof.
  revert m. induction k as [|k IH]; intros m; simpl; [reflexivity|]. rewrite Nat.add_0_r. f_equal. rewrite IH, <- seq_shift, map_map.
  apply map_ext. intros i. f_equal. lia.
Qed.
Lemma extended_zip es : forall d, extended es d = zipw (samples_of es) (map d (seq 0 (sum (map e_cnt es)))).
Proof.
  unfold extended, samples_of. induction es as [|e es IH]; intros d; [reflexivity|]. cbn [map sum fold_right split_draws combine flat_map fst snd].
  change (fold_right Nat.add 0 (map e_cnt es)) with (sum (map e_cnt es)). rewrite seq_app, map_app, zipw_app by now rewrite repeat_length, map_length, seq_length. f_equal.
  - assert (Hl : e_cnt e = length (map d (seq 0 (e_cnt e)))) by now rewrite map_length, seq_length. rewrite Hl at 2. now rewrite zipw_repeat.
  - rewrite IH. f_equal. rewrite (map_seq_add d). reflexivity.
Qed.
Lemma map_nth_seq (js : list nat) : map (fun k => nth k js 0) (seq 0 (length js)) = js.
Proof. induction js as [|j js IH]; simpl; [reflexivity|]. f_equal. rewrite <- seq_shift, map_map. exact IH. Qed.
Lemma sum_next size F es d : (forall i, i < sum (map e_cnt es) -> d i < size) -> sum (map e_cnt (next_entries size F (pairs_of size es d))) = sum (map e_cnt es).
Proof.
  intros H. rewrite <- !samples_length. rewrite (Permutation_length (next_samples size F es d H)), extended_zip. unfold zipw.
  rewrite map_length, combine_length, map_length, seq_length, <- samples_length. lia.
Qed.

Lemma entries_stages count V : symmetric V -> forall gs es, Forall (fun g => length (chances g) = ways g) gs -> sum (map e_cnt es) = count ->
  expectation (flat_map (fun g => repeat (chances g) count) gs) (fun js => V (samples_of (entries_after gs es (fun k => nth k js 0)))) = stages (map chances gs) V (samples_of es).
Proof.
  intros HV. induction gs as [|g gs IH]; intros es HF Hs; cbn [flat_map map stages entries_after expectation]; [reflexivity|].
  inversion HF as [|g' gs' Hg HF']; subst g' gs'. rewrite exp_app. rewrite samples_length, Hs. apply exp_ext. intros js Hjs.
  pose proof (fits_length _ _ Hjs) as Hl. rewrite repeat_length in Hl.
  assert (Hsmall : forall i, i < sum (map e_cnt es) -> nth i js 0 < ways g).
  { intros i Hi. rewrite Hs in Hi. rewrite <- Hg. clear - Hjs Hi Hl. revert count i Hl Hi Hjs. induction js as [|j js IH]; intros count i Hl Hi Hjs; simpl in Hl; [lia|].
    destruct count; [lia|]. cbn [repeat] in Hjs. inversion Hjs; subst. destruct i; [assumption|]. apply (IH count i); [lia|lia|assumption]. }
  rewrite (exp_same _ _ (fun b => V (samples_of (entries_after gs (next_entries (ways g) (alt g) (pairs_of (ways g) es (fun k => nth k js 0))) (fun k => nth k b 0))))).
  2:{ intros b. f_equal. f_equal. f_equal.
      - f_equal. apply pairs_ext. intros i Hi. apply app_nth1. lia.
      - apply functional_extensionality. intros k. rewrite app_nth2 by lia. f_equal. lia. }
  rewrite IH; [|exact HF'|rewrite sum_next by exact Hsmall; exact Hs].
  apply stages_perm; [exact HV|]. rewrite (next_samples _ _ es _ Hsmall), extended_zip, Hs, <- Hl. now rewrite map_nth_seq.
Qed.

(** * Which distributions the code draws from *)
Lemma discrete_length l : length (discrete l) = length l.
Proof. apply map_length. Qed.
Lemma discrete_sum l : Rsuml (fun p => p) l <> 0%R -> Rsuml (fun p => p) (discrete l) = 1%R.
Proof.
  intros H. unfold discrete. set (t := Rsuml (fun p => p) l) in *. transitivity (Rsuml (fun p => p) l / t)%R; [|fold t; now field].
  clearbody t. induction l as [|p l IH]; cbn [map Rsuml fold_right]; [lra|]. unfold Rsuml in *. rewrite IH. lra.
Qed.
Lemma ok_sum dist : distribution_ok dist -> (0 < Rsuml (fun p => p) dist)%R.
Proof.
  intros (_ & _ & H). assert (H' : (Rabs (Rsuml (fun p => p) dist - 1) < 1)%R) by (eapply Rle_lt_trans; [exact H|]; lra). apply Rabs_def2 in H'. lra.
Qed.
(** the gate's probabilities before normalisation *)
Definition raw (g : sgate) : list R := match g with Choice l => map fst l | _ => [1%R] end.
Lemma item_chances ps i si g : represents i si -> can_simulate i -> item_gate ps si = Some g ->
  exists gates, noise_choices i = Ok (raw g, gates) /\ chances g = discrete (raw g) /\ length (chances g) = ways g /\ Rsuml (fun p => p) (chances g) = 1%R /\
    (forall l, g = Choice l -> distribution_ok (map fst l)) /\ (forall q b r, g <> Meas q b r).
Proof.
  intros Hr Hc Hg.
  assert (Hact : forall qs f, raw (Act qs f) = [1%R] /\ chances (Act qs f) = discrete (raw (Act qs f)) /\ length (chances (Act qs f)) = ways (Act qs f) /\ Rsuml (fun p => p) (chances (Act qs f)) = 1%R).
  { intros qs f. split; [reflexivity|]. unfold chances, raw, discrete, Rsuml. simpl. split; [f_equal; lra|]. split; [reflexivity|lra]. }
  assert (Hch : forall dist (ss : list sgate), distribution_ok dist -> length dist = length ss ->
    raw (Choice (combine dist ss)) = dist /\ chances (Choice (combine dist ss)) = discrete dist /\ length (chances (Choice (combine dist ss))) = ways (Choice (combine dist ss)) /\
    Rsuml (fun p => p) (chances (Choice (combine dist ss))) = 1%R /\ forall l, Choice (combine dist ss) = Choice l -> distribution_ok (map fst l)).
  { intros dist ss Hd Hl. unfold raw, chances, ways. rewrite map_fst_combine by exact Hl. split; [reflexivity|]. split; [reflexivity|]. split; [rewrite discrete_length, combine_length; lia|].
    split; [apply discrete_sum; pose proof (ok_sum dist Hd); lra|]. intros l [= <-]. rewrite map_fst_combine by exact Hl. exact Hd. }
  destruct Hr as [g0 s Hst|g0 key s Hst]; cbn [item_gate] in Hg.
  - injection Hg as ->. inversion Hst as [t g1 s Ha E1 E2|q bit reset g1 Hm E1 E2|t dist gs ss Hd Hl H2 E1 E2]; subst.
    + destruct (acts_spec g1 g Ha) as (qs & f & -> & _). destruct (Hact qs f) as (H1 & H2 & H3 & H4). exists [IGate (CElem (t, g1))].
      split; [reflexivity|]. repeat (split; [assumption|]). split; discriminate.
    + destruct (measurement_form _ _ _ _ Hm) as (t & ->). contradiction.
    + cbn [can_simulate] in Hc. destruct Hc as [-> Hel]. pose proof (Forall2_size _ _ _ H2) as Hss.
      destruct (Hch dist ss Hd ltac:(lia)) as (Hr & H1 & H3 & H4 & H5). exists (map IGate gs). rewrite Hr. split; [reflexivity|]. repeat (split; [assumption|]). discriminate.
  - destruct (ps key) as [v|] eqn:Ev; [|discriminate]. injection Hg as <-.
    assert (Hrot : rotation g0 -> noise_choices (IParam g0 key) = Ok ([1%R], [IParam g0 key]) -> exists gates, noise_choices (IParam g0 key) = Ok (raw (s v), gates) /\ chances (s v) = discrete (raw (s v)) /\
      length (chances (s v)) = ways (s v) /\ Rsuml (fun p => p) (chances (s v)) = 1%R /\ (forall l, s v = Choice l -> distribution_ok (map fst l)) /\ (forall q b r, s v <> Meas q b r)).
    { intros Hro E. assert (Ha : acts (pgate_at g0 v) (s v)) by (apply pacts_at; auto). destruct (acts_spec _ _ Ha) as (qs & f & Es & _). rewrite Es.
      destruct (Hact qs f) as (H1 & H2 & H3 & H4). exists [IParam g0 key]. rewrite E, H1. split; [reflexivity|]. rewrite <- H1. repeat (split; [assumption|]). split; discriminate. }
    destruct g0 as [t k b c|t b p c|t dist gs]; [now apply Hrot|now apply Hrot|]. clear Hrot. cbn [can_simulate] in Hc. destruct Hc as [-> Hel].
    inversion Hst as [|vf k g Hty Hm E1 E2|vf k g g' Hty Hm Hi E1 E2|t' dist' gs' ss Hd Hl H2 E1 E2]; subst.
    { apply param_rotation in Hm. contradiction. }
    { apply param_rotation in Hm. apply (inverse_rotation _ _ Hi) in Hm. contradiction. }
    pose proof (Forall2_size _ _ _ H2) as Hss. destruct (Hch dist (map (fun s => s v) ss) Hd ltac:(rewrite map_length; lia)) as (Hr & H1 & H3 & H4 & H5).
    eexists. rewrite Hr. split; [reflexivity|]. repeat (split; [assumption|]). discriminate.
Qed.
Definition law_ok (g : sgate) : Prop := length (chances g) = ways g /\ Rsuml (fun p => p) (chances g) = 1%R /\
  (forall l, g = Choice l -> distribution_ok (map fst l)) /\ (forall q b r, g <> Meas q b r).
Lemma circuit_laws ps c p gs count : circuit_is c p -> Forall can_simulate (c_gates c) -> instantiate ps p = Some gs ->
  noise_laws c count = flat_map (fun g => repeat (chances g) count) (map fst gs) /\ Forall law_ok (map fst gs).
Proof.
  intros [Hrep _] Hcan Hi. apply instantiate_gates in Hi. unfold noise_laws. revert Hcan Hi. generalize (map fst gs). clear gs.
  induction Hrep as [|i si is sis Hr H IH]; intros gs Hcan Hi; inversion Hi as [|si' g sis' gs' Hg H2]; subst; cbn [flat_map]; [split; [reflexivity|constructor]|].
  inversion Hcan as [|i' is' Hc Hcs]; subst. destruct (item_chances ps i si g Hr Hc Hg) as (gates & E & E2 & H3 & H4 & H5 & H6). destruct (IH gs' Hcs H2) as [E3 HF].
  rewrite E, <- E2, E3. split; [reflexivity|]. constructor; [|exact HF]. exact (conj H3 (conj H4 (conj H5 H6))).
Qed.
Lemma nth_laws count gs : forall t g i, nth_error gs t = Some g -> i < count -> nth_error (flat_map (fun g => repeat (chances g) count) gs) (t * count + i) = Some (chances g).
Proof.
  induction gs as [|g0 gs IH]; intros [|t] g i Ht Hi; simpl in Ht; try discriminate; cbn [flat_map].
  - injection Ht as ->. rewrite nth_error_app1 by (rewrite repeat_length; lia). apply nth_error_repeat. lia.
  - rewrite nth_error_app2 by (rewrite repeat_length; simpl; lia). rewrite repeat_length. replace (S t * count + i - count) with (t * count + i) by (simpl; lia). now apply IH.
Qed.

(** * The result *)
Lemma entries_ext gs : forall es d d', (forall k, k < length gs * sum (map e_cnt es) -> d k = d' k) ->
  (forall t g i, nth_error gs t = Some g -> i < sum (map e_cnt es) -> d (t * sum (map e_cnt es) + i) < ways g) -> entries_after gs es d = entries_after gs es d'.
Proof.
  induction gs as [|g gs IH]; intros es d d' H Hd; cbn [entries_after]; [reflexivity|]. cbn [length] in H.
  rewrite (pairs_ext (ways g) es d d') by (intros i Hi; apply H; lia).
  assert (Hs : sum (map e_cnt (next_entries (ways g) (alt g) (pairs_of (ways g) es d'))) = sum (map e_cnt es)).
  { apply sum_next. intros i Hi. rewrite <- (H i) by lia. exact (Hd 0 g i eq_refl Hi). }
  apply IH.
  - intros k Hk. rewrite Hs in Hk. apply H. lia.
  - intros t g' i Ht Hi. rewrite Hs in Hi |- *. replace (sum (map e_cnt es) + (t * sum (map e_cnt es) + i)) with (S t * sum (map e_cnt es) + i) by (simpl; lia). now apply Hd.
Qed.
Definition alike (n : N) (l l' : list state) : Prop := Forall2 (fun a b => forall x, (x < 2 ^ n)%N -> a x = b x) l l'.
Theorem noise_listed n L ps c p gs psi count draws w : sizes_ok n (N.of_nat count) L -> 0 < count -> circuit_is c p -> Forall can_simulate (c_gates c) ->
  Forall (fun q => (q < n)%N) (program_operands p) -> instantiate ps p = Some gs -> draws_fit (map fst gs) count draws ->
  runs (simulate_noise n L ps c psi count draws) w
    (done (fun result _ => alike n (listed result) (map (ended (map fst gs) psi) (samples_of (entries_after (map fst gs) [([], psi, count)] draws))))).
Proof.
  intros Hs Hcount Hc Hcan HF Hi Hfit. unfold simulate_noise. rewrite (required_spec c p n Hc).
  replace (existsb (fun q => (n <=? q)%N) (program_operands p)) with false.
  2:{ symmetry. apply not_true_is_false. intros E. apply existsb_exists in E. destruct E as (q & Hq & Hlt). rewrite Forall_forall in HF. specialize (HF q Hq). lia. }
  cbn [negb hcheck]. eapply runs_bind_done with (P := fun _ _ => True); [apply runs_ret; exact I|]. intros [] w1 _.
  destruct Hc as [Hrep _]. assert (HFs : Forall (fun si => Forall (fun q => (q < n)%N) (item_operands si)) (map fst p)).
  { apply Forall_forall. intros si Hsi. apply in_map_iff in Hsi. destruct Hsi as ([si' cc] & <- & Hin). apply Forall_forall. intros q Hq.
    rewrite Forall_forall in HF. apply HF. unfold program_operands. apply in_flat_map. exists (si', cc). auto. }
  eapply runs_bind_done.
  { apply (gates_spec n L ps psi count draws Hs _ _ Hrep Hcan [] (map fst gs) psi [([], psi, count)] draws w1); auto.
    - now apply level_start.
    - intros [|[|k]] e Hk; simpl in Hk; try discriminate. injection Hk as <-. intros x Hx. unfold at_row, e_psi. cbn [fst snd]. now rewrite N.mul_0_l.
    - apply instantiate_gates. exact Hi. }
  intros [states counts] w2. cbv beta. cbn [fst snd app]. intros (es & Hlv & Harr & -> & Ees). apply runs_ret. cbn [done]. rewrite <- Ees. clear Ees.
  pose proof (lv_follow _ _ _ _ _ Hlv) as H5. unfold alike, listed, samples_of.
  assert (Hgen : forall k es', (forall j e, nth_error es' j = Some e -> nth_error es (k + j) = Some e) ->
    Forall2 (fun a b => forall x, (x < 2 ^ n)%N -> a x = b x)
      (flat_map (fun r : state * nat => repeat (fst r) (snd r)) (map (fun jm => (fun a => states (at_row n (N.of_nat (fst jm)) a), snd jm)) (combine (seq k (length (map e_cnt es'))) (map e_cnt es'))))
      (map (ended (map fst gs) psi) (flat_map (fun e => repeat (e_path e) (e_cnt e)) es'))).
  { intros k es'. revert k. induction es' as [|e es' IH]; intros k Hk; [constructor|]. cbn [map length seq combine flat_map fst snd]. rewrite map_app. apply Forall2_app.
    - specialize (Hk 0 e eq_refl). rewrite Nat.add_0_r in Hk. pose proof (nth_error_In _ _ Hk) as He. rewrite Forall_forall in H5. destruct (H5 e He) as [_ Hf].
      assert (Hx : forall x, (x < 2 ^ n)%N -> states (at_row n (N.of_nat k) x) = ended (map fst gs) psi (e_path e) x).
      { intros x Hx. rewrite (Harr k e Hk x Hx). unfold ended. now rewrite Hf. }
      induction (e_cnt e) as [|m IHm]; cbn [repeat map]; constructor; [exact Hx|exact IHm].
    - apply IH. intros j e' Hj. replace (S k + j) with (k + S j) by lia. now apply Hk. }
  apply (Hgen 0 es). auto.
Qed.
