(** Noise simulation: no samples, and inverted circuits. *)
From Verif Require Import NoiseSpec NoiseProofs NoiseProofs2 NoiseProofs3 NoiseProofs4 NoiseProofs5 NoiseProofs6 StateProofs3 CircuitProofs4 CircuitProofs14 CircuitProofs15 CircuitProofs9 OptimizeProofs10.
From Coq Require Import ZifyN ZifyNat Lra.
Local Open Scope nat_scope.

(** ** No samples *)
Section None.
  Variables (n L : N) (ps : string -> option R) (psi : state).
  Hypothesis Hsizes : sizes_ok n 1 L.
  Lemma occ_nil_column i f e size : i < size -> column i f [(e, counters size [])] = [].
  Proof. intros H. unfold column. cbn [flat_map snd fst]. rewrite counters_nth by assumption. reflexivity. Qed.
  Lemma first_gate_none i si g states d w : array n states [([], psi, 0)] ->
    represents i si -> can_simulate i -> item_gate ps si = Some g -> Forall (fun q => (q < n)%N) (item_operands si) ->
    runs (noise_gate n L ps i states [0] d) w (done (fun r _ => snd (fst r) = [])).
  Proof.
    intros Harr Hr Hc Hg HF. destruct (item_choices n L ps i si g Hr Hc Hg HF) as (probs & gates & E & Hlen & Halt).
    destruct (choice_list (fun j f => exists c, nth_error gates j = Some c /\ way g j = Some f /\ forall B, sizes_ok n B L -> updates_rows n L ps B c f) (ways g)) as (F & HF').
    { intros j Hj. destruct (Halt j Hj) as (c & f & H1 & H2 & H3). exists f, c. auto. }
    unfold noise_gate. rewrite E. cbn [hlift].
    eapply runs_bind_done with (P := fun t _ => t = (probs, gates)); [apply runs_ret; reflexivity|]. intros x w1 ->. cbn beta iota.
    rewrite Hlen. destruct (draw_rows_spec (ways g) [0] 0 d) as (ns & Er & Hns); [intros k Hk; simpl in Hk; lia|].
    rewrite Er. cbn [hlift]. eapply runs_bind_done with (P := fun t _ => t = (map (counters (ways g)) (split_draws [0] d), ns, fun k => d (sum [0] + k))); [apply runs_ret; reflexivity|]. intros y w2 ->. cbn beta iota.
    eapply runs_bind_done with (P := fun _ _ => True); [split; [intros o (junk & ->); exact I|exists (HDone states w2), states; reflexivity]|].
    intros junk w3 _. cbn [split_draws seq map] in *.
    assert (Hpos : positives (counters (ways g) []) = 0).
    { unfold positives, counters. clear. generalize (seq 0 (ways g)). intros l. induction l as [|x l IH]; [reflexivity|exact IH]. }
    simpl sum in Hns. rewrite Hpos in Hns. cbn in Hns.
    assert (Hcol : forall is, (forall j, In j is -> j < ways g) -> flat_map (fun j => column j (F j) [(([], psi, 0), counters (ways g) [])]) is = []).
    { induction is as [|j is IH]; intros Hj; [reflexivity|]. cbn [flat_map]. rewrite occ_nil_column by (apply Hj; left; reflexivity). apply IH. intros j' Hj'. apply Hj. now right. }
    assert (Hseq : forall j, In j (seq 0 (ways g)) -> j < ways g) by (intros j Hj; apply in_seq in Hj; lia).
    eapply runs_bind_done.
    { apply (alternatives_spec n L ps states [(([], psi, 0), counters (ways g) [])] ns gates F (seq 0 (ways g)) junk [] w3).
      - intros k e Hk. destruct k; discriminate.
      - intros j Hj. destruct (HF' j (Hseq j Hj)) as (c & H1 & _ & H3). exists c. split; [exact H1|]. intros w4. cbn [length].
        eapply runs_weaken; [apply (H3 1%N) with (states := states) (es := [([], psi, 0)])|].
        + exact Hsizes.
        + reflexivity.
        + exact Harr.
        + intros [[] w5|w5|]; cbn [done]; auto. intros H k er Hk. apply H. destruct k as [|[|k]]; simpl in Hk |- *; try discriminate. injection Hk as <-. reflexivity.
      - rewrite Hcol by exact Hseq. simpl. lia. }
    intros [new counts] w4. cbv beta zeta. cbn [fst snd app]. rewrite Hcol by exact Hseq. intros [-> Ha]. apply runs_ret. cbn [done fst snd map app length].
    rewrite Hns. reflexivity.
  Qed.
End None.

Lemma level_none gs psi draws : level gs psi 0 draws [].
Proof. split; constructor. Qed.
Theorem noise_none n L ps c p gs psi draws w : sizes_ok n 1 L -> circuit_is c p -> Forall can_simulate (c_gates c) ->
  Forall (fun q => (q < n)%N) (program_operands p) -> instantiate ps p = Some gs ->
  runs (simulate_noise n L ps c psi 0 draws) w
    (done (fun result _ => match gs with [] => exists phi, result = [(phi, 0)] /\ forall x, (x < 2 ^ n)%N -> phi x = psi x | _ => result = [] end)).
Proof.
  intros Hs Hc Hcan HF Hi. unfold simulate_noise. rewrite (required_spec c p n Hc).
  replace (existsb (fun q => (n <=? q)%N) (program_operands p)) with false.
  2:{ symmetry. apply not_true_is_false. intros E. apply existsb_exists in E. destruct E as (q & Hq & Hlt). rewrite Forall_forall in HF. specialize (HF q Hq). lia. }
  cbn [negb hcheck]. eapply runs_bind_done with (P := fun _ _ => True); [apply runs_ret; exact I|]. intros [] w1 _.
  destruct Hc as [Hrep _]. assert (HFs : Forall (fun si => Forall (fun q => (q < n)%N) (item_operands si)) (map fst p)).
  { apply Forall_forall. intros si Hsi. apply in_map_iff in Hsi. destruct Hsi as ([si' cc] & <- & Hin). apply Forall_forall. intros q Hq.
    rewrite Forall_forall in HF. apply HF. unfold program_operands. apply in_flat_map. exists (si', cc). auto. }
  pose proof (instantiate_gates ps p gs Hi) as H2.
  assert (Harr : array n psi [([], psi, 0)]).
  { intros [|[|k]] e Hk; simpl in Hk; try discriminate. injection Hk as <-. intros x Hx. unfold at_row, e_psi. cbn [fst snd]. now rewrite N.mul_0_l. }
  destruct gs as [|g gs]; cbn [map] in H2; inversion H2 as [E1 E2|si g0 sis gs2 Hg H2' E1 E2]; subst.
  - rewrite <- E1 in Hrep. inversion Hrep as [E3|]; subst. cbn [noise_gates]. eapply runs_bind_done with (P := fun t _ => t = (psi, [0])); [apply runs_ret; reflexivity|]. intros x w2 ->.
    apply runs_ret. cbn [done length seq combine map fst snd]. eexists. split; [reflexivity|]. intros x Hx. unfold at_row. now rewrite N.mul_0_l.
  - rewrite <- E1 in Hrep, HFs. inversion Hrep as [|i si' is sis' Hr Hrep' E3 E4]; subst. rewrite <- E3 in Hcan. cbn [noise_gates].
    inversion Hcan as [|i' is' Hc Hcs']; subst. inversion HFs as [|si' sis' HF1 HF2]; subst.
    eapply runs_bind_done with (P := fun r _ => snd r = []).
    { eapply runs_bind_done; [apply (first_gate_none n L ps psi Hs i si (fst g) psi draws w1); auto|].
      intros [[states1 counts1] d1] w2. cbv beta. cbn [fst snd]. intros ->. change (@nil nat) with (map e_cnt []).
      eapply runs_weaken.
      - apply (gates_spec n L ps psi 0 d1) with (sis := sis) (gs := []) (gs2 := map fst gs); auto.
        + destruct Hs as (Hs1 & Hs2 & Hs3). split; [exact Hs1|]. split; [|exact Hs3]. simpl. discriminate.
        + apply level_none.
        + intros [|k] e Hk; discriminate.
        + intros t g1 k Ht Hk. lia.
      - intros [r w3|w3|]; cbn [done]; auto. intros (es' & Hl & _ & -> & _). pose proof (lv_sum _ _ _ _ _ Hl) as Hsum. pose proof (lv_pos _ _ _ _ _ Hl) as Hpos.
        destruct es' as [|e es']; [reflexivity|]. inversion Hpos; subst. simpl in Hsum. lia. }
    intros [states counts] w2. cbn [snd]. intros ->. apply runs_ret. reflexivity.
Qed.

(** ** Inverted circuits *)
Lemma draw_one m : forall a ns d row ns' d', draw_row m [a] ns d = Ok (row, ns', d') ->
  row = [a + m] /\ ns' = ns + (if (a =? 0) && negb (m =? 0) then 1 else 0).
Proof.
  induction m as [|m IH]; intros a ns d row ns' d' H; cbn [draw_row] in H.
  - injection H as <- <- _. rewrite andb_false_r. split; [f_equal; lia|lia].
  - cbn [length] in H. destruct (Nat.leb_spec 1 (d 0)); [discriminate|]. replace (d 0) with 0 in H by lia. cbn [bump nth] in H.
    apply IH in H. destruct H as [-> ->]. split; [f_equal; lia|]. destruct (Nat.eqb_spec a 0) as [->|Ha]; cbn [Nat.eqb andb negb]; lia.
Qed.
Definition one_choice (i : citem) : Prop := noise_choices i = Ok ([1%R], [i]).
Lemma gate_one n L ps i states count d w r w' : 0 < count -> one_choice i ->
  noise_gate n L ps i states [count] d w (HDone r w') -> snd (fst r) = [count].
Proof.
  intros H0 Hi H. unfold noise_gate in H. rewrite Hi in H. destruct H as (o1 & H1 & H). cbn [hlift] in H1. rewrite H1 in H. clear H1 o1. cbn beta iota in H. cbn [length] in H.
  destruct H as (o1 & H1 & H). cbn [draw_rows repeat] in H1. destruct (draw_row count [0] 0 d) as [[[row ns] d1]| |] eqn:E; cbn [bindR hlift] in H1.
  2,3: rewrite H1 in H; discriminate H.
  rewrite H1 in H. clear H1 o1. apply draw_one in E. destruct E as [-> ->]. cbn [Nat.eqb andb] in H. destruct (Nat.eqb_spec count 0) as [|_]; [lia|]. cbn [negb Nat.add] in H.
  destruct H as (o1 & (junk & ->) & H). destruct H as (o1 & H1 & H). cbn [seq noise_alternatives nth_error] in H1.
  destruct H1 as (o2 & H2 & H1). rewrite H2 in H1. clear H2 o2. destruct H1 as (o2 & H2 & H1). destruct o2 as [[] w2|w2|]; [|rewrite H1 in H; discriminate H|rewrite H1 in H; discriminate H].
  destruct H1 as (o3 & H3 & H1). cbn [hget] in H3. rewrite H3 in H1. clear H3 o3. destruct H1 as (o3 & H3 & H1). cbn [insert_rows nth] in H3.
  destruct (Nat.eqb_spec count 0) as [|_]; [lia|]. cbn [length Nat.leb hlift app] in H3. rewrite H3 in H1. clear H3 o3. rewrite H1 in H. injection H as -> _. reflexivity.
Qed.
Lemma gates_one n L ps is : Forall one_choice is -> forall states count d w r w', 0 < count ->
  noise_gates n L ps is states [count] d w (HDone r w') -> snd r = [count].
Proof.
  induction 1 as [|i is Hi His IH]; intros states count d w r w' H0 H; cbn [noise_gates] in H.
  - injection H as -> _. reflexivity.
  - destruct H as (o1 & H1 & H). destruct o1 as [[[s1 c1] d1] w1|w1|]; try discriminate H. apply gate_one in H1; [|assumption|assumption]. cbn [fst snd] in H1. subst c1.
    exact (IH _ _ _ _ _ _ H0 H).
Qed.
Lemma inverse_one i i' : item_inverse i = Ok i' -> one_choice i'.
Proof.
  unfold item_inverse. destruct i as [g|g key]; intros H; inv_bind H; injection H as <-.
  - destruct g as [[t g]|t b r|t d gs]; cbn [c_inverse] in E; try discriminate E; repeat (inv_bind E); injection E as <-; reflexivity.
  - destruct g; cbn [p_inverse] in E; repeat (inv_bind E); injection E as <-; reflexivity.
Qed.
Lemma mapR_forall {A B} (f : A -> res B) (P : B -> Prop) l : (forall a b, f a = Ok b -> P b) -> forall l', mapR f l = Ok l' -> Forall P l'.
Proof.
  intros Hf. induction l as [|a l IH]; intros l' H; cbn [mapR] in H.
  - injection H as <-. constructor.
  - inv_bind H. inv_bind H. injection H as <-. constructor; eauto.
Qed.
Theorem noise_inverse_one n L ps c0 c psi count draws w result w' : circuit_inverse c0 = Ok c -> 0 < count ->
  simulate_noise n L ps c psi count draws w (HDone result w') -> exists phi, result = [(phi, count)].
Proof.
  intros Hi H0 H. unfold circuit_inverse in Hi. inv_bind Hi. injection Hi as <-. destruct H as (o1 & H1 & H). cbn [c_gates] in *.
  destruct o1 as [[] w1|w1|]; try discriminate H. destruct H as (o2 & H2 & H). destruct o2 as [[states counts] w2|w2|]; try discriminate H.
  apply gates_one in H2; [|eapply mapR_forall; [|exact E]; apply inverse_one|assumption]. cbn [snd] in H2. subst counts. injection H as -> _. cbn [length seq combine map fst snd]. eauto.
Qed.

(** the inverse of bit-flip noise *)
Definition half : list R := [1 / 2; 1 - 1 / 2]%R.
Lemma impl_half a b : probabilistic_impl flatten_probabilistic_gate half [CElem a; CElem b] = Ok (half, [CElem a; CElem b]).
Proof.
  unfold probabilistic_impl, half. cbn [length Nat.eqb negb forallb flatten_all flatten_probabilistic_gate bindR app map fst snd]. unfold in_unit.
  repeat match goal with |- context [Rlt_dec ?x ?y] => destruct (Rlt_dec x y); [exfalso; lra|] end. cbn [andb negb bindR].
  unfold sum_is_one, cumulative_distribution. cbn [partial_sums last]. destruct (Rlt_dec _ _) as [H|_]; [|reflexivity].
  replace (0 + 1 / 2 + (1 - 1 / 2) - 1)%R with 0%R in H by field. rewrite Rabs_R0 in H. assert (0 < / 10 ^ 6)%R by (apply Rinv_0_lt_compat; lra). lra.
Qed.
Definition flip : cgate := CProb true half [CElem (true, gate_x0); noise_I].
Definition unflip : cgate := CProb false half [CElem (false, gate_x0); CElem (false, EI)].
Lemma flip_made : make_bit_flip false 0 (1 / 2) = Ok flip.
Proof. unfold make_bit_flip, noise1. rewrite made_x0. cbn [bindR]. change [1 / 2; 1 - 1 / 2]%R with half. unfold make_probabilistic, noise_I. rewrite impl_half. reflexivity. Qed.
Lemma flip_inverse : circuit_inverse (add_gate c_new flip) = Ok (Circuit [IGate unflip] [None]).
Proof.
  unfold circuit_inverse. cbn [add_gate c_new c_gates c_conds app rev mapR item_inverse]. unfold flip. cbn [c_inverse mapR noise_I get_inverse gate_x0 bindR].
  cbn [std1_inverse g_t g_c g_cv bindR]. change (make_base 1 0 0) with (Ok (GBase 1 0 0)). cbn [bindR]. change (EStd GX {| g_t := 1; g_c := 0; g_cv := 0 |}) with gate_x0. rewrite impl_half. reflexivity.
Qed.
Definition unflip_gate : sgate := Choice [(1 / 2, act_x0); (1 - 1 / 2, act_of CallI)]%R.
Lemma unflip_stands : stands unflip unflip_gate.
Proof.
  unfold unflip, unflip_gate. change [((1 / 2)%R, act_x0); ((1 - 1 / 2)%R, act_of CallI)] with (combine half [act_x0; act_of CallI]).
  apply stands_choice; [|reflexivity|].
  - split; [discriminate|]. split; [repeat (apply Forall_cons; [lra|]); apply Forall_nil|]. unfold Rsuml. simpl. replace (_ - 1)%R with 0%R by field. rewrite Rabs_R0. lra.
  - apply Forall2_cons; [apply stands_act; apply (acts_factory false); [exact I|exact made_x0]|].
    apply Forall2_cons; [apply stands_act; apply (acts_factory true); [exact I|reflexivity]|apply Forall2_nil].
Qed.
Lemma unflip_step us s o : step 1 unflip_gate us s o -> exists s', o = SDone s'.
Proof.
  intros H. inversion H as [| | | |l u g us' s0 o0 (l1 & p & l2 & E & _) Hs]; subst.
  destruct l1 as [|x [|y [|z l1]]]; cbn [app] in E; injection E; intros; subst; try discriminate; inversion Hs; subst; eauto.
Qed.
Theorem noise_inverse_refuted : exists n L ps g c p gs psi, make_bit_flip false 0 (1 / 2) = Ok g /\ circuit_inverse (add_gate c_new g) = Ok c /\
  circuit_is c p /\ Forall (fun ic => snd ic = None) p /\ Forall (fun q => (q < n)%N) (program_operands p) /\ instantiate ps p = Some gs /\
  map (fun g => ways (fst g)) gs = [2] /\
  forall count w, 1 < count -> sizes_ok n (N.of_nat count) L -> (forall k, unit_draw (bw_rand w k)) ->
    runs (simulate_noise n L ps c psi count (fun _ => 0)) w
      (done (fun result _ => forall draws i j samples paths, i < count -> j < count -> draws i <> draws j ->
               ~ noise_result n (map fst gs) psi count draws samples paths result)).
Proof.
  set (c := Circuit [IGate unflip] [None]). set (p := [(SFixed unflip_gate, None)] : program). set (psi := (fun x => if (x =? 0)%N then C1 else C0) : state).
  exists 1%N, 1%N, (fun _ => None), flip, c, p, [(unflip_gate, None)], psi. split; [exact flip_made|]. split; [exact flip_inverse|].
  assert (Hc : circuit_is c p) by (split; [apply Forall2_cons; [apply represents_gate; exact unflip_stands|apply Forall2_nil]|reflexivity]).
  assert (HF : Forall (fun q => (q < 1)%N) (program_operands p)) by repeat constructor.
  split; [exact Hc|]. split; [repeat constructor|]. split; [exact HF|]. split; [reflexivity|]. split; [reflexivity|].
  intros count w Hcount Hs Hd.
  assert (Hrun : runs (simulate_noise 1 1 (fun _ => None) c psi count (fun _ => 0)) w (done (fun _ _ => True))).
  { unfold simulate_noise. rewrite (required_spec c p 1 Hc). cbn [negb existsb program_operands flat_map p fst item_operands unflip_gate operands snd act_x0 act_of call_operands app hcheck].
    change (negb (existsb (fun q : N => (1 <=? q)%N) [0%N])) with true. cbn [hcheck].
    eapply runs_bind_done with (P := fun _ w' => w' = w); [apply runs_ret; reflexivity|]. intros [] w1 ->. cbn [c c_gates noise_gates].
    eapply runs_bind_done with (P := fun _ _ => True); [|intros [states counts] w1 _; apply runs_ret; exact I].
    eapply runs_bind_done with (P := fun _ _ => True); [|intros [[s1 c1] d1] w1 _; apply runs_ret; exact I].
    unfold noise_gate. cbn [noise_choices unflip hlift]. eapply runs_bind_done with (P := fun t w' => t = ([1%R], [IGate unflip]) /\ w' = w); [apply runs_ret; cbn [done]; auto|].
    intros x w1 [-> ->]. cbn beta iota. cbn [length]. destruct (draw_rows_spec 1 [count] 0 (fun _ => 0)) as (ns & Er & Hns); [intros; lia|]. rewrite Er. cbn [hlift].
    eapply runs_bind_done with (P := fun t w' => t = (map (counters 1) (split_draws [count] (fun _ => 0)), ns, fun _ => 0) /\ w' = w); [apply runs_ret; cbn [done]; auto|].
    intros x w1 [-> ->]. cbn beta iota.
    eapply runs_bind_done with (P := fun _ w' => w' = w); [split; [intros o (junk & ->); reflexivity|exists (HDone psi w), psi; reflexivity]|]. intros junk w1 ->.
    eapply runs_bind_done with (P := fun _ _ => True); [|intros [new counts] w1 _; apply runs_ret; exact I].
    cbn [seq split_draws map noise_alternatives nth_error length].
    eapply runs_bind_done with (P := fun _ w' => w' = with_states 1 psi w); [apply runs_modify; reflexivity|]. intros [] w1 ->.
    eapply runs_bind_done with (P := fun _ _ => True).
    { eapply runs_weaken; [apply (b_cgate_runs 1 1 1 unflip unflip_gate _ (fun _ => SState psi []))|].
      - apply (sizes_less 1 (N.of_nat count)); [exact Hs|lia].
      - lia.
      - exact unflip_stands.
      - reflexivity.
      - repeat constructor.
      - split; [reflexivity|]. intros b Hb. assert (b = 0%N) as -> by lia. split; [intros x Hx; reflexivity|]. split; reflexivity.
      - exact Hd.
      - intros b Hb us _ Hst. apply unflip_step in Hst. destruct Hst as (s' & [=]).
      - intros [[] w'|w'|]; cbn [all done]; auto. intros (b & us & s' & _ & _ & Hst & _). apply unflip_step in Hst. destruct Hst as (s'' & [=]). }
    intros [] w1 _. eapply runs_bind_done with (P := fun _ _ => True); [apply runs_get; exact I|]. intros tmp w2 _.
    assert (Eocc : counters 1 (map (fun _ => 0) (seq 0 count)) = [count]).
    { unfold counters. cbn [seq map]. f_equal. unfold occ. clear. generalize 0 at 2. induction count as [|m IH]; intros k; [reflexivity|]. cbn [seq map count_occ]. destruct (Nat.eq_dec 0 0); [|lia]. now rewrite IH. }
    assert (Ens : ns = 1). { rewrite Hns. cbn [split_draws map]. rewrite Eocc. unfold positives. cbn [filter]. destruct (Nat.eqb_spec count 0); [lia|]. reflexivity. }
    rewrite Eocc, Ens. cbn [insert_rows nth]. destruct (Nat.eqb_spec count 0); [lia|]. cbn [length Nat.leb hlift].
    eapply runs_bind_done with (P := fun _ _ => True); [apply runs_ret; exact I|]. intros acc w3 _. apply runs_ret. exact I. }
  destruct Hrun as [H1 H2]. split; [|exact H2]. intros o Ho. specialize (H1 o Ho). destruct o as [result w'|w'|]; cbn [done] in *; try contradiction. clear H1 H2.
  assert (H0 : 0 < count) by lia. destruct (noise_inverse_one _ _ _ _ _ _ _ _ _ _ _ flip_inverse H0 Ho) as (phi & ->).
  intros draws i j samples paths Hi Hj Hne [K1 K2 K3 K4 K5 K6 K7]. specialize (K3 0 ltac:(simpl; lia)). rewrite Nat.mul_0_l in K3.
  inversion K7 as [|path r l l' _ Hnil]; subst. inversion Hnil; subst. cbn [In] in K6.
  assert (Hall : forall s, In s samples -> s = path) by (intros s Hin; apply K6 in Hin; destruct Hin as [->|[]]; reflexivity).
  assert (Hv : forall k, k < length samples -> draws k = nth 0 path 0).
  { intros k Hk. assert (Hin : In (draws k) (map draws (seq 0 (length samples)))) by (apply in_map, in_seq; lia).
    apply (Permutation_in _ (Permutation_sym K3)) in Hin. apply in_map_iff in Hin. destruct Hin as (s & <- & Hin). now rewrite (Hall s Hin). }
  apply Hne. now rewrite (Hv i), (Hv j).
Qed.
