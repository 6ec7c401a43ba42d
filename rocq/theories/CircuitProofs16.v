(** Circuits on batches. *)
From Verif Require Export CircuitProofs15.
From Coq Require Import ZifyBool ZifyN ZifyNat Permutation Lra.

Definition cond_rel (n : N) (g : sgate) (c : option cond) : erel := fun us s so =>
  match holds c (s_reg s) with
  | Ok true => step n g us s so
  | Ok false => us = [] /\ so = SDone s
  | Throw => us = [] /\ so = SThrown s
  | UB => us = [] /\ so = SOutside
  end.
Lemma upd_same (bs : N -> sstate) b x : upd N.eqb bs b (bs b) x = bs x.
Proof. unfold upd. destruct (N.eqb_spec x b); congruence. Qed.
Lemma bmatch_ext n B w bs bs' : (forall b, bs b = bs' b) -> bmatch n B w bs -> bmatch n B w bs'.
Proof. intros E [H1 H2]. split; [assumption|]. intros b Hb. rewrite <- E. auto. Qed.
Lemma item_gate_param ps b key g gb : item_gate (element_params ps b) (SKeyed key g) = Some gb ->
  exists vs v, ps key = Some vs /\ nth_error vs (N.to_nat b) = Some v /\ gb = g v.
Proof.
  cbn [item_gate]. unfold element_params. destruct (ps key) as [vs|]; [|discriminate]. destruct (nth_error vs (N.to_nat b)) as [v|] eqn:E; [|discriminate].
  intros [= <-]. eauto.
Qed.
Lemma b_conditional_runs n B L ps i si f gs w bs : n < 64 -> lanes_ok L -> represents i si -> item_stays i = true ->
  Forall (fun q => q < n) (item_operands si) -> (forall b, b < B -> item_gate (element_params ps b) si = Some (gs b)) ->
  bmatch n B w bs -> bdraws w -> (forall b, b < B -> safe (cond_rel n (gs b) (Some f)) (bs b)) ->
  runs (b_conditional n B L ps i f) w (all n B w bs (fun b => cond_rel n (gs b) (Some f))).
Proof.
  intros Hn HL Hrep Hstay HF Hg Hm Hd Hs. unfold b_conditional. apply for_all_runs; try assumption.
  intros b w1 bs1 Hb Eb Hm1 Hd1. specialize (Hs b Hb). rewrite <- Eb in Hs. clear w bs Hm Hd Eb.
  eapply b_runs_bind_ret; [apply runs_get; reflexivity|]. destruct (proj2 Hm1 b Hb) as (K1 & K2 & K3).
  unfold breg_get. rewrite K2. cbn [hlift]. eapply b_runs_bind_ret; [apply runs_ret; reflexivity|].
  destruct (f (s_reg (bs1 b))) as [[|]| |] eqn:Ef; cbn [hlift].
  - eapply b_runs_bind_ret; [apply runs_ret; reflexivity|].
    assert (Hst : safe (step n (gs b)) (bs1 b)).
    { intros us Hus H. apply (Hs us Hus). unfold cond_rel. cbn [holds]. now rewrite Ef. }
    assert (Hone : forall p, refines n p (gs b) true -> runs (on_view n b p) w1 (one n B w1 bs1 b (cond_rel n (gs b) (Some f)))).
    { intros p Hr. eapply runs_weaken; [apply (view_runs n B b p (gs b) w1 bs1 Hb Hm1 Hd1 Hr Hst)|].
      intros [[] w'|w'|]; cbn [one]; auto; intros (k & s' & H1 & H2); exists k, s'; (split; [|exact H2]); unfold cond_rel; cbn [holds]; now rewrite Ef. }
    specialize (Hg b Hb). destruct Hrep as [g s Hst'|g key s Hst']; cbn [item_stays item_operands] in *.
    + cbn [item_gate] in Hg. injection Hg as Hg. apply Hone. rewrite <- Hstay, <- Hg. now apply cgate_refines.
    + apply item_gate_param in Hg. destruct Hg as (vs & v & E1 & E2 & E3). rewrite E1. cbn [opt_res hlift]. eapply b_runs_bind_ret; [apply runs_ret; reflexivity|].
      rewrite E2. apply Hone. rewrite <- Hstay, E3. apply pgate_refines; try assumption.
      apply Forall_forall. intros q Hq. rewrite Forall_forall in HF. apply HF. now apply (pstands_operands g s v 0%R q Hst').
  - eapply b_runs_bind_ret; [apply runs_ret; reflexivity|]. apply runs_ret. exists 0%nat, (bs1 b). split; [|split].
    + unfold cond_rel. cbn [holds]. rewrite Ef. auto.
    + intros k. reflexivity.
    + eapply bmatch_ext; [|exact Hm1]. intros x. symmetry. apply upd_same.
  - apply runs_throw_bind. exists 0%nat, (bs1 b). split; [|now repeat split]. unfold cond_rel. cbn [holds]. rewrite Ef. auto.
  - exfalso. apply (Hs []); [constructor|]. unfold cond_rel. cbn [holds]. rewrite Ef. auto.
Qed.
Lemma b_item_runs n B L ps i si gs w bs : sizes_ok n B L -> 0 < B -> represents i si -> (is_probabilistic i = true -> item_stays i = true) ->
  Forall (fun q => q < n) (item_operands si) -> (forall b, b < B -> item_gate (element_params ps b) si = Some (gs b)) ->
  (forall key g, si = SKeyed key g -> forall vs, ps key = Some vs -> N.of_nat (length vs) = B) ->
  bmatch n B w bs -> bdraws w -> (forall b, b < B -> safe (step n (gs b)) (bs b)) ->
  runs (b_item_update n B L ps i) w (all n B w bs (fun b => step n (gs b))).
Proof.
  intros Hsz HB Hrep Hstay HF Hg Hps Hm Hd Hs.
  assert (Hw : forall E, (forall b us s so, b < B -> E b us s so <-> step n (gs b) us s so) -> forall o, all n B w bs E o -> all n B w bs (fun b => step n (gs b)) o).
  { intros E HE [[] w'|w'|]; cbn [all]; auto.
    - intros (k & use & bs' & H1 & H2 & H3 & H4 & H5). exists k, use, bs'. repeat (split; [assumption|]). intros b Hb. apply HE; auto.
    - intros (b & us & s' & H1 & H2 & H3 & H4). exists b, us, s'. split; [assumption|]. split; [assumption|]. split; [|assumption]. apply HE; auto. }
  destruct Hrep as [g s Hst|g key s Hst]; cbn [b_item_update item_operands is_probabilistic item_stays] in *.
  - assert (E : forall b, b < B -> gs b = s) by (intros b Hb; specialize (Hg b Hb); cbn [item_gate] in Hg; congruence).
    eapply runs_weaken; [apply (b_cgate_runs n B L g s w bs); try assumption|].
    + destruct g; auto.
    + intros b Hb. rewrite <- (E b Hb). auto.
    + apply Hw. intros b us s0 so Hb. now rewrite (E b Hb).
  - destruct (item_gate_param ps 0 key s _ (Hg 0 HB)) as (vs & v0 & E1 & _). rewrite E1. cbn [opt_res hlift]. eapply b_runs_bind_ret; [apply runs_ret; reflexivity|].
    assert (E : forall b, b < B -> gs b = s (param_at vs b)).
    { intros b Hb. destruct (item_gate_param ps b key s _ (Hg b Hb)) as (vs' & v & F1 & F2 & F3). assert (vs' = vs) by congruence. subst vs'.
      now rewrite (param_at_nth vs b v F2). }
    eapply runs_weaken; [apply (b_pgate_runs n B L g s vs w bs); try assumption|].
    + destruct g; auto.
    + exact (Hps key s eq_refl vs E1).
    + intros b Hb. rewrite <- (E b Hb). auto.
    + apply Hw. intros b us s0 so Hb. now rewrite (E b Hb).
Qed.

(** ** Sequences *)
Lemma all_weaken n B w bs (E E' : N -> erel) o : (forall b us so, b < B -> E b us (bs b) so -> E' b us (bs b) so) -> all n B w bs E o -> all n B w bs E' o.
Proof.
  intros HE. destruct o as [[] w'|w'|]; cbn [all]; auto.
  - intros (k & use & bs' & H1 & H2 & H3 & H4 & H5). exists k, use, bs'. repeat (split; [assumption|]). intros b Hb. apply HE; auto.
  - intros (b & us & s' & H1 & H2 & H3 & H4). exists b, us, s'. split; [assumption|]. split; [assumption|]. split; [|assumption]. apply HE; auto.
Qed.
Lemma all_bind n B w bs (E1 E2 E : N -> erel) p q : runs p w (all n B w bs E1) ->
  (forall w1 bs1, bmatch n B w1 bs1 -> (exists k, shifts w w1 k) -> (forall b, b < B -> exists us, Forall unit_draw us /\ E1 b us (bs b) (SDone (bs1 b))) ->
     runs q w1 (all n B w1 bs1 E2)) ->
  bdraws w ->
  (forall b us vs s1 so, b < B -> E1 b us (bs b) (SDone s1) -> E2 b vs s1 so -> E b (us ++ vs) (bs b) so) ->
  (forall b us s1, b < B -> E1 b us (bs b) (SThrown s1) -> E b us (bs b) (SThrown s1)) ->
  runs (p;~ q) w (all n B w bs E).
Proof.
  intros Hp Hq Hd HE HT. eapply runs_bind; [exact Hp| | |intros []].
  - intros [] w1 (k & use & bs1 & [Hs1 Hs2] & Hlt & Hsh & Hm & H1).
    eapply runs_weaken; [apply (Hq w1 bs1 Hm (ex_intro _ k Hsh))|].
    + intros b Hb. exists (map (bw_rand w) (use b)). split; [now apply draws_map|auto].
    + intros [[] w2|w2|]; cbn [all]; auto.
      * intros (k2 & use2 & bs2 & [Hs3 Hs4] & Hlt2 & Hsh2 & Hm2 & H2).
        exists (k + k2)%nat, (fun b => use b ++ map (fun i => (k + i)%nat) (use2 b)), bs2.
        assert (Hne : forall b b' i, b < B -> b' < B -> In i (use b) -> ~ In i (map (fun i => (k + i)%nat) (use2 b'))).
        { intros b b' i Hb Hb' Hi Hin. apply in_map_iff in Hin. destruct Hin as (j & <- & _). specialize (Hlt b _ Hb Hi). lia. }
        split; [split|split; [|split; [|split]]].
        -- intros b Hb.
           assert (Happ : forall l l' : list nat, NoDup l -> NoDup l' -> (forall x, In x l -> ~ In x l') -> NoDup (l ++ l')).
           { clear. induction l as [|x l IH]; intros l' H1 H2 H3; [exact H2|]. inversion H1; subst. simpl. constructor.
             - rewrite in_app_iff. intros [H|H]; [contradiction|]. exact (H3 x (or_introl eq_refl) H).
             - apply IH; auto. intros y Hy. apply H3. now right. }
           apply Happ; [auto| |intros x; apply Hne; assumption]. apply FinFun.Injective_map_NoDup; [intros x y; lia|auto].
        -- intros b b' i Hb Hb'. rewrite !in_app_iff. intros [Hi|Hi] [Hj|Hj].
           ++ eapply Hs2; eassumption.
           ++ exfalso. exact (Hne b b' i Hb Hb' Hi Hj).
           ++ exfalso. exact (Hne b' b i Hb' Hb Hj Hi).
           ++ apply in_map_iff in Hi. apply in_map_iff in Hj. destruct Hi as (x & <- & Hx). destruct Hj as (y & Ey & Hy). assert (y = x) by lia. subst y.
              exact (Hs4 b b' x Hb Hb' Hx Hy).
        -- intros b i Hb. rewrite in_app_iff. intros [Hi|Hi]; [specialize (Hlt b i Hb Hi); lia|]. apply in_map_iff in Hi. destruct Hi as (x & <- & Hx).
           specialize (Hlt2 b x Hb Hx). lia.
        -- intros i. rewrite Hsh2, Hsh. f_equal. lia.
        -- exact Hm2.
        -- intros b Hb. rewrite map_app, map_map. apply (HE b _ _ (bs1 b) _ Hb); [auto|]. specialize (H2 b Hb).
           erewrite map_ext; [exact H2|]. intros j. cbv beta. now rewrite Hsh.
      * intros (b & vs & s2 & Hb & Hvs & H2 & He). exists b, (map (bw_rand w) (use b) ++ vs), s2. split; [assumption|].
        split; [apply Forall_app; split; [now apply draws_map|assumption]|]. split; [|exact He]. eapply HE; eauto.
  - intros w1 (b & us & s1 & Hb & Hus & H1 & He). exists b, us, s1. split; [assumption|]. split; [assumption|]. split; [auto|exact He].
Qed.
Lemma guarded_assoc {W T} (p : host W unit) (m : N) (k : N -> host W T) w Q : runs (p;~ k m) w Q ->
  runs (hbind (hcheck true;~ p;~ hret m) k) w Q.
Proof.
  assert (E : forall o, hbind (hcheck true;~ p;~ hret m) k w o <-> (p;~ k m) w o).
  { intros o. split.
    - intros (o1 & (o2 & E2 & H1) & H2). unfold hcheck, hret in E2. subst o2. destruct H1 as (o3 & H3 & H4). exists o3. split; [exact H3|].
      destruct o3 as [[] w3|w3|]; [unfold hret in H4; subst o1; exact H2|subst o1; exact H2|subst o1; exact H2].
    - intros (o3 & H3 & H4). destruct o3 as [[] w3|w3|].
      + exists (HDone m w3). split; [|exact H4]. exists (HDone tt w). split; [reflexivity|]. exists (HDone tt w3). split; [exact H3|reflexivity].
      + exists (HThrown w3). split; [|exact H4]. exists (HDone tt w). split; [reflexivity|]. exists (HThrown w3). split; [exact H3|reflexivity].
      + exists HUndefined. split; [|exact H4]. exists (HDone tt w). split; [reflexivity|]. exists HUndefined. split; [exact H3|reflexivity]. }
  intros [H1 [o H2]]. split; [intros o' Ho'; apply H1, E, Ho'|exists o; apply E, H2].
Qed.
Lemma b_run_items_runs n B L ps : sizes_ok n B L -> 0 < B -> forall p items ls, Forall2 represents items (map fst p) ->
  (forall i f, In (i, f) (combine items (map snd p)) -> f <> None \/ is_probabilistic i = true -> item_stays i = true) ->
  (forall b, b < B -> instantiate (element_params ps b) p = Some (ls b)) ->
  (forall key, keyed p key -> forall vs, ps key = Some vs -> N.of_nat (length vs) = B) ->
  Forall (fun q => q < n) (program_operands p) -> forall mask ms w bs,
  (forall b, b < B -> forall q, N.testbit mask q = true <-> In q (ms b)) ->
  bmatch n B w bs -> bdraws w ->
  (forall b, b < B -> safe (exec_list watch_unconditional n (ls b) (ms b)) (bs b)) ->
  runs (b_run_items n B L ps items (map snd p) mask) w (all n B w bs (fun b => exec_list watch_unconditional n (ls b) (ms b))).
Proof.
  intros Hsz HB p. assert (Hn : n < 64) by apply Hsz. assert (HL : lanes_ok L) by apply Hsz.
  induction p as [|[si c] p IH]; intros items ls Hrep Hstay Hinst Hps HF mask ms w bs Hmask Hm Hd Hs.
  - inversion Hrep; subst. apply runs_ret. exists 0%nat, (fun _ => []), bs. split; [split; [constructor|intros ? ? ? ? ? []]|]. split; [intros ? ? ? []|].
    split; [intros i; reflexivity|]. split; [assumption|]. intros b Hb. specialize (Hinst b Hb). injection Hinst as <-. constructor.
  - inversion Hrep as [|i si' items' ? Hi Hrep']; subst.
    set (gs := fun b => match item_gate (element_params ps b) si with Some g => g | None => Choice [] end).
    set (ls' := fun b => match instantiate (element_params ps b) p with Some l => l | None => [] end).
    assert (Hgs : forall b, b < B -> item_gate (element_params ps b) si = Some (gs b) /\ instantiate (element_params ps b) p = Some (ls' b) /\ ls b = (gs b, c) :: ls' b).
    { intros b Hb. specialize (Hinst b Hb). cbn [instantiate] in Hinst. unfold gs, ls'. destruct (item_gate (element_params ps b) si); [|discriminate].
      destruct (instantiate (element_params ps b) p); [|discriminate]. injection Hinst as <-. auto. }
    cbn [program_operands flat_map fst] in HF. apply Forall_app in HF. destruct HF as [HF1 HF2]. fold (program_operands p) in HF2.
    cbn [map snd] in Hstay |- *. cbn [combine] in Hstay.
    assert (Hstay' : forall i f, In (i, f) (combine items' (map snd p)) -> f <> None \/ is_probabilistic i = true -> item_stays i = true)
      by (intros i0 f0 H0; apply (Hstay i0 f0); now right).
    assert (Hps' : forall key, keyed p key -> forall vs, ps key = Some vs -> N.of_nat (length vs) = B).
    { intros key (g & c0 & Hin). apply Hps. exists g, c0. now right. }
    assert (Hpsi : forall key g, si = SKeyed key g -> forall vs, ps key = Some vs -> N.of_nat (length vs) = B).
    { intros key g E. apply Hps. exists g, c. left. now rewrite E. }
    assert (Hrest : forall w1 bs1 mask' ms', bmatch n B w1 bs1 -> (exists k, shifts w w1 k) ->
              (forall b, b < B -> forall q, N.testbit mask' q = true <-> In q (ms' b)) ->
              (forall b, b < B -> safe (exec_list watch_unconditional n (ls' b) (ms' b)) (bs1 b)) ->
              runs (b_run_items n B L ps items' (map snd p) mask') w1 (all n B w1 bs1 (fun b => exec_list watch_unconditional n (ls' b) (ms' b)))).
    { intros w1 bs1 mask' ms' Hm1 [k Hk] Hmask' Hs'. apply (IH items' ls' Hrep' Hstay'); auto.
      - intros b Hb. apply (Hgs b Hb).
      - exact (draws_shift _ _ _ Hd Hk). }
    clear IH. destruct c as [f|]; cbn [b_run_items].
    + eapply (all_bind n B w bs (fun b => cond_rel n (gs b) (Some f)) (fun b => exec_list watch_unconditional n (ls' b) (ms b))); auto.
      * apply (b_conditional_runs n B L ps i si f gs); auto.
        -- apply (Hstay i (Some f)); [now left|]. left. discriminate.
        -- intros b Hb. apply (Hgs b Hb).
        -- intros b Hb us Hus H. unfold cond_rel in H. apply (Hs b Hb us Hus). destruct (Hgs b Hb) as (_ & _ & ->).
           destruct (holds (Some f) (s_reg (bs b))) as [[|]| |] eqn:Eh.
           ++ apply exec_gate_stops; auto; discriminate.
           ++ destruct H; discriminate.
           ++ destruct H; discriminate.
           ++ destruct H as [-> _]. now apply exec_cond_undefined.
      * intros w1 bs1 Hm1 Hk H1. apply Hrest; auto. intros b Hb vs Hvs H. destruct (H1 b Hb) as (us & Hus & H2).
        apply (Hs b Hb (us ++ vs)); [now apply Forall_app|]. destruct (Hgs b Hb) as (_ & _ & ->). unfold cond_rel in H2.
        destruct (holds (Some f) (s_reg (bs b))) as [[|]| |] eqn:Eh.
        -- eapply exec_gate; eauto; discriminate.
        -- destruct H2 as [-> [= Heq]]. rewrite Heq in H. now apply exec_skip.
        -- destruct H2; discriminate.
        -- destruct H2; discriminate.
      * intros b us vs s1 so Hb H1 H2. destruct (Hgs b Hb) as (_ & _ & ->). unfold cond_rel in H1.
        destruct (holds (Some f) (s_reg (bs b))) as [[|]| |] eqn:Eh.
        -- eapply exec_gate; eauto; discriminate.
        -- destruct H1 as [-> [= ->]]. now apply exec_skip.
        -- destruct H1; discriminate.
        -- destruct H1; discriminate.
      * intros b us s1 Hb H1. destruct (Hgs b Hb) as (_ & _ & ->). unfold cond_rel in H1.
        destruct (holds (Some f) (s_reg (bs b))) as [[|]| |] eqn:Eh.
        -- apply exec_gate_stops; auto; discriminate.
        -- destruct H1; discriminate.
        -- destruct H1 as [-> [= ->]]. now apply exec_cond_throws.
        -- destruct H1; discriminate.
    + unfold b_guarded_update.
      assert (Htm : forall b, b < B -> (N.land mask (item_mask i) =? 0) = negb (touches (ms b) (gs b))).
      { intros b Hb. apply touches_mask; [now apply Hmask|]. apply (item_mask_spec (element_params ps b) i si (gs b) Hi). apply (Hgs b Hb). }
      destruct (N.land mask (item_mask i) =? 0) eqn:Et.
      2: { eapply runs_bind; [cbn [hcheck]; apply runs_throw_bind; instantiate (1 := fun o => o = HThrown w); reflexivity|intros ? ? [=]| |intros [=]].
           intros w1 [= ->]. exists 0, [], (bs 0). split; [assumption|]. split; [constructor|]. split; [|now apply Hm].
           destruct (Hgs 0 HB) as (_ & _ & ->). apply exec_touches; [reflexivity|reflexivity|].
           specialize (Htm 0 HB). destruct (touches (ms 0) (gs 0)); [reflexivity|discriminate]. }
      assert (Htouch : forall b, b < B -> touches (ms b) (gs b) = false) by (intros b Hb; specialize (Htm b Hb); destruct (touches (ms b) (gs b)); [discriminate|reflexivity]).
      apply guarded_assoc.
      eapply (all_bind n B w bs (fun b => step n (gs b)) (fun b => exec_list watch_unconditional n (ls' b) (unreset_after (gs b) (ms b)))); auto.
      * apply (b_item_runs n B L ps i si gs); auto.
        -- intros H. apply (Hstay i None); [now left|]. now right.
        -- intros b Hb. apply (Hgs b Hb).
        -- intros b Hb us Hus H. apply (Hs b Hb us Hus). destruct (Hgs b Hb) as (_ & _ & ->). apply exec_gate_stops; auto; discriminate.
      * intros w1 bs1 Hm1 Hk H1. apply Hrest; auto.
        -- intros b Hb. apply (mark_spec (element_params ps b) i si (gs b) mask (ms b) Hi); [apply (Hgs b Hb)|now apply Hmask].
        -- intros b Hb vs Hvs H. destruct (H1 b Hb) as (us & Hus & H2). apply (Hs b Hb (us ++ vs)); [now apply Forall_app|].
           destruct (Hgs b Hb) as (_ & _ & ->). eapply exec_gate; eauto; reflexivity.
      * intros b us vs s1 so Hb H1 H2. destruct (Hgs b Hb) as (_ & _ & ->). eapply exec_gate; eauto; reflexivity.
      * intros b us s1 Hb H1. destruct (Hgs b Hb) as (_ & _ & ->). apply exec_gate_stops; auto; discriminate.
Qed.
