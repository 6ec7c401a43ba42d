(** Batched circuits: the whole update, and comparison with runs on single states. *)
From Verif Require Export CircuitProofs16.
From Coq Require Import ZifyBool ZifyN ZifyNat Permutation Lra.

Lemma stands_proper g : forall s, stands g s -> proper s.
Proof.
  induction g as [[t g]|t b r|t d gs IH] using cgate_ind'; intros s H.
  - inversion H as [? ? ? Ha|? ? ? ? Hm|]; subst; [|exact I]. destruct (acts_spec g s Ha) as (qs & f & -> & _). exact I.
  - inversion H; subst. exact I.
  - inversion H as [|? ? ? ? Hm|? ? ? ss Hd Hl H2]; subst; [exact I|]. destruct Hd as (_ & Hd & _). cbn [proper]. clear H. revert d Hl Hd IH.
    induction H2 as [|g s gs ss Hg H2 IH2]; intros d Hl Hd IH; destruct d as [|p d]; cbn [combine fold_right]; auto.
    inversion Hd; subst. inversion IH; subst. cbn [fst snd]. split; [assumption|]. split; [auto|]. apply IH2; auto.
Qed.
Lemma pstands_proper g : forall s v, pstands (inr g) s -> proper (s v).
Proof.
  induction g as [t k b c|t b p c|t d gs IH] using pgate_ind'; intros s v H.
  - destruct (acts_spec _ _ (pacts_at _ s v H I)) as (qs & f & -> & _). exact I.
  - destruct (acts_spec _ _ (pacts_at _ s v H I)) as (qs & f & -> & _). exact I.
  - inversion H as [|? ? ? ? Hm|? k g0 ? Hty Hm Hi|? ? ? ss Hd Hl H2]; subst; try exact I. destruct Hd as (_ & Hd & _). cbn [proper]. clear H. revert d Hl Hd IH.
    induction H2 as [|g s gs ss Hg H2 IH2]; intros d Hl Hd IH; destruct d as [|p d]; cbn [combine fold_right map]; auto.
    inversion Hd; subst. inversion IH as [|? ? Hone]; subst. cbn [fst snd]. split; [assumption|]. split; [|apply IH2; auto].
    destruct g as [g|g]; [|now apply Hone]. inversion Hg; subst. now apply stands_proper with g.
Qed.
Lemma represents_proper i si ps g : represents i si -> item_gate ps si = Some g -> proper g.
Proof.
  intros H. inversion H; subst; cbn [item_gate].
  - intros [= <-]. now apply stands_proper with g0.
  - destruct (ps key); [|discriminate]. intros [= <-]. now apply pstands_proper with g0.
Qed.
Lemma instantiate_proper ps p : forall items l, Forall2 represents items (map fst p) -> instantiate ps p = Some l -> Forall (fun gc => proper (fst gc)) l.
Proof.
  induction p as [|[si c] p IH]; intros items l H Hl; inversion H as [|i si' items' ? Hi Hr]; subst; cbn [instantiate] in Hl; [injection Hl as <-; constructor|].
  destruct (item_gate ps si) as [g|] eqn:Eg; [|discriminate]. destruct (instantiate ps p) as [l'|] eqn:El; [|discriminate]. injection Hl as <-.
  constructor; [now apply (represents_proper i si ps)|now apply (IH items')].
Qed.
Lemma unreset_quiet i si ps g ms : represents i si -> item_gate ps si = Some g -> leaves_measured si = false -> unreset_after g ms = ms.
Proof.
  intros H. inversion H as [g0 s Hs|g0 key s Hs]; subst; cbn [item_gate leaves_measured].
  - intros [= <-]. destruct s as [| ? ? []|]; cbn [unreset_after]; auto; discriminate.
  - destruct (ps key) as [v|]; [|discriminate]. intros [= <-] _. inversion Hs; subst; reflexivity.
Qed.
Lemma touches_nil g : touches [] g = false.
Proof. reflexivity. Qed.

(** The two watching rules agree on unambiguous programs. *)
Lemma watch_none n l : forall ms us s o, Forall (fun gc => snd gc = None) l -> exec_list watch_unconditional n l ms us s o <-> exec_list watch_all n l ms us s o.
Proof.
  induction l as [|[g c] l IH]; intros ms us s o HF; [split; intros H; inversion H; constructor|]. inversion HF as [|? ? Hc HF']; subst. cbn [snd] in Hc. subst c.
  split; intros H; inversion H; subst; try discriminate.
  - eapply exec_touches; eauto.
  - eapply exec_gate; eauto. cbn [watch_all watch_unconditional] in *. now apply IH.
  - eapply exec_gate_stops; eauto.
  - eapply exec_touches; eauto.
  - eapply exec_gate; eauto. cbn [watch_all watch_unconditional] in *. now apply IH.
  - eapply exec_gate_stops; eauto.
Qed.
Lemma watch_quiet n l : (forall g c, In (g, c) l -> forall ms, unreset_after g ms = ms) -> forall us s o,
  exec_list watch_unconditional n l [] us s o <-> exec_list watch_all n l [] us s o.
Proof.
  induction l as [|[g c] l IH]; intros HF us s o; [split; intros H; inversion H; constructor|].
  assert (HF' : forall g c, In (g, c) l -> forall ms, unreset_after g ms = ms) by (intros; eapply HF; right; eauto).
  assert (Hg : unreset_after g [] = []) by (apply (HF g c); now left).
  split; intros H; inversion H; subst; try discriminate.
  - eapply exec_skip; [assumption|now apply IH].
  - now apply exec_cond_throws.
  - now apply exec_cond_undefined.
  - eapply exec_gate; eauto. cbn [watch_all]. rewrite Hg. apply IH; [assumption|]. destruct (watch_unconditional c); [rewrite Hg in *|]; assumption.
  - eapply exec_gate_stops; eauto.
  - eapply exec_skip; [assumption|now apply IH].
  - now apply exec_cond_throws.
  - now apply exec_cond_undefined.
  - eapply exec_gate; eauto. cbn [watch_all] in *. rewrite Hg in *. destruct (watch_unconditional c); now apply IH.
  - eapply exec_gate_stops; eauto.
Qed.
Lemma instantiate_items ps p : forall items l, Forall2 represents items (map fst p) -> instantiate ps p = Some l -> forall g c, In (g, c) l ->
  exists i si, represents i si /\ In (si, c) p /\ item_gate ps si = Some g.
Proof.
  induction p as [|[si c] p IH]; intros items l H Hl g c' Hin; inversion H as [|i si' items' ? Hi Hr]; subst; cbn [instantiate] in Hl; [injection Hl as <-; destruct Hin|].
  destruct (item_gate ps si) as [g0|] eqn:Eg; [|discriminate]. destruct (instantiate ps p) as [l'|] eqn:El; [|discriminate]. injection Hl as <-.
  destruct Hin as [[= <- <-]|Hin]; [exists i, si; repeat split; [assumption|now left|assumption]|].
  destruct (IH items' l' Hr eq_refl g c' Hin) as (i1 & s1 & H1 & H2 & H3). exists i1, s1. repeat split; [assumption|now right|assumption].
Qed.
Lemma watch_same n ps c p us s o : circuit_is c p -> unambiguous p -> run_program watch_unconditional n ps p us s o <-> run_program watch_all n ps p us s o.
Proof.
  intros [Hc _] Hu. unfold run_program. destruct (existsb _ _); [reflexivity|]. destruct (instantiate ps p) as [l|] eqn:El; [|reflexivity].
  destruct Hu as [Hu|Hu]; rewrite Forall_forall in Hu.
  - apply watch_none. apply Forall_forall. intros [g f] Hin. destruct (instantiate_items ps p _ l Hc El g f Hin) as (i & si & _ & H2 & _). exact (Hu _ H2).
  - apply watch_quiet. intros g f Hin ms. destruct (instantiate_items ps p _ l Hc El g f Hin) as (i & si & H1 & H2 & H3).
    apply (unreset_quiet i si ps); auto. exact (Hu _ H2).
Qed.

Lemma registers_match n B w : registers_ok B w -> bmatch n B w (element n w).
Proof.
  intros [H1 H2]. split; [assumption|]. intros b Hb. assert (Hlt : (N.to_nat b < length (br_regs (bw_regs w)))%nat) by lia. split; [reflexivity|].
  cbn [element s_reg]. split; [now apply nth_error_nth'|]. rewrite Forall_forall in H2. apply H2. now apply nth_In.
Qed.
Lemma match_registers n B w bs : bmatch n B w bs -> registers_ok B w.
Proof.
  intros [H1 H2]. split; [assumption|]. apply Forall_forall. intros r Hr. destruct (In_nth_error _ _ Hr) as [k Hk].
  assert (Hlt : (k < length (br_regs (bw_regs w)))%nat) by (apply nth_error_Some; congruence).
  destruct (H2 (N.of_nat k) ltac:(lia)) as (_ & H3 & H4). rewrite Nat2N.id in H3. congruence.
Qed.
Lemma match_is_element n w b s : ematch n w b s -> is_element n w b s.
Proof.
  intros (H1 & H2 & _). split; [|now apply nth_error_nth]. intros x Hx. rewrite <- (H1 x Hx). reflexivity.
Qed.

Definition program_keys (p : program) : list string := flat_map (fun ic => match fst ic with SFixed _ => [] | SKeyed key _ => [key] end) p.
Lemma program_keys_spec p key : In key (program_keys p) <-> keyed p key.
Proof.
  unfold program_keys, keyed. rewrite in_flat_map. split.
  - intros ([[g|k g] c] & Hin & H); cbn [fst] in H; [destruct H|]. destruct H as [<-|[]]. eauto.
  - intros (g & c & H). exists (SKeyed key g, c). split; [assumption|now left].
Qed.
Lemma circuit_keys c p : circuit_is c p -> keys c = program_keys p.
Proof.
  intros [H _]. unfold keys, program_keys. revert H. generalize (c_gates c). induction p as [|[si f] p IH]; intros items H; inversion H as [|i si' items' ? Hi Hr]; subst; [reflexivity|].
  cbn [flat_map fst]. rewrite (IH _ Hr). now destruct Hi.
Qed.
Lemma instantiate_some ps p : (forall key, keyed p key -> ps key <> None) -> exists l, instantiate ps p = Some l.
Proof.
  induction p as [|[si f] p IH]; intros H; [eexists; reflexivity|]. destruct IH as [l Hl]; [intros key (g & c & Hin); apply H; exists g, c; now right|].
  cbn [instantiate]. rewrite Hl. destruct si as [g|key g]; cbn [item_gate]; [eexists; reflexivity|].
  destruct (ps key) as [v|] eqn:E; [eexists; reflexivity|]. exfalso. apply (H key); [exists g, f; now left|assumption].
Qed.
Lemma instantiate_none ps p key : keyed p key -> ps key = None -> instantiate ps p = None.
Proof.
  induction p as [|[si f] p IH]; intros (g & c & Hin) E; [destruct Hin|]. cbn [instantiate]. destruct Hin as [[= -> ->]|Hin].
  - cbn [item_gate]. now rewrite E.
  - rewrite (IH (ex_intro _ g (ex_intro _ c Hin)) E). now destruct (item_gate ps si).
Qed.

Definition batch_safe (n B : N) (ps : bparams) (p : program) (w : bworld) : Prop :=
  forall b us, b < B -> Forall unit_draw us -> ~ run_program watch_unconditional n (element_params ps b) p us (element n w b) SOutside.
Theorem b_circuit_runs n B L ps c p w : sizes_ok n B L -> 0 < B -> circuit_is c p -> views_stay c -> registers_ok B w -> (forall k, unit_draw (bw_rand w k)) ->
  (forall key, keyed p key -> forall vs, ps key = Some vs -> N.of_nat (length vs) = B) ->
  (forall b us, b < B -> Forall unit_draw us -> ~ run_program watch_unconditional n (element_params ps b) p us (element n w b) SOutside) ->
  runs (b_circuit_update n B L ps c) w (fun o =>
    match o with
    | HDone _ w' => registers_ok B w' /\ exists use, separate B use /\ forall b, b < B -> exists s',
        run_program watch_unconditional n (element_params ps b) p (map (bw_rand w) (use b)) (element n w b) (SDone s') /\ is_element n w' b s'
    | HThrown w' => exists b us s', b < B /\ Forall unit_draw us /\
        run_program watch_unconditional n (element_params ps b) p us (element n w b) (SThrown s') /\ is_element n w' b s'
    | HUndefined => False
    end).
Proof.
  intros Hsz HB Hc Hv Hr Hu Hps Hsafe. unfold b_circuit_update. rewrite (required_spec c p n Hc).
  assert (Hthrow : forall (k : unit -> host bworld unit), runs (hbind hthrow k) w (fun o => o = HThrown w)).
  { intros k. eapply runs_bind; [apply runs_throw; instantiate (1 := fun o => o = HThrown w); reflexivity|intros ? ? [=]|intros ? [= ->]; reflexivity|intros [=]]. }
  assert (Hself : is_element n w 0 (element n w 0)) by (split; reflexivity).
  destruct (existsb _ (program_operands p)) eqn:Eo; cbn [negb hcheck].
  { eapply runs_weaken; [apply Hthrow|]. intros o ->. exists 0, [], (element n w 0). unfold run_program. rewrite Eo. auto. }
  eapply b_runs_bind_ret; [apply runs_ret; reflexivity|]. eapply b_runs_bind_ret; [apply runs_get; reflexivity|].
  destruct Hr as [Hr1 Hr2]. rewrite Hr1, N.eqb_refl. cbn [hcheck]. eapply b_runs_bind_ret; [apply runs_ret; reflexivity|].
  rewrite (circuit_keys c p Hc).
  destruct (forallb _ (program_keys p)) eqn:Ek; cbn [hcheck].
  2: { eapply runs_weaken; [apply Hthrow|]. intros o ->. exists 0, [], (element n w 0). unfold run_program. rewrite Eo.
    assert (Hex : exists key, In key (program_keys p) /\ match ps key with Some vs => N.of_nat (length vs) =? B | None => false end = false).
    { clear - Ek. induction (program_keys p) as [|k ks IH]; cbn [forallb] in Ek; [discriminate|]. destruct (match ps k with Some vs => _ | None => _ end) eqn:E.
      - destruct IH as (key & H1 & H2); [exact Ek|]. exists key. split; [now right|assumption].
      - exists k. split; [now left|assumption]. }
    destruct Hex as (key & Hin & Hk). rewrite program_keys_spec in Hin. destruct (ps key) as [vs|] eqn:E; [specialize (Hps key Hin vs E); lia|].
    rewrite (instantiate_none _ p key Hin); [auto|]. unfold element_params. now rewrite E. }
  eapply b_runs_bind_ret; [apply runs_ret; reflexivity|]. rewrite (proj2 Hc).
  assert (Hinst : forall b, b < B -> exists l, instantiate (element_params ps b) p = Some l).
  { intros b Hb. apply instantiate_some. intros key Hk. rewrite forallb_forall in Ek. specialize (Ek key (proj2 (program_keys_spec p key) Hk)). unfold element_params.
    destruct (ps key) as [vs|] eqn:E; [|discriminate]. apply nth_error_Some. lia. }
  set (ls b := match instantiate (element_params ps b) p with Some l => l | None => [] end).
  assert (Hls : forall b, b < B -> instantiate (element_params ps b) p = Some (ls b)).
  { intros b Hb. unfold ls. destruct (Hinst b Hb) as [l ->]. reflexivity. }
  assert (Hrun : forall b us o, b < B -> exec_list watch_unconditional n (ls b) [] us (element n w b) o <-> run_program watch_unconditional n (element_params ps b) p us (element n w b) o).
  { intros b us o Hb. unfold run_program. rewrite Eo, (Hls b Hb). reflexivity. }
  eapply runs_weaken.
  - apply (b_run_items_runs n B L ps Hsz HB p (c_gates c) ls (proj1 Hc)) with (mask := 0) (ms := fun _ => []) (bs := element n w); auto.
    + intros i f Hin. rewrite <- (proj2 Hc) in Hin. now apply Hv.
    + apply Forall_forall. intros q Hq. destruct (N.ltb_spec q n) as [|Hle]; [assumption|].
      enough (existsb (fun q => n <=? q) (program_operands p) = true) by congruence. apply existsb_exists. exists q. split; [assumption|lia].
    + intros b _ q. rewrite N.bits_0. split; [discriminate|intros []].
    + apply registers_match. now split.
    + intros b Hb us Hus Hx. apply (Hsafe b us Hb Hus). now apply Hrun.
  - intros [[] w'|w'|]; cbn [all].
    + intros (k & use & bs' & H1 & H2 & H3 & H4 & H5). split; [now apply (match_registers n B w' bs')|]. exists use. split; [assumption|].
      intros b Hb. exists (bs' b). split; [apply Hrun; auto|]. apply match_is_element. now apply H4.
    + intros (b & us & s' & Hb & Hus & HE & Hm). exists b, us, s'. split; [assumption|]. split; [assumption|]. split; [now apply Hrun|now apply match_is_element].
    + auto.
Qed.

Lemma b_circuit_rejects n B L ps c w : n < required_n_qubits c \/ N.of_nat (length (br_regs (bw_regs w))) <> B \/
  (exists key, In key (keys c) /\ match ps key with Some vs => N.of_nat (length vs) <> B | None => True end) ->
  runs (b_circuit_update n B L ps c) w (fun o => o = HThrown w).
Proof.
  intros H. unfold b_circuit_update.
  assert (Hthrow : forall (k : unit -> host bworld unit), runs (hbind hthrow k) w (fun o => o = HThrown w)).
  { intros k. eapply runs_bind; [apply runs_throw; instantiate (1 := fun o => o = HThrown w); reflexivity|intros ? ? [=]|intros ? [= ->]; reflexivity|intros [=]]. }
  destruct (N.leb_spec (required_n_qubits c) n) as [Hle|Hgt]; cbn [hcheck]; [|apply Hthrow].
  eapply b_runs_bind_ret; [apply runs_ret; reflexivity|]. eapply b_runs_bind_ret; [apply runs_get; reflexivity|].
  destruct (N.eqb_spec (N.of_nat (length (br_regs (bw_regs w)))) B) as [HB|HB]; cbn [hcheck]; [|apply Hthrow].
  eapply b_runs_bind_ret; [apply runs_ret; reflexivity|].
  destruct H as [H|[H|(key & Hin & Hk)]]; [lia|contradiction|].
  destruct (forallb _ (keys c)) eqn:Ek; cbn [hcheck]; [|apply Hthrow]. exfalso. rewrite forallb_forall in Ek. specialize (Ek key Hin).
  destruct (ps key); [lia|discriminate].
Qed.

Lemma nth_error_eq {T} (l : list T) : forall l', (forall i, nth_error l i = nth_error l' i) -> l = l'.
Proof.
  induction l as [|x l IH]; intros [|y l'] H; [reflexivity|discriminate (H 0%nat)|discriminate (H 0%nat)|].
  f_equal; [now injection (H 0%nat)|]. apply IH. intros i. exact (H (S i)).
Qed.
Lemma used_prefix r (l : list R) : (forall i x, nth_error l i = Some x -> r i = x) -> l = map r (seq 0 (length l)).
Proof.
  intros H. apply nth_error_eq. intros i. rewrite nth_error_map. destruct (Nat.lt_ge_cases i (length l)) as [Hi|Hi].
  - rewrite (nth_error_nth' _ 0%nat) by (now rewrite seq_length). rewrite seq_nth by assumption. cbn [option_map]. rewrite Nat.add_0_l.
    destruct (nth_error l i) as [x|] eqn:E; [now rewrite (H i x E)|]. apply nth_error_None in E. lia.
  - rewrite (proj2 (nth_error_None l i)) by assumption. rewrite (proj2 (nth_error_None (seq 0 (length l)) i)) by (now rewrite seq_length). reflexivity.
Qed.
Theorem b_circuit_single n B L ps c p w : sizes_ok n B L -> 0 < B -> circuit_is c p -> unambiguous p -> views_stay c -> registers_ok B w ->
  (forall k, unit_draw (bw_rand w k)) ->
  (forall key, keyed p key -> forall vs, ps key = Some vs -> N.of_nat (length vs) = B) ->
  (forall b us, b < B -> Forall unit_draw us -> ~ run_program watch_all n (element_params ps b) p us (element n w b) SOutside) ->
  runs (b_circuit_update n B L ps c) w (fun o =>
    match o with
    | HDone _ w' => exists use, separate B use /\ forall b L' w1, b < B -> lanes_ok L' -> same_state n w1 (element n w b) ->
        (forall k, unit_draw (w_rand w1 k)) -> (forall i k, nth_error (use b) i = Some k -> w_rand w1 i = bw_rand w k) ->
        runs (circuit_update n L' (element_params ps b) c) w1 (done (fun _ w1' => same_state n w1' (element n w' b)))
    | HThrown w' => exists b us, b < B /\ Forall unit_draw us /\ forall L' w1, lanes_ok L' -> same_state n w1 (element n w b) ->
        (forall k, unit_draw (w_rand w1 k)) -> (forall i u, nth_error us i = Some u -> w_rand w1 i = u) ->
        runs (circuit_update n L' (element_params ps b) c) w1 (fun o1 => exists w1', o1 = HThrown w1' /\ same_state n w1' (element n w' b))
    | HUndefined => False
    end).
Proof.
  intros Hsz HB Hc Hun Hv Hr Hu Hps Hsafe. assert (Hn : n < 64) by apply Hsz. eapply runs_weaken.
  - apply (b_circuit_runs n B L ps c p w); auto. intros b us Hb Hus Hx. apply (Hsafe b us Hb Hus). now apply (watch_same n _ c p us _ _ Hc Hun).
  - assert (Hdet : forall b L' w1 us o, b < B -> lanes_ok L' -> same_state n w1 (element n w b) -> (forall k, unit_draw (w_rand w1 k)) ->
      us = map (w_rand w1) (seq 0 (length us)) -> run_program watch_unconditional n (element_params ps b) p us (element n w b) o ->
      runs (circuit_update n L' (element_params ps b) c) w1 (fun o1 => ends_as n o1 o)).
    { intros b L' w1 us o Hb HL Hs Hu1 Hus Hrun. apply (watch_same n _ c p us _ _ Hc Hun) in Hrun. eapply runs_weaken.
      - apply (circuit_runs n L' _ c p w1 (element n w b)); auto.
      - intros o1 (us1 & so & H1 & [H2 _] & H3). unfold run_program in *. destruct (existsb _ _); [destruct H1 as [_ ->]; now destruct Hrun as [_ ->]|].
        destruct (instantiate (element_params ps b) p) as [l|] eqn:El; [|destruct H1 as [_ ->]; now destruct Hrun as [_ ->]].
        destruct (exec_deterministic watch_all n l (instantiate_proper _ p _ l (proj1 Hc) El) [] (w_rand w1) us us1 _ o so Hus H2 Hrun H1) as [_ ->]. exact H3. }
    assert (Hel : forall w1 w' b s', same_state n w1 s' -> is_element n w' b s' -> same_state n w1 (element n w' b)).
    { intros w1 w' b s' [H1 H2] [H3 H4]. split; [intros x Hx; now rewrite H1, H3|congruence]. }
    intros [[] w'|w'|].
    + intros (_ & use & Hsep & Hall). exists use. split; [assumption|]. intros b L' w1 Hb HL Hs Hu1 Huse. destruct (Hall b Hb) as (s' & Hrun & Hs').
      eapply runs_weaken; [apply (Hdet b L' w1 _ _ Hb HL Hs Hu1) with (2 := Hrun)|].
      * apply used_prefix. intros i x Hx. rewrite nth_error_map in Hx. destruct (nth_error (use b) i) as [k|] eqn:Ek; [|discriminate]. injection Hx as <-. now apply Huse.
      * intros [[] w1'|w1'|] H; cbn [ends_as] in H; try contradiction. cbn [done]. now apply Hel with s'.
    + intros (b & us & s' & Hb & Hus & Hrun & Hs'). exists b, us. split; [assumption|]. split; [assumption|]. intros L' w1 HL Hs Hu1 Huse.
      eapply runs_weaken; [apply (Hdet b L' w1 _ _ Hb HL Hs Hu1) with (2 := Hrun)|].
      * now apply used_prefix.
      * intros [[] w1'|w1'|] H; cbn [ends_as] in H; try contradiction. exists w1'. split; [reflexivity|]. now apply Hel with s'.
    + auto.
Qed.
