(** Circuit::optimize returns. *)
From Verif Require Export OptimizeProofs8.
From Coq Require Import ZifyBool ZifyN ZifyNat Permutation Lra.

Section Returns.
  Variables (vf : bool) (mb nq : N).
  Hypothesis Hn : nq < 64.
  Definition usable (g : cgate) : Prop := exists e, g = CElem e /\ made e /\ is_permutation e = false /\ gate_fits nq (snd e).
  Definition ready (st : ost) : Prop := Forall usable (o_pool st) /\ forall q k, o_wait st q = Some k -> (k < length (o_pool st))%nat.

  Lemma mask_olist i : item_mask i < 2 ^ nq -> Forall (fun q => q < nq) (olist i).
  Proof.
    intros H. unfold olist. rewrite mask_to_vector_bits; [now apply bits_lt|]. unfold two64. eapply N.lt_le_trans; [exact H|]. apply N.pow_le_mono_r; lia.
  Qed.
  Lemma usable_mask g : usable g -> item_mask (IGate g) < 2 ^ nq.
  Proof. intros ([b e] & -> & _ & _ & Hf1 & Hf2). cbn [item_mask operand_mask snd] in *. unfold base_operands. now apply lor_u64_pow2. Qed.
  Lemma on_operands_runs {T} i (k : list N -> res T) : item_mask i < 2 ^ nq -> on_operands nq i k = k (olist i).
  Proof.
    intros H. unfold on_operands. destruct (forallb _ _) eqn:E; [reflexivity|]. exfalso. apply not_true_iff_false in E. apply E. apply forallb_forall. intros q Hq.
    pose proof (mask_olist i H) as F. rewrite Forall_forall in F. specialize (F q Hq). lia.
  Qed.
  Lemma set_wait_values qs v w q k : set_wait qs v w q = Some k -> v = Some k \/ w q = Some k.
  Proof. destruct (in_dec N.eq_dec q qs) as [H|H]; [rewrite set_wait_in by assumption; auto|rewrite set_wait_out by assumption; auto]. Qed.
  Lemma ready_at st k : ready st -> (k < length (o_pool st))%nat -> exists g, pool_at st k = Ok g /\ usable g.
  Proof.
    intros [H _] Hk. unfold pool_at. destruct (nth_error (o_pool st) k) as [g|] eqn:Eg; [|apply nth_error_None in Eg; lia]. exists g. split; [reflexivity|].
    rewrite Forall_forall in H. apply H. eapply nth_error_In; eassumption.
  Qed.
  Lemma waiting_valid st qs k : ready st -> In k (waiting qs (o_wait st)) -> (k < length (o_pool st))%nat.
  Proof. intros [_ H] Hk. apply waiting_In in Hk. destruct Hk as (q & _ & Hw). eauto. Qed.
  Lemma push_returns i f st : ready st -> item_mask i < 2 ^ nq -> exists st', o_push nq i f st = Ok st' /\ ready st' /\ o_pool st' = o_pool st.
  Proof.
    intros H Hi. unfold o_push. rewrite on_operands_runs by assumption. eexists. split; [reflexivity|]. split; [|reflexivity]. destruct H as [H1 H2]. split; [exact H1|]. cbn [o_pool o_wait].
    intros q k E. apply set_wait_values in E. destruct E as [E|E]; [discriminate|eauto].
  Qed.
  Lemma push_all_returns ks : forall st, ready st -> Forall (fun k => (k < length (o_pool st))%nat) ks -> exists st', push_all nq ks st = Ok st' /\ ready st' /\ o_pool st' = o_pool st.
  Proof.
    induction ks as [|k ks IH]; intros st H HF; cbn [push_all]; [eauto|]. inversion HF as [|? ? Hk HF']; subst.
    destruct (ready_at st k H Hk) as (g & -> & Hg). cbn [bindR]. destruct (push_returns (IGate g) None st H (usable_mask g Hg)) as (st1 & -> & H1 & E1). cbn [bindR].
    destruct (IH st1 H1) as (st2 & -> & H2 & E2); [now rewrite E1|]. exists st2. split; [reflexivity|]. split; [assumption|congruence].
  Qed.
  Lemma waitfor_returns g st : ready st -> usable g -> exists st', o_waitfor nq g st = Ok st' /\ ready st'.
  Proof.
    intros [H1 H2] Hg. unfold o_waitfor. rewrite on_operands_runs by now apply usable_mask. eexists. split; [reflexivity|]. split; cbn [o_pool o_wait].
    - apply Forall_app. auto.
    - intros q k E. rewrite app_length. cbn [length]. apply set_wait_values in E. destruct E as [[= <-]|E]; [lia|]. specialize (H2 q k E). lia.
  Qed.
  Lemma merge_returns e1 e2 : made e1 -> made e2 -> is_permutation e1 = false -> is_permutation e2 = false -> gate_fits nq (snd e1) -> gate_fits nq (snd e2) ->
    exists e ph, merge_gate vf e1 e2 = Ok (e, ph) /\ made e /\ is_permutation e = false /\ gate_fits nq (snd e).
  Proof.
    intros M1 M2 P1 P2 F1 F2. destruct (merge_good vf e1 e2 nq Hn M1 M2 F1 F2 P1 P2) as (g & phase & delta & E & Hm & (Wg & Fg & _) & _). exists g, phase.
    split; [assumption|]. split; [assumption|]. split; [|now apply Fg]. destruct (merge_origin vf e1 e2 g phase E) as [->|[->|(k & Hk & Hmk & Ht)]]; try assumption.
    apply make_kind in Hmk. destruct g as [t g]. cbn [fst snd] in *. subst t. destruct k; try contradiction; destruct g; try contradiction; reflexivity.
  Qed.
  Lemma merge_all_returns ks : forall g st, ready st -> usable g -> Forall (fun k => (k < length (o_pool st))%nat) ks ->
    exists g' st', merge_all vf ks g st = Ok (g', st') /\ usable g' /\ ready st'.
  Proof.
    induction ks as [|k ks IH]; intros g st H Hg HF; cbn [merge_all]; [eauto|]. inversion HF as [|? ? Hk HF']; subst.
    destruct (ready_at st k H Hk) as (h & -> & (e1 & -> & M1 & P1 & F1)). cbn [bindR]. destruct Hg as (e2 & -> & M2 & P2 & F2). rewrite merge_any_elem.
    destruct (merge_returns e1 e2 M1 M2 P1 P2 F1 F2) as (e & ph & -> & Hm & Hp & Hf). cbn [bindR fst snd].
    apply IH; [exact H|exists e; auto|exact HF'].
  Qed.
  Lemma pool_size_returns st ks : ready st -> Forall (fun k => (k < length (o_pool st))%nat) ks -> forall acc, exists s, pool_size st ks acc = Ok s.
  Proof. intros H HF. induction HF as [|k ks Hk HF IH]; intros acc; cbn [pool_size]; [eauto|]. destruct (ready_at st k H Hk) as (g & -> & _). cbn [bindR]. apply IH. Qed.
  Lemma pure_returns g : usable g -> exists b, is_pure_pauli g = Ok b.
  Proof. intros ([t e] & -> & _). unfold is_pure_pauli. cbn [c_control_mask bindR]. eauto. Qed.
  Lemma all_pure_returns st ks : ready st -> Forall (fun k => (k < length (o_pool st))%nat) ks -> exists b, all_pure st ks = Ok b.
  Proof.
    intros H HF. induction HF as [|k ks Hk HF IH]; cbn [all_pure]; [eauto|]. destruct (ready_at st k H Hk) as (g & -> & Hg). cbn [bindR].
    destruct (pure_returns g Hg) as [[|] ->]; cbn [bindR]; [exact IH|eauto].
  Qed.
  Lemma gate_returns g st : ready st -> usable g -> exists st', o_gate vf mb nq g st = Ok st' /\ ready st'.
  Proof.
    intros H Hg. unfold o_gate, waiting_indices, newly_applied. pose proof (usable_mask g Hg) as Hi. rewrite !on_operands_runs by assumption. cbn [bindR].
    set (ks := waiting _ _). assert (HF : Forall (fun k => (k < length (o_pool st))%nat) ks) by (apply Forall_forall; intros k Hk; now apply (waiting_valid st (olist (IGate g)))).
    clearbody ks. destruct ks as [|k ks']; [now apply waitfor_returns|].
    destruct (pool_size_returns st (k :: ks') H) with (acc := N.of_nat (length (filter (fun q => match o_wait st q with Some _ => false | None => true end) (olist (IGate g))))) as [sz Esz]; [exact HF|].
    cbv beta. rewrite Esz. cbn [bindR]. destruct (pure_returns g Hg) as [pu ->]. cbn [bindR].
    assert (Hap : exists ap, (if pu then all_pure st (k :: ks') else Ok false) = Ok ap) by (destruct pu; [now apply all_pure_returns|eauto]). destruct Hap as [ap ->]. cbn [bindR].
    match goal with |- exists _, bindR ?sp _ = _ /\ _ => assert (Hsp : exists x, sp = Ok x) end.
    { destruct ks'; [|eauto]. inversion HF as [|? ? Hk _]; subst. destruct (ready_at st k H Hk) as (h & -> & ([t1 e1] & -> & _)). destruct Hg as ([t2 e2] & -> & _). cbn [bindR c_control_mask c_control_value_mask]. eauto. }
    destruct Hsp as [x ->]. cbn [bindR]. destruct (_ || _).
    - destruct (merge_all_returns (k :: ks') g st H Hg HF) as (g' & st1 & -> & Hg' & H1). cbn [bindR fst snd]. now apply waitfor_returns.
    - destruct (push_all_returns (k :: ks') st H HF) as (st1 & -> & H1 & _). cbn [bindR]. now apply waitfor_returns.
  Qed.
  Lemma step_returns i f st : ready st -> item_mask i < 2 ^ nq ->
    (f = None -> match i with IGate (CElem e) => made e /\ is_permutation e = false /\ gate_fits nq (snd e) | IGate (CProb v _ _) => v = true | _ => True end) ->
    exists st', o_step vf mb nq i f st = Ok st' /\ ready st'.
  Proof.
    intros H Hi Hw.
    assert (Hfix : exists st', bindR (waiting_indices nq i st) (fun ks => bindR (push_all nq ks st) (fun st' => o_push nq i f st')) = Ok st' /\ ready st').
    { unfold waiting_indices. rewrite on_operands_runs by assumption. cbn [bindR]. destruct (push_all_returns (waiting (olist i) (o_wait st)) st H) as (st1 & -> & H1 & _).
      - apply Forall_forall. intros k Hk. now apply (waiting_valid st (olist i)).
      - cbn [bindR]. destruct (push_returns i f st1 H1 Hi) as (st2 & E & H2 & _). eauto. }
    unfold o_step. destruct f as [c|]; [exact Hfix|]. specialize (Hw eq_refl). destruct i as [g|g key]; [|exact Hfix]. destruct g as [[b e]|t bit r|v d gs]; [|exact Hfix|].
    - assert (Hg : usable (CElem (b, e))) by (exists (b, e); tauto). pose proof (gate_returns _ st H Hg) as Hother. destruct b; [|exact Hother]. destruct e; try exact Hother; [eauto|]. destruct (_ =? _); [eauto|exact Hother].
    - subst v. exact Hfix.
  Qed.
  Lemma loop_returns l : forall fs st, length fs = length l -> ready st -> Forall (fun i => item_mask i < 2 ^ nq) l ->
    (forall i f, In (i, f) (combine l fs) -> f = None -> match i with IGate (CElem e) => made e /\ is_permutation e = false /\ gate_fits nq (snd e) | IGate (CProb v _ _) => v = true | _ => True end) ->
    exists st', o_loop vf mb nq l fs st = Ok st' /\ ready st'.
  Proof.
    induction l as [|i l IH]; intros fs st Hl H HF Hw; cbn [o_loop]; [eauto|]. destruct fs as [|f fs]; [discriminate|]. inversion HF as [|? ? Hi HF']; subst.
    destruct (step_returns i f st H Hi) as (st1 & -> & H1); [intros Hf; apply (Hw i f); [now left|assumption]|]. cbn [bindR]. apply IH; try assumption; [now injection Hl|]. intros j g Hj. apply Hw. now right.
  Qed.
  Lemma take_all_returns st ks : ready st -> Forall (fun k => (k < length (o_pool st))%nat) ks -> exists l, take_all ks st = Ok l.
  Proof. intros H HF. induction HF as [|k ks Hk HF [l IH]]; cbn [take_all]; [eauto|]. destruct (ready_at st k H Hk) as (g & -> & _). cbn [bindR]. rewrite IH. cbn [bindR]. eauto. Qed.
  Lemma finish_returns st : ready st -> exists c', o_finish vf nq st = Ok c'.
  Proof.
    intros H. unfold o_finish. destruct (take_all_returns st (waiting (seqN nq) (o_wait st)) H) as [l ->]; [apply Forall_forall; intros k Hk; now apply (waiting_valid st (seqN nq))|]. cbn [bindR].
    destruct (Rlt_dec _ _); [|cbn [bindR]; eauto]. destruct (make_complete vf (CallGlobalPhase (o_phase st) [] []) I) as [g ->]; [|cbn [bindR]; eauto].
    repeat split; try constructor. reflexivity.
  Qed.
End Returns.

Theorem optimize_returns vf mb n c p : n < 64 -> circuit_is c p -> Forall (fun q => q < n) (program_operands p) -> ordinary c -> no_permutations c ->
  exists c', optimize vf mb c = Ok c'.
Proof.
  intros Hn [Hr Hc] HF Ho Hp. set (nq := required_n_qubits c).
  assert (Hle : nq <= n).
  { assert (Hb : (nq <=? n) = true); [|lia]. unfold nq. rewrite (required_spec c p n) by (split; assumption). apply negb_true_iff, not_true_is_false. rewrite existsb_exists. intros (q & Hq & Hx). rewrite Forall_forall in HF. specialize (HF q Hq). lia. }
  assert (Hops : Forall (fun i => item_mask i < 2 ^ nq) (c_gates c)).
  { assert (Hb : (nq <=? nq) = true) by lia. unfold nq in Hb at 1. rewrite (required_spec c p nq) in Hb by (split; assumption). apply negb_true_iff in Hb.
    clear - Hr Hb. revert p Hr Hb. induction (c_gates c) as [|i l IH]; intros p Hr Hb; constructor.
    - inversion Hr as [|? ? ? ? H1 H2 E1 E2]; subst. destruct p as [|[si f] p]; [discriminate|]. cbn [map fst] in *. injection E2 as -> ->. apply lt_pow2_testbit. intros j Hj. apply not_true_is_false. intros E.
      apply (item_mask_operands i si j H1) in E. apply not_true_iff_false in Hb. apply Hb. apply existsb_exists. exists j. split; [|lia]. unfold program_operands. cbn [flat_map fst]. apply in_app_iff. now left.
    - inversion Hr as [|? ? ? ? H1 H2 E1 E2]; subst. destruct p as [|[si f] p]; [discriminate|]. cbn [map fst] in *. injection E2 as -> ->. apply (IH p H2). apply not_true_is_false. intros E. apply not_true_iff_false in Hb. apply Hb.
      rewrite existsb_exists in *. destruct E as (q & Hq & Hx). exists q. split; [|assumption]. unfold program_operands. cbn [flat_map fst]. apply in_app_iff. now right. }
  unfold optimize. fold nq. destruct (loop_returns vf mb nq) with (l := c_gates c) (fs := c_conds c) (st := o_start) as (st & -> & Hst).
  - lia.
  - rewrite Hc, (Forall2_len _ _ _ Hr), !map_length. reflexivity.
  - split; [constructor|]. cbn [o_start o_wait]. discriminate.
  - exact Hops.
  - intros i f Hi ->. specialize (Ho i None Hi eq_refl). destruct i as [[e|? ? ?|? ? ?]|]; try exact I; [|exact Ho]. destruct Ho as [Hm _]. split; [assumption|]. split; [now apply Hp|].
    apply in_combine_l in Hi. rewrite Forall_forall in Hops. specialize (Hops _ Hi). destruct e as [b e]. cbn [item_mask operand_mask snd] in *. unfold base_operands in Hops. apply lor_lt_iff in Hops. exact Hops.
  - cbn [bindR]. apply finish_returns; [lia|assumption].
Qed.
