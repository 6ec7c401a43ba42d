(** Batched circuits: what does not hold, and examples. *)
From Verif Require Export CircuitProofs17.
From Verif Require Import CircuitProofs10.
From Coq Require Import ZifyBool ZifyN ZifyNat Permutation Lra.

(** ** Gates with a buffer of their own have no effect on a view *)
Lemma buffered_runs n L g w : n < 64 -> lanes_ok L -> gate_wf g -> gate_fits n g -> stays g = false -> w_home w = None ->
  runs (elem_update n L g) w (done (fun _ w' => w_home w' = Some (w_amp w) /\ w_reg w' = w_reg w /\ w_rand w' = w_rand w)).
Proof.
  intros Hn HL Hw Hf Hst Hh. assert (Hs : sizes_ok n 1 L).
  { split; [assumption|]. split; [|assumption]. rewrite N.mul_1_l. apply N.pow_le_mono_r; lia. }
  destruct (update_correct' n 1 L g (w_amp w) Hw Hf Hs) as (p & Hp & Hu). rewrite N.mul_1_l in Hp, Hu.
  unfold elem_update. rewrite Hp. cbn [hlift]. eapply returns_bind; [apply runs_ret; reflexivity|].
  assert (Hb : exists ks, p = Buffered ks).
  { destruct g; cbn [stays update_plan] in Hst, Hp; try discriminate; destruct (within_bounds n _); try discriminate.
    - destruct ((m_rows M =? 1) && _); [discriminate|]. destruct ((m_rows M =? 2) && _); [discriminate|]. destruct ((m_rows M =? 4) && _); [discriminate|].
      injection Hp as <-. eauto.
    - injection Hp as <-. eauto. }
  destruct Hb as [ks ->]. destruct Hu as [H1 H2]. split.
  - intros o (junk & scheds & Ho). specialize (H1 junk scheds). destruct (run_plan _ _ junk scheds (w_amp w)) as [r| | |]; try contradiction.
    subst o. rewrite Hh. cbn [done w_home w_reg w_rand]. auto.
  - destruct (H2 (fun _ => C0)) as (scheds & r & Hr). eexists. exists (fun _ => C0), scheds. rewrite Hr. reflexivity.
Qed.
Lemma reg_set_same {T} (l : list T) : forall k x, nth_error l k = Some x -> reg_set l k x = l.
Proof. induction l as [|y l IH]; intros [|k] x H; cbn in *; try discriminate; [now injection H as ->|]. f_equal. now apply IH. Qed.
Lemma lost_view n L g B b w : n < 64 -> lanes_ok L -> gate_wf g -> gate_fits n g -> stays g = false -> registers_ok B w -> b < B ->
  runs (on_view n b (cgate_update n L (CElem (true, g)))) w (done (fun _ w' =>
    (forall a, bw_amp w' a = bw_amp w a) /\ bw_regs w' = bw_regs w /\ forall k, bw_rand w' k = bw_rand w k)).
Proof.
  intros Hn HL Hw Hf Hst [Hr1 Hr2] Hb. destruct (nth_error (br_regs (bw_regs w)) (N.to_nat b)) as [reg|] eqn:Er; [|apply nth_error_None in Er; lia].
  assert (Hget : breg_get (bw_regs w) b = Ok reg) by (unfold breg_get; now rewrite Er).
  destruct (buffered_runs n L g (World (fun i => bw_amp w (at_row n b i)) None reg (bw_rand w)) Hn HL Hw Hf Hst eq_refl) as [Ho (o1 & Ho1)]. split.
  - intros o Hon. unfold on_view in Hon. rewrite Hget in Hon. destruct Hon as (o' & Hp & ->). specialize (Ho o' Hp). destruct o' as [[] w1|w1|]; try contradiction.
    cbn [done] in *. destruct Ho as (H1 & H2 & H3). unfold after_view. rewrite H1, H2, H3. cbn [bw_amp bw_regs bw_rand w_amp w_reg w_rand]. split; [|split].
    + intros a. unfold put_row. destruct (N.eqb_spec (a / 2 ^ n) b) as [E|]; [|reflexivity]. f_equal. unfold at_row. rewrite <- E.
      pose proof (N.div_mod a (2 ^ n) ltac:(apply N.pow_nonzero; lia)). lia.
    + unfold breg_set. rewrite (reg_set_same _ _ _ Er). now destruct (bw_regs w).
    + reflexivity.
  - eexists. unfold on_view. rewrite Hget. exists o1. split; [exact Ho1|]. reflexivity.
Qed.
Theorem conditional_lost n B L ps g f w : n < 64 -> lanes_ok L -> gate_wf g -> gate_fits n g -> stays g = false -> registers_ok B w ->
  required_n_qubits (Circuit [IGate (CElem (true, g))] [Some f]) <= n -> (forall r, In r (br_regs (bw_regs w)) -> exists v, f r = Ok v) ->
  runs (b_circuit_update n B L ps (Circuit [IGate (CElem (true, g))] [Some f])) w (done (fun _ w' =>
    (forall a, bw_amp w' a = bw_amp w a) /\ bw_regs w' = bw_regs w)).
Proof.
  intros Hn HL Hw Hf Hst Hr Hreq Hc. unfold b_circuit_update. replace (required_n_qubits _ <=? n) with true by lia. cbn [hcheck].
  eapply b_runs_bind_ret; [apply runs_ret; reflexivity|]. eapply b_runs_bind_ret; [apply runs_get; reflexivity|].
  rewrite (proj1 Hr), N.eqb_refl. cbn [hcheck]. eapply b_runs_bind_ret; [apply runs_ret; reflexivity|]. cbn [keys c_gates flat_map app forallb hcheck].
  eapply b_runs_bind_ret; [apply runs_ret; reflexivity|]. cbn [c_conds b_run_items].
  eapply runs_bind_done with (P := fun _ w' => (forall a, bw_amp w' a = bw_amp w a) /\ bw_regs w' = bw_regs w); [|intros [] w' H; now apply runs_ret].
  unfold b_conditional. assert (Hl : forall b, In b (seqN B) -> b < B) by (intros b; apply in_seqN). revert Hl. generalize (seqN B) as l.
  assert (G : forall l, (forall b, In b l -> b < B) -> forall w1, (forall a, bw_amp w1 a = bw_amp w a) /\ bw_regs w1 = bw_regs w ->
    runs (hfor l (fun b => regs <~ hget bw_regs;; reg <~ hlift (breg_get regs b);; go <~ hlift (f reg);;
      (if go then on_view n b (cgate_update n L (CElem (true, g))) else hret tt))) w1 (done (fun _ w' => (forall a, bw_amp w' a = bw_amp w a) /\ bw_regs w' = bw_regs w))).
  { induction l as [|b l IH]; intros Hl w1 [E1 E2]; cbn [hfor]; [now apply runs_ret|].
    assert (Hb : b < B) by (apply Hl; now left).
    assert (Hr1 : registers_ok B w1) by (unfold registers_ok; rewrite E2; exact Hr).
    destruct (nth_error (br_regs (bw_regs w)) (N.to_nat b)) as [reg|] eqn:Er; [|apply nth_error_None in Er; destruct Hr; lia].
    destruct (Hc reg (nth_error_In _ _ Er)) as [v Hv].
    eapply runs_bind_done with (P := fun _ w' => (forall a, bw_amp w' a = bw_amp w a) /\ bw_regs w' = bw_regs w); [|intros [] w' H; apply IH; [intros; apply Hl; now right|assumption]].
    eapply b_runs_bind_ret; [apply runs_get; reflexivity|]. rewrite E2. unfold breg_get. rewrite Er. cbn [hlift]. eapply b_runs_bind_ret; [apply runs_ret; reflexivity|].
    rewrite Hv. cbn [hlift]. eapply b_runs_bind_ret; [apply runs_ret; reflexivity|]. destruct v; [|now apply runs_ret].
    eapply runs_weaken; [apply (lost_view n L g B b w1); auto|]. intros [[] w'|w'|]; cbn [done]; auto. intros (K1 & K2 & K3). split; [intros a; now rewrite K1|congruence]. }
  intros l Hl. apply G; auto.
Qed.
(** X as a sparse matrix *)
Definition ex_csr : csr := Csr 2 [0; 1; 2] [1; 0] [C1; C1].
Lemma ex_csr_ok : csr_ok ex_csr.
Proof. intros r Hr. assert (r = 0 \/ r = 1) as [-> | ->] by (simpl in Hr; lia); vm_compute; (split; [repeat constructor; simpl; intuition discriminate|repeat constructor]). Qed.
Definition ex_sparse : egate := ESparse (GBase 1 0 0) ex_csr.
Lemma ex_sparse_made : make false (CallSparse [0] ex_csr [] []) = Ok ex_sparse.
Proof. reflexivity. Qed.
Theorem lost_refuted : exists c p, circuit_is c p /\ unambiguous p /\ forall psi reg r L, lanes_ok L -> (forall k, unit_draw (r k)) ->
  runs (circuit_update 1 L (fun _ => None) c) (World psi None reg r) (done (fun _ w' => w_amp w' 0 = psi 1 /\ w_amp w' 1 = psi 0)) /\
  runs (b_circuit_update 1 1 L (fun _ => None) c) (BWorld psi (BReg [reg] (N.of_nat (length reg))) r) (done (fun _ w' => bw_amp w' 0 = psi 0 /\ bw_amp w' 1 = psi 1)).
Proof.
  exists (Circuit [IGate (CElem (true, ex_sparse))] [Some (fun _ => Ok true)]), [(SFixed (act_of (CallSparse [0] ex_csr [] [])), Some (fun _ => Ok true))].
  assert (Ha : acts ex_sparse (act_of (CallSparse [0] ex_csr [] []))).
  { apply (acts_factory false); [|exact ex_sparse_made]. split; [apply ex_csr_ok|reflexivity]. }
  assert (Hc : circuit_is (Circuit [IGate (CElem (true, ex_sparse))] [Some (fun _ => Ok true)]) [(SFixed (act_of (CallSparse [0] ex_csr [] [])), Some (fun _ => Ok true))]).
  { split; [|reflexivity]. apply Forall2_cons; [|apply Forall2_nil]. apply represents_gate. now apply stands_act. }
  split; [exact Hc|]. split; [right; repeat constructor|]. intros psi reg r L HL Hu. split.
  - eapply runs_weaken; [apply (circuit_runs 1 L _ _ _ _ (SState psi reg) ltac:(lia) HL Hc)|].
    + split; reflexivity.
    + exact Hu.
    + intros us _ H. unfold run_program in H. cbn [program_operands flat_map fst item_operands] in H. inversion H; subst; try discriminate.
      * match goal with H : exec_list _ _ [] _ _ _ _ |- _ => inversion H end.
      * match goal with H : step _ _ _ _ _ |- _ => inversion H end.
    + intros o (us & so & H & _ & He). unfold run_program in H. cbn in H. inversion H; subst; try discriminate.
      * match goal with H : exec_list _ _ [] _ _ _ _ |- _ => inversion H; subst end.
        match goal with H : step _ _ _ _ _ |- _ => inversion H; subst end.
        destruct o as [[] w'|w'|]; cbn [ends_as] in He; try contradiction. destruct He as [He _]. cbn [done s_psi] in *.
        rewrite !He by (cbn; lia). unfold apply_mat. cbn. unfold csr_sum. change (2 ^ N.of_nat 1) with 2.
        replace (csr_entries ex_csr (N.b2n (N.testbit 0 0) + 2 * 0)) with [(1, C1)] by reflexivity.
        replace (csr_entries ex_csr (N.b2n (N.testbit 1 0) + 2 * 0)) with [(0, C1)] by reflexivity. unfold Csum, Csuml. change (seqN 2) with [0; 1].
        cbn [fold_right fst snd]. change (set_bit 0 0 (N.odd 1)) with 1. change (set_bit 1 0 (N.odd 0)) with 0. change (1 =? 0) with false. change (1 =? 1) with true. change (0 =? 0) with true. change (0 =? 1) with false. split; cbn iota; ring.
      * match goal with H : step _ _ _ _ _ |- _ => inversion H; subst end. exfalso. match goal with H : forall s', SDone _ <> SDone s' |- _ => eapply H; reflexivity end.
  - destruct (acts_spec _ _ Ha) as (qs & fn & E & Hw & _ & Hsem). injection E as <- <-. destruct (Hsem 1 ltac:(lia)) as [Hfit _]; [repeat constructor|].
    eapply runs_weaken; [apply (conditional_lost 1 1 L); auto; try lia|].
    + split; [reflexivity|repeat constructor].
    + vm_compute. discriminate.
    + intros; eauto.
    + intros [[] w'|w'|]; cbn [done]; auto. intros [H _]. now rewrite !H.
Qed.

(** ** Conditional gates skip the check for measured qubits *)
Theorem skipped_check_refuted : exists c p, circuit_is c p /\ views_stay c /\ forall r L, lanes_ok L -> (forall k, unit_draw (r k)) ->
  runs (circuit_update 1 L (fun _ => None) c) (World ex_zero None [false] r) (fun o => exists w', o = HThrown w') /\
  runs (b_circuit_update 1 1 L (fun _ => None) c) (BWorld ex_zero (BReg [[false]] 1) r) (done (fun _ w' => True)).
Proof.
  set (f := Some (fun _ : list bool => Ok true)).
  set (c := Circuit [IGate (CMeas 1 0 false); IGate (CElem (true, EStd GX (GBase 1 0 0)))] [None; f]).
  set (p := [(SFixed (Meas 0 0 false), None); (SFixed (act_of (Call1 GX 0 [] [])), f)] : program).
  assert (Hc : circuit_is c p).
  { split; [|reflexivity]. apply Forall2_cons; [|apply Forall2_cons; [|apply Forall2_nil]]; apply represents_gate; [now apply stands_measure|]. exact (noise1_stands GX 0 eq_refl). }
  assert (Hv : views_stay c).
  { intros i f0 Hin Hor. destruct Hin as [[= <- <-]|[[= <- <-]|[]]]; reflexivity. }
  assert (Hk : norm_kept 1 (fun _ => None) p).
  { assert (Hf : cond_defined f) by (intros r; discriminate). assert (H0 : cond_defined None) by (intros r; discriminate).
    repeat apply Forall_cons; [| |apply Forall_nil]; (split; [assumption|]); cbn [fst snd item_gate]; intros g [= <-]; [reflexivity|].
    apply (unitary_act_keeps 1 true _ (EStd GX (GBase 1 0 0))); try reflexivity; try exact I. repeat constructor. }
  assert (H1 : sqnorm 1 ex_zero = 1%R) by (unfold sqnorm, Rsuml; cbn; unfold Cnorm2, Re, Im, C0, C1; simpl; ring).
  assert (Hst : forall us o, Forall unit_draw us -> step 1 (Meas 0 0 false) us (SState ex_zero [false]) o -> exists s, o = SDone s).
  { intros us o Hus H. destruct o as [s|s|]; [eauto| |].
    - exfalso. inversion H as [| |? ? ? ? Hb|? ? ? ? Hb Hn|]; subst. revert Hb. cbn. lia.
    - exfalso. exact (step_normalised 1 (Meas 0 0 false) ltac:(cbn; lia) us (SState ex_zero [false]) _ Hus H1 H). }
  exists c, p. split; [exact Hc|]. split; [exact Hv|]. intros r L HL Hu. split.
  - eapply runs_weaken; [apply (circuit_runs 1 L _ c p _ (SState ex_zero [false]) ltac:(lia) HL Hc)|].
    + split; reflexivity.
    + exact Hu.
    + intros us Hus. apply program_inside; auto.
    + intros o (us & so & H & [Hus _] & He). cbn [w_rand] in Hus. assert (Hd : Forall unit_draw us).
      { rewrite Hus. apply Forall_forall. intros x Hx. apply in_map_iff in Hx. destruct Hx as (k & <- & _). apply Hu. }
      clear Hus. unfold run_program in H. cbn [p program_operands flat_map fst item_operands operands app act_of call_operands] in H. cbn in H.
      assert (Hso : exists s, so = SThrown s).
      { inversion H as [|? ? ? ? ? ? ? Hh|? ? ? ? ? Hh|? ? ? ? ? Hh|? ? ? ? ? Hh Hw Ht|? ? ? ? u1 v1 ? s1 ? Hh Ht Hs He'|? ? ? ? ? ? ? Hh Ht Hs Hno]; subst; try discriminate.
        - cbn [watch_all unreset_after] in He'. inversion He'; subst; try discriminate; try (eexists; reflexivity).
          + match goal with H : watch_all _ = true -> _ |- _ => specialize (H eq_refl); discriminate H end.
          + match goal with H : watch_all _ = true -> _ |- _ => specialize (H eq_refl); discriminate H end.
        - exfalso. destruct (Hst us so Hd Hs) as [s ->]. now apply (Hno s). }
      destruct Hso as [s ->]. destruct o as [[] w'|w'|]; try contradiction. eauto.
  - eapply runs_weaken; [apply (b_circuit_runs 1 1 L _ c p)|]; auto.
    + split; [lia|]. split; [|exact HL]. rewrite N.mul_1_l. apply N.pow_le_mono_r; lia.
    + lia.
    + split; [reflexivity|repeat constructor].
    + intros key (g & c0 & [Hk'|[Hk'|[]]]); discriminate Hk'.
    + intros b us Hb Hus. replace b with 0 by lia. apply program_inside; auto.
    + intros [[] w'|w'|]; cbn [done]; auto. intros (b & us & s' & Hb & Hus & H & _). replace b with 0 in H by lia.
      unfold run_program in H. cbn [p program_operands flat_map fst item_operands operands app act_of call_operands] in H. cbn in H.
      inversion H as [|? ? ? ? ? ? ? Hh|? ? ? ? ? Hh|? ? ? ? ? Hh|? ? ? ? ? Hh Hw Ht|? ? ? ? u1 v1 ? s1 ? Hh Ht Hs He'|? ? ? ? ? ? ? Hh Ht Hs Hno]; subst; try discriminate.
      * cbn [watch_unconditional unreset_after] in He'. inversion He'; subst; try discriminate.
        -- match goal with H : exec_list _ _ [] _ _ _ _ |- _ => inversion H end.
        -- match goal with H : step _ (act_of _) _ _ _ |- _ => inversion H end.
      * destruct (Hst us _ Hus Hs) as [s [=]].
Qed.
Lemma batch_example : sizes_ok 2 3 8 /\ circuit_is (build ex_calls) ex_program /\ views_stay (build ex_calls) /\
  registers_ok 3 (BWorld (fun a => ex_zero (a mod 4)) (BReg [[false]; [true]; [false]] 1) (fun _ => 0%R)) /\
  forall b us, b < 3 -> Forall unit_draw us ->
    ~ run_program watch_unconditional 2 (element_params (fun _ => Some [1; 1; 1]%R) b) ex_program us
        (element 2 (BWorld (fun a => ex_zero (a mod 4)) (BReg [[false]; [true]; [false]] 1) (fun _ => 0%R)) b) SOutside.
Proof.
  split; [split; [lia|split; [discriminate|right; exists 3; split; [lia|reflexivity]]]|]. split; [apply ex_built|]. split.
  { intros i f0 Hin _. destruct Hin as [[= <- <-]|[[= <- <-]|[[= <- <-]|[[= <- <-]|[]]]]]; reflexivity. }
  split; [split; [reflexivity|repeat constructor]|]. intros b us Hb Hus. apply program_inside; auto.
  - unfold norm_kept, ex_program. assert (H1 : cond_defined (Some (bit_cond 0 true))).
    { intros r. cbn [holds]. unfold bit_cond, reg_read. destruct r as [|b0 r]; discriminate. }
    assert (Hc : cond_defined None) by (intros r; discriminate).
    repeat apply Forall_cons; [| | | |apply Forall_nil]; (split; [assumption|]); cbn [fst snd item_gate]; intros g; [intros [= <-]|intros [= <-]|intros [= <-]|destruct (element_params _ _ _) as [v|]; [intros [= <-]|discriminate]].
    + apply (unitary_act_keeps 2 true _ ex_H); try reflexivity; try exact I. repeat constructor.
    + reflexivity.
    + apply (unitary_act_keeps 2 true _ ex_X); try reflexivity; try exact I. repeat constructor.
    + apply (unitary_act_keeps 2 true _ (pgate_at ex_RX v)); try reflexivity; try exact I. repeat constructor.
  - rewrite <- ex_zero_norm. apply sqnorm_ext. intros x Hx. unfold element. cbn [s_psi bw_amp]. f_equal. change (2 ^ 2) with 4 in *.
    rewrite N.add_comm, N.mod_add by lia. now apply N.mod_small.
Qed.
