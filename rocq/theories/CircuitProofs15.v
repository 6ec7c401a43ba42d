(** Batched gates. *)
From Verif Require Export CircuitProofs14.
From Coq Require Import ZifyBool ZifyN ZifyNat Permutation Lra.

Lemma flat_runs D p w psi' : updates_to D p (bw_amp w) psi' ->
  runs (hflat (hplan D p)) w (done (fun _ w' => (forall a, a < D -> bw_amp w' a = psi' a) /\ bw_regs w' = bw_regs w /\ bw_rand w' = bw_rand w)).
Proof.
  intros H. destruct (plan_runs D p (World (bw_amp w) None [] (bw_rand w)) psi' H) as [H1 [o1 H2]]. split.
  - intros o (o' & Ho & ->). specialize (H1 o' Ho). destruct o' as [t w1|w1|]; try contradiction. cbn [done] in *.
    destruct H1 as (K1 & _ & K2 & _). cbn [bw_amp bw_regs bw_rand]. cbn [w_rand] in K2. auto.
  - eexists. exists o1. split; [exact H2|reflexivity].
Qed.
Lemma acts_all n B w w' bs sg fs : bmatch n B w bs -> bw_regs w' = bw_regs w -> bw_rand w' = bw_rand w ->
  (forall b, b < B -> exists qs, sg b = Act qs (fs b)) ->
  (forall b x, b < B -> x < 2 ^ n -> bw_amp w' (at_row n b x) = fs b (s_psi (bs b)) x) ->
  all n B w bs (fun b => step n (sg b)) (HDone tt w').
Proof.
  intros [HB Hm] Hr Hd Hs Ha. exists 0%nat, (fun _ => []), (fun b => SState (fs b (s_psi (bs b))) (s_reg (bs b))).
  split; [split; [constructor|intros ? ? ? ? ? []]|]. split; [intros ? ? ? []|]. split; [intros i; now rewrite Hd|]. split.
  - split; [now rewrite Hr|]. intros b Hb. destruct (Hm b Hb) as (_ & K1 & K2). split; [intros x Hx; now apply Ha|]. rewrite Hr. auto.
  - intros b Hb. destruct (Hs b Hb) as (qs & ->). apply step_act.
Qed.
Lemma row_sem n g (M : state) b x : gate_wf g -> gate_fits n g -> x < 2 ^ n ->
  gate_sem g M (at_row n b x) = gate_sem g (fun i => M (at_row n b i)) x.
Proof.
  intros Hw Hf Hx. unfold gate_sem. apply (apply_mat_batch _ _ _ M n b x); [apply bits_NoDup| |assumption].
  pose proof (gate_ops_wf n g Hw Hf) as Hops. exact (proj2 Hops).
Qed.
Lemma elem_sem_row n g (M : state) b s : gate_wf g -> gate_fits n g -> (forall x, x < 2 ^ n -> M (at_row n b x) = s_psi s x) ->
  forall x, x < 2 ^ n -> gate_sem g (fun i => M (at_row n b i)) x = gate_sem g (s_psi s) x.
Proof. intros Hw Hf H x Hx. apply (gate_sem_ext n 1); try assumption; rewrite N.mul_1_l; assumption. Qed.
Lemma b_elem_runs n B L g sg w bs : sizes_ok n B L -> acts g sg -> Forall (fun q => q < n) (operands sg) -> bmatch n B w bs ->
  runs (b_elem_update n B L g) w (all n B w bs (fun _ => step n sg)).
Proof.
  intros Hs Ha HF Hm. destruct (acts_spec g sg Ha) as (qs & f & -> & Hw & Ho & Hsem). assert (Hn : n < 64) by apply Hs.
  destruct (Hsem n Hn HF) as [Hfit Hf]. destruct (update_correct' n B L g (bw_amp w) Hw Hfit Hs) as (p & Hp & Hu).
  unfold b_elem_update. rewrite Hp. cbn [hlift].
  assert (Hr : runs (hflat (hplan (B * 2 ^ n) p)) w (all n B w bs (fun _ => step n (Act qs f)))).
  { eapply runs_weaken; [apply (flat_runs _ _ _ _ Hu)|]. intros [[] w'|w'|]; cbn [done]; try contradiction. intros (H1 & H2 & H3).
    apply (acts_all n B w w' bs (fun _ => Act qs f) (fun _ => f) Hm H2 H3).
    - intros b Hb. now exists qs.
    - intros b x Hb Hx. rewrite H1 by now apply row_lt. rewrite row_sem by assumption. rewrite Hf. destruct Hm as [_ Hm].
      apply (elem_sem_row n g); auto. exact (proj1 (Hm b Hb)). }
  destruct Hr as [R1 [o R2]]. split.
  - intros o' (o1 & (o2 & E & Ho2) & ->). unfold hret in E. subst o2. apply R1. exists o1. split; [exact Ho2|reflexivity].
  - destruct R2 as (o1 & R2 & R3). exists o, o1. split; [|exact R3]. exists (HDone p (World (bw_amp w) None [] (bw_rand w))). split; [reflexivity|exact R2].
Qed.

Lemma runs_ret_inv {W T U} (t : T) (k : T -> host W U) w Q : runs (hbind (hret t) k) w Q -> runs (k t) w Q.
Proof.
  intros [H1 (o & H2)]. split.
  - intros o' Ho'. apply H1. exists (HDone t w). split; [reflexivity|exact Ho'].
  - destruct H2 as (o1 & E & H2). rewrite E in H2. now exists o.
Qed.
Lemma runs_get_inv {W T U} (f : W -> T) (k : T -> host W U) w Q : runs (hbind (hget f) k) w Q -> runs (k (f w)) w Q.
Proof.
  intros [H1 (o & H2)]. split.
  - intros o' Ho'. apply H1. exists (HDone (f w) w). split; [reflexivity|exact Ho'].
  - destruct H2 as (o1 & E & H2). rewrite E in H2. now exists o.
Qed.
Lemma runs_throw_bind {W T U} (k : T -> host W U) w (Q : houtcome W U -> Prop) : Q (HThrown w) -> runs (hbind hthrow k) w Q.
Proof.
  intros H. eapply runs_bind; [apply runs_throw; instantiate (1 := fun o => o = HThrown w); reflexivity|intros ? ? [=]|intros ? [= ->]; exact H|intros [=]].
Qed.
Lemma b_measurement_runs n B L q bit reset w bs : n < 64 -> lanes_ok L -> 0 < B -> q < n -> bmatch n B w bs -> bdraws w ->
  (forall b, b < B -> safe (step n (Meas q bit reset)) (bs b)) ->
  runs (b_measurement_update n B L (2 ^ q) bit reset) w (all n B w bs (fun _ => step n (Meas q bit reset))).
Proof.
  intros Hn HL HB Hq Hm Hd Hs. unfold b_measurement_update.
  assert (Hwb : within_bounds n (GBase (2 ^ q) 0 0) = true).
  { apply (within_bounds_iff n (GBase (2 ^ q) 0 0) Hn). cbn. split; [apply N.pow_lt_mono_r; lia|apply N.neq_0_lt_0, N.pow_nonzero; lia]. }
  rewrite Hwb. cbn [hcheck]. eapply b_runs_bind_ret; [apply runs_ret; reflexivity|]. eapply b_runs_bind_ret; [apply runs_get; reflexivity|].
  pose proof Hm as [HB1 Hm']. rewrite HB1, N.eqb_refl. cbn [hcheck]. eapply b_runs_bind_ret; [apply runs_ret; reflexivity|].
  destruct (N.leb_spec (br_size (bw_regs w)) bit) as [Hb|Hb]; cbn [negb hcheck].
  - apply runs_throw_bind. pose proof (Hm' 0 HB) as (_ & K1 & K2). exists 0, [], (bs 0). split; [assumption|]. split; [constructor|].
    split; [constructor; rewrite K2; assumption|apply Hm'; assumption].
  - eapply b_runs_bind_ret; [apply runs_ret; reflexivity|]. apply for_all_runs; try assumption.
    intros b w1 bs1 Hb1 Eb Hm1 Hd1. apply (view_runs' n B b _ _ w1 bs1 Hb1 Hm1). intros Hsame.
    assert (Hlen : N.of_nat (length (s_reg (bs1 b))) = br_size (bw_regs w)).
    { rewrite Eb. exact (proj2 (proj2 (Hm' b Hb1))). }
    assert (Hmk : make_measurement q bit reset = Ok (CMeas (2 ^ q) bit reset)).
    { unfold make_measurement, vector_to_mask. cbn [vector_to_mask_aux]. destruct (N.leb_spec 64 q) as [|]; [lia|].
      rewrite N.bits_0, shl64_one, N.lor_0_l by assumption. cbn [bindR]. unfold make_base. rewrite N.land_0_r. reflexivity. }
    pose proof (measurement_refines n L q bit reset _ Hn HL Hmk Hq _ _ Hsame Hd1) as Hr. assert (Hsafe : safe (step n (Meas q bit reset)) (bs1 b)) by (rewrite Eb; auto). specialize (Hr Hsafe).
    cbn [cgate_update] in Hr. unfold measurement_update in Hr. rewrite Hwb in Hr. cbn [hcheck] in Hr. apply runs_ret_inv in Hr. apply runs_get_inv in Hr.
    cbn [w_reg view_world] in Hr. replace (negb (N.of_nat (length (s_reg (bs1 b))) <=? bit)) with true in Hr by lia. cbn [hcheck] in Hr. apply runs_ret_inv in Hr.
    exact Hr.
Qed.
Lemma b_cgate_runs n B L g sg w bs : sizes_ok n B L -> 0 < B -> stands g sg -> (match g with CProb _ _ _ => cstays g = true | _ => True end) ->
  Forall (fun q => q < n) (operands sg) -> bmatch n B w bs -> bdraws w -> (forall b, b < B -> safe (step n sg) (bs b)) ->
  runs (b_cgate_update n B L g) w (all n B w bs (fun _ => step n sg)).
Proof.
  intros Hsz HB Hst Hstay HF Hm Hd Hs. destruct Hsz as (Hn & HD & HL). pose proof Hst as Hst0. destruct Hst as [t g sg Ha|q bit reset g Hme|t dist gs ss Hdist Hl H2].
  - cbn [b_cgate_update]. apply b_elem_runs; try assumption. split; [|split]; assumption.
  - apply measurement_mask in Hme. destruct Hme as [_ ->]. cbn [b_cgate_update]. apply b_measurement_runs; try assumption.
    inversion HF; assumption.
  - cbn [b_cgate_update]. apply for_all_runs; try assumption. intros b w1 bs1 Hb1 Eb Hm1 Hd1.
    apply view_runs; try assumption; [|rewrite Eb; auto]. rewrite <- Hstay. apply cgate_refines; assumption.
Qed.
Lemma b_kernel_as D k w Q : runs (hflat (hplan D (InPlace [k]))) w Q -> runs (hflat (hplan D (InPlace [k]))) w Q.
Proof. auto. Qed.
Lemma param_at_nth vs b v : nth_error vs (N.to_nat b) = Some v -> param_at vs b = v.
Proof. intros H. unfold param_at. now apply nth_error_nth. Qed.
Lemma b_pgate_runs' n B L g s vs w bs : sizes_ok n B L -> pstands (inr g) s -> (match g with PProb _ _ _ => pstays g = true | _ => True end) ->
  Forall (fun q => q < n) (operands (s 0%R)) -> N.of_nat (length vs) = B -> bmatch n B w bs -> (match g with PProb _ _ _ => bdraws w | _ => True end) ->
  (forall b, b < B -> safe (step n (s (param_at vs b))) (bs b)) ->
  runs (b_pgate_update n B L g vs) w (all n B w bs (fun b => step n (s (param_at vs b)))).
Proof.
  intros Hsz Hst Hstay HF Hlen Hm Hd Hs. destruct Hsz as (Hn & HD & HL).
  assert (HFv : forall v, Forall (fun q => q < n) (operands (s v))).
  { intros v. apply Forall_forall. intros q Hq. rewrite Forall_forall in HF. apply HF. now apply (pstands_operands g s v 0%R q Hst). }
  assert (Hrow : forall b x, b < B -> x < 2 ^ n -> at_row n b x / 2 ^ n = b /\ at_row n b x mod 2 ^ n = x /\ at_row n b x < B * 2 ^ n).
  { intros b x Hb Hx. rewrite row_div, row_mod by assumption. split; [reflexivity|]. split; [reflexivity|]. now apply row_lt. }
  assert (Hact : forall k psi', (match g with PProb _ _ _ => False | _ => True end) ->
            updates_to (B * 2 ^ n) (InPlace [k]) (bw_amp w) psi' ->
            (forall b x, b < B -> x < 2 ^ n -> gate_wf (pgate_at g (param_at vs b)) -> gate_fits n (pgate_at g (param_at vs b)) ->
               psi' (at_row n b x) = gate_sem (pgate_at g (param_at vs b)) (fun i => bw_amp w (at_row n b i)) x) ->
            runs (b_kernel n B k) w (all n B w bs (fun b => step n (s (param_at vs b))))).
  { intros k psi' Hg Hu Hpsi. unfold b_kernel. eapply runs_weaken; [apply (flat_runs _ _ _ _ Hu)|]. intros [[] w'|w'|]; cbn [done]; try contradiction. intros (H1 & H2 & H3).
    apply (acts_all n B w w' bs (fun b => s (param_at vs b)) (fun b => match s (param_at vs b) with Act _ f => f | _ => fun psi => psi end) Hm H2 H3).
    - intros b Hb. pose proof (pacts_at g s (param_at vs b) Hst Hg) as Ha. destruct (acts_spec _ _ Ha) as (qs & f & -> & _). now exists qs.
    - intros b x Hb Hx. pose proof (pacts_at g s (param_at vs b) Hst Hg) as Ha. destruct (acts_spec _ _ Ha) as (qs & f & E & Hw & _ & Hsem).
      pose proof (HFv (param_at vs b)) as HF'. rewrite E in HF' |- *. destruct (Hsem n Hn HF') as [Hfit Hf]. rewrite H1 by now apply row_lt.
      rewrite (Hpsi b x Hb Hx Hw Hfit). rewrite Hf. apply (elem_sem_row n); auto. destruct Hm as [_ Hm]. exact (proj1 (Hm b Hb)). }
  assert (Hfit0 : match g with PProb _ _ _ => False | _ => True end -> gate_wf (pgate_at g 0) /\ gate_fits n (pgate_at g 0)).
  { intros Hg. pose proof (pacts_at g s 0%R Hst Hg) as Ha. destruct (acts_spec _ _ Ha) as (qs & f & E & Hw & _ & Hsem). split; [exact Hw|].
    apply Hsem; [assumption|]. rewrite E in HF. exact HF. }
  assert (Hfits : params_fit B vs = hret tt) by (unfold params_fit; replace (B <=? _) with true by lia; reflexivity).
  destruct g as [t k b c|t b p c|t d gs]; cbn [b_pgate_update].
  - destruct (Hfit0 I) as [Hw Hf]. cbn [pgate_at] in Hw, Hf.
    assert (Hwb : within_bounds n b = true) by (apply (within_bounds_iff n b Hn); exact Hf). rewrite Hwb, Hfits. cbn [hcheck].
    eapply b_runs_bind_ret; [apply runs_ret; reflexivity|]. eapply b_runs_bind_ret; [apply runs_ret; reflexivity|].
    eapply Hact; [exact I|apply (b_rot_updates n B k b (fun e => param_at vs e * c)%R (bw_amp w) Hn HD)|].
    + replace (c * 0)%R with 0%R in Hw by ring. exact Hw.
    + replace (c * 0)%R with 0%R in Hf by ring. exact Hf.
    + intros e x He Hx _ _. destruct (Hrow e x He Hx) as (-> & -> & _). cbn [pgate_at]. rewrite (Rmult_comm (param_at vs e) c). reflexivity.
  - destruct (Hfit0 I) as [Hw Hf]. cbn [pgate_at] in Hw, Hf.
    assert (Hwb : within_bounds n b = true) by (apply (within_bounds_iff n b Hn); exact Hf). rewrite Hwb, Hfits. cbn [hcheck].
    eapply b_runs_bind_ret; [apply runs_ret; reflexivity|]. eapply b_runs_bind_ret; [apply runs_ret; reflexivity|].
    eapply Hact; [exact I|apply (b_pauli_rotation_updates n B b p (fun e => c * param_at vs e)%R (bw_amp w) Hn HD)|].
    + replace (c * 0)%R with 0%R in Hw by ring. exact Hw.
    + replace (c * 0)%R with 0%R in Hf by ring. exact Hf.
    + intros e x He Hx _ _. destruct (Hrow e x He Hx) as (-> & -> & _). cbn [pgate_at]. reflexivity.
  - apply for_all_runs; try assumption. intros b w1 bs1 Hb1 Eb Hm1 Hd1.
    destruct (nth_error vs (N.to_nat b)) as [v|] eqn:Ev; [|apply nth_error_None in Ev; lia].
    rewrite (param_at_nth vs b v Ev). apply view_runs; try assumption.
    + rewrite <- Hstay. apply pgate_refines; auto.
    + rewrite Eb. specialize (Hs b Hb1). now rewrite (param_at_nth vs b v Ev) in Hs.
Qed.
Lemma b_pgate_runs n B L g s vs w bs : sizes_ok n B L -> 0 < B -> pstands (inr g) s -> (match g with PProb _ _ _ => pstays g = true | _ => True end) ->
  Forall (fun q => q < n) (operands (s 0%R)) -> N.of_nat (length vs) = B -> bmatch n B w bs -> bdraws w ->
  (forall b, b < B -> safe (step n (s (param_at vs b))) (bs b)) ->
  runs (b_pgate_update n B L g vs) w (all n B w bs (fun b => step n (s (param_at vs b)))).
Proof.
  intros. apply b_pgate_runs'; auto. destruct g; auto.
Qed.
