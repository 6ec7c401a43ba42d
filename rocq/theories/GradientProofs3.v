(** Running one step of the back propagation. *)
From Verif Require Export GradientProofs2.

Lemma call_sem vf k g n : n < 64 -> call_typed k -> make vf k = Ok g -> Forall (fun q => q < n) (call_operands k) ->
  gate_wf g /\ gate_fits n g /\ forall psi x, call_act k psi x = gate_sem g psi x.
Proof.
  intros Hn Hty Hm HF. destruct (acts_spec g (act_of k) (acts_factory vf k g Hty Hm)) as (qs & f & E & Hw & _ & Hsem).
  injection E as <- <-. destruct (Hsem n Hn HF) as [Hfit Hf]. auto.
Qed.
Lemma call_inner vf k g n phi psi : n < 64 -> call_typed k -> make vf k = Ok g -> call_unitary k -> Forall (fun q => q < n) (call_operands k) ->
  inner n (call_act k phi) (call_act k psi) = inner n phi psi.
Proof.
  intros Hn Hty Hm Hun HF. destruct (call_sem vf k g n Hn Hty Hm HF) as (Hw & Hfit & Hf).
  pose proof (make_unitary vf k g Hm Hun) as Hgu. pose proof (call_wf_ops vf k g n Hty Hm HF) as Hops.
  assert (Hg : gate_unitary g -> inner n (call_act k phi) (call_act k psi) = inner n phi psi).
  { intros Hg. rewrite (inner_ext n _ _ (gate_sem g phi) (gate_sem g psi)); [|intros; apply Hf|intros; apply Hf].
    pose proof (gate_ops_wf n g Hw Hfit) as Ho. eapply apply_mat_unitary_inner; [exact Ho|]. cbn [fst gate_ops]. rewrite bits_length. now apply (unitary_correct n g). }
  destruct k; try exact (Hg Hgu); (apply apply_mat_unitary_inner; [assumption|apply Hun]).
Qed.
Definition undoes (n : N) (back forth : state -> state) : Prop :=
  (forall psi x, back (forth psi) x = psi x) /\ forall b phi, inner n (back b) phi = inner n b (forth phi).
Lemma fixed_inverse vf k g n t : n < 64 -> call_typed k -> make vf k = Ok g -> call_unitary k -> call_invertible k -> has_inverse k = true ->
  Forall (fun q => q < n) (call_operands k) ->
  exists g', c_inverse (CElem (t, g)) = Ok (CElem (false, g')) /\ gate_wf g' /\ gate_fits n g' /\ undoes n (gate_sem g') (call_act k).
Proof.
  intros Hn Hty Hm Hun Hinv Hhas HF. destruct (call_sem vf k g n Hn Hty Hm HF) as (Hw & Hfit & Hf).
  pose proof (inverse_available vf k g Hty Hm) as Ha. rewrite Hhas in Ha. destruct Ha as [g' Hg'].
  pose proof (make_inverse_ok vf k g Hm Hinv) as Hio.
  destruct (inverse_wf g g' Hw Hg') as [Hw' Hb].
  exists g'. cbn [c_inverse]. rewrite Hg'. split; [reflexivity|]. split; [assumption|]. split; [unfold gate_fits in *; now rewrite Hb|].
  split.
  - intros psi x. transitivity (gate_sem g' (gate_sem g psi) x); [|apply (gate_sem_inverse n g g' psi x Hn Hw Hfit Hg' Hio)].
    apply apply_mat_ext. intros y. apply Hf.
  - intros b phi. rewrite <- (call_inner vf k g n (gate_sem g' b) phi Hn Hty Hm Hun HF). apply inner_ext; [|reflexivity].
    intros x _. rewrite Hf. apply (gate_sem_inverse n g g' b x Hn Hw Hfit Hg' Hio).
Qed.
Lemma turn_undone k v psi x : plain_turn k -> call_act (pcall_at k (- v)) (call_act (pcall_at k v) psi) x = psi x.
Proof.
  intros Hp. rewrite turn_eq by assumption. set (s := turn_scale k).
  replace (s * - v / 2)%R with (- (s * v / 2))%R by field. rewrite cos_neg, sin_neg. set (a := (s * v / 2)%R).
  assert (Hg : gen k (call_act (pcall_at k v) psi) x = (RtoC (cos a) * gen k psi x - Ci * RtoC (sin a) * psi x)%C).
  { rewrite (gen_ext k _ (fun y => (RtoC (cos a) * psi y + (- Ci * RtoC (sin a)) * gen k psi y)%C)).
    - rewrite gen_lin, gen_square. ring.
    - intros y. rewrite turn_eq by assumption. fold s a. ring. }
  rewrite Hg, turn_eq by assumption. fold s a. pose proof (sin2_cos2 a) as H. unfold Rsqr in H.
  transitivity (RtoC (sin a * sin a + cos a * cos a) * psi x)%C; [|rewrite H; c_eq; simpl; ring].
  destruct (psi x) as [p q], (gen k psi x) as [p' q']. c_eq; simpl; ring.
Qed.
Lemma turn_inverse vf k g n v : n < 64 -> pcall_typed k -> plain_turn k -> make_param vf k = Ok g ->
  Forall (fun q => q < n) (call_operands (pcall_at k 0)) ->
  exists g', p_inverse g = Ok g' /\ gate_wf (pgate_at g' v) /\ gate_fits n (pgate_at g' v) /\
    match g' with PProb _ _ _ => False | _ => True end /\ undoes n (gate_sem (pgate_at g' v)) (call_act (pcall_at k v)).
Proof.
  intros Hn Hty Hp Hm HF. destruct (make_param_at vf k g (- v) Hm) as [Hm' Hg]. destruct (make_param_at vf k g v Hm) as [Hm1 _].
  assert (HF' : forall u, Forall (fun q => q < n) (call_operands (pcall_at k u))) by (intros u; destruct k; exact HF).
  destruct (call_sem vf (pcall_at k (- v)) _ n Hn (pcall_typed_at k _ Hty) Hm' (HF' _)) as (Hw & Hfit & Hf).
  assert (Hinv : exists g', p_inverse g = Ok g') by (destruct g; [eexists; reflexivity|eexists; reflexivity|contradiction]).
  destruct Hinv as [g' Hg']. exists g'. split; [assumption|]. pose proof (p_inverse_at g g' Hg' Hg) as Hrel.
  assert (E : pgate_at g' v = pgate_at g (- v)).
  { destruct g, g'; try contradiction; destruct Hrel as (-> & -> & ->); cbn [pgate_at];
           (replace (pcoef * - v)%R with (- pcoef * v)%R by ring); reflexivity. }
  rewrite E. split; [assumption|]. split; [assumption|]. split; [destruct g, g'; try contradiction; exact I|]. split.
  - intros psi x. rewrite <- Hf. now apply turn_undone.
  - intros b phi. assert (Hun : call_unitary (pcall_at k v)) by (destruct k as [[]|]; cbn; try exact I; apply Hp).
    rewrite <- (call_inner vf (pcall_at k v) _ n (gate_sem (pgate_at g (- v)) b) phi Hn (pcall_typed_at k _ Hty) Hm1 Hun (HF' _)).
    apply inner_ext; [|reflexivity]. intros x _. rewrite <- (turn_undone k (- v) b x Hp). rewrite Ropp_involutive.
    apply apply_mat_ext. intros y. symmetry. apply Hf.
Qed.

(** * Programs on the two states *)
Definition ends_in {T} (n : N) (t0 : T) (s b : state) : houtcome gworld T -> Prop :=
  done (fun t w => t = t0 /\ (forall x, x < 2 ^ n -> gw_state w x = s x) /\ forall x, x < 2 ^ n -> gw_bistate w x = b x).
Lemma on_state_runs {T} (p : host world T) w (P : T -> world -> Prop) : runs p (World (gw_state w) None [] (gw_rand w)) (done P) ->
  runs (on_state p) w (done (fun t w' => exists w1, P t w1 /\ w' = GWorld (w_amp w1) (gw_bistate w) (w_rand w1))).
Proof.
  intros [H1 [o Ho]]. split.
  - intros o' (o1 & Ho1 & ->). specialize (H1 _ Ho1). destruct o1 as [t w1|w1|]; cbn [done] in *; [eauto|contradiction|contradiction].
  - eexists. exists o. split; [exact Ho|reflexivity].
Qed.
Lemma on_bistate_runs {T} (p : host world T) w (P : T -> world -> Prop) : runs p (World (gw_bistate w) None [] (gw_rand w)) (done P) ->
  runs (on_bistate p) w (done (fun t w' => exists w1, P t w1 /\ w' = GWorld (gw_state w) (w_amp w1) (w_rand w1))).
Proof.
  intros [H1 [o Ho]]. split.
  - intros o' (o1 & Ho1 & ->). specialize (H1 _ Ho1). destruct o1 as [t w1|w1|]; cbn [done] in *; [eauto|contradiction|contradiction].
  - eexists. exists o. split; [exact Ho|reflexivity].
Qed.
Lemma on_copy_runs (p : host world unit) w (P : unit -> world -> Prop) : runs p (World (gw_state w) None [] (gw_rand w)) (done P) ->
  runs (on_copy p) w (done (fun a w' => exists w1, P tt w1 /\ a = w_amp w1 /\ w' = GWorld (gw_state w) (gw_bistate w) (w_rand w1))).
Proof.
  intros [H1 [o Ho]]. split.
  - intros o' (o1 & Ho1 & ->). specialize (H1 _ Ho1). destruct o1 as [[] w1|w1|]; cbn [done] in *; [eauto 6|contradiction|contradiction].
  - eexists. exists o. split; [exact Ho|reflexivity].
Qed.
Definition computes_amp (n : N) (f : state -> state) (w : world) : unit -> world -> Prop :=
  fun _ w' => forall a, a < 2 ^ n -> w_amp w' a = f (w_amp w) a.
Lemma elem_runs n L t g w : n < 64 -> lanes_ok L -> gate_wf g -> gate_fits n g ->
  runs (cgate_update n L (CElem (t, g))) w (done (computes_amp n (gate_sem g) w)).
Proof.
  intros Hn HL Hw Hf. eapply runs_weaken; [exact (elem_update_runs n L g w Hn HL Hw Hf)|]. intros [u w'|w'|] H; cbn [done] in *; [exact (proj1 H)|exact H|exact H].
Qed.
Lemma pgate_runs n L g v w : n < 64 -> lanes_ok L -> match g with PProb _ _ _ => False | _ => True end ->
  gate_wf (pgate_at g v) -> gate_fits n (pgate_at g v) ->
  runs (pgate_update n L g v) w (done (computes_amp n (gate_sem (pgate_at g v)) w)).
Proof.
  intros Hn HL Hg Hw Hf. destruct g as [t k b c|t b p c|]; [| |contradiction]; cbn [pgate_at pgate_update] in *.
  - exact (elem_runs n L true _ w Hn HL Hw Hf).
  - assert (Hb : within_bounds n b = true) by (apply (within_bounds_iff n b Hn); exact Hf). rewrite Hb. cbn [hcheck].
    eapply returns_bind; [apply runs_ret; reflexivity|]. unfold hkernel. eapply (elem_as_plan n L (EPauliRotation b p (c * v))); [reflexivity|].
    exact (elem_runs n L true _ w Hn HL Hw Hf).
Qed.
