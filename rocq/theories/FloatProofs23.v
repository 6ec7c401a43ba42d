(** Circuits with measurements, parameters and choices in rounded arithmetic (C65). *)
From Verif Require Export FloatProofs26.
From Verif Require Import FloatProofs6 FloatProofs8.
From Coq Require Import Lra Lia.
Open Scope R_scope.

Lemma draws_cons w x us : draws w (x :: us) -> x = w_rand w 0%nat /\ forall w', (forall i, w_rand w' i = w_rand w (S i)) -> draws w' us.
Proof.
  unfold draws. cbn [length seq map]. intros [= E1 E2]. split; [exact E1|]. intros w' H. rewrite E2 at 1. rewrite <- seq_shift, map_map. apply map_ext. intros i. symmetry. apply H.
Qed.
Lemma draws_same w w' us : draws w us -> w_rand w' = w_rand w -> draws w' us.
Proof. unfold draws. intros H E. now rewrite E. Qed.
Lemma batch_first n psi x : batch n 0 psi x = psi x.
Proof. reflexivity. Qed.
Lemma Forall2_in_l {X Y} (P : X -> Y -> Prop) l l' x : Forall2 P l l' -> In x l -> exists y, In y l' /\ P x y.
Proof. intros H. induction H as [|a b l l' Hab H IH]; intros []; [subst; exists b; cbn; auto|]. destruct (IH H0) as (y & ? & ?). exists y. cbn. auto. Qed.
(** ** The program the circuit stands for *)
Lemma combine_map_r {X Y Z} (f : Y -> Z) (l : list X) : forall l', combine l (map f l') = map (fun xy => (fst xy, f (snd xy))) (combine l l').
Proof. induction l as [|x l IH]; intros [|y l']; cbn; [reflexivity..|]. now rewrite IH. Qed.
Lemma nth_error_Forall2 {X Y} (P : X -> Y -> Prop) l l' : Forall2 P l l' -> forall i y, nth_error l' i = Some y -> exists x, nth_error l i = Some x /\ P x y.
Proof. intros H. induction H as [|x y l l' Hxy H IH]; intros [|i] z Hz; cbn in *; try discriminate; [injection Hz as <-; eauto|eauto]. Qed.
Section Induct.
  Variables (u : R) (A : arith) (n : N) (P : cgate -> dgate -> Prop).
  Hypothesis Hact : forall t g k, call_ok u A n k g -> P (CElem (t, g)) (DAct k).
  Hypothesis Hmeas : forall q bit reset g, make_measurement q bit reset = Ok g -> (q < n)%N -> P g (DMeas q bit reset).
  Hypothesis Hchoice : forall t dist gs ds, distribution_ok dist -> length dist = length gs -> Forall2 (cmade u A n) gs ds -> Forall2 P gs ds -> P (CProb t dist gs) (DChoice (combine dist ds)).
  Fixpoint cmade_induct g d (H : cmade u A n g d) {struct H} : P g d :=
    match H in cmade _ _ _ g d return P g d with
    | cmade_act t g k H => Hact t g k H
    | cmade_measure q bit reset g H Hq => Hmeas q bit reset g H Hq
    | cmade_choice t dist gs ds Hd Hl H2 =>
      Hchoice t dist gs ds Hd Hl H2
        ((fix go gs ds (H2 : Forall2 (cmade u A n) gs ds) {struct H2} : Forall2 P gs ds :=
          match H2 in Forall2 _ gs ds return Forall2 P gs ds with
          | Forall2_nil => Forall2_nil _
          | Forall2_cons g d _ _ H H2 => Forall2_cons g d (cmade_induct g d H) (go _ _ H2)
          end) gs ds H2)
    end.
End Induct.
Section PInduct.
  Variables (u : R) (A : arith) (n : N) (v : R) (P : cgate + pgate -> dgate -> Prop).
  Hypothesis Hfixed : forall g d, cmade u A n g d -> P (inl g) d.
  Hypothesis Hturn : forall k g, turn_ok A n k g -> P (inr g) (DTurn k v).
  Hypothesis Hchoice : forall t dist gs ds, distribution_ok dist -> length dist = length gs -> Forall2 (pmade u A n v) gs ds -> Forall2 P gs ds -> P (inr (PProb t dist gs)) (DChoice (combine dist ds)).
  Fixpoint pmade_induct g d (H : pmade u A n v g d) {struct H} : P g d :=
    match H in pmade _ _ _ _ g d return P g d with
    | pmade_fixed g d H => Hfixed g d H
    | pmade_turn k g H => Hturn k g H
    | pmade_choice t dist gs ds Hd Hl H2 =>
      Hchoice t dist gs ds Hd Hl H2
        ((fix go gs ds (H2 : Forall2 (pmade u A n v) gs ds) {struct H2} : Forall2 P gs ds :=
          match H2 in Forall2 _ gs ds return Forall2 P gs ds with
          | Forall2_nil => Forall2_nil _
          | Forall2_cons g d _ _ H H2 => Forall2_cons g d (pmade_induct g d H) (go _ _ H2)
          end) gs ds H2)
    end.
End PInduct.
Lemma operands_combine n dist ss : Forall (fun s => Forall (fun q => q < n)%N (operands s)) ss -> Forall (fun q => q < n)%N (operands (Choice (combine dist ss))).
Proof.
  intros H. cbn [operands]. revert dist. induction H as [|s ss Hs H IH]; intros [|d dist]; cbn [combine flat_map]; try constructor. apply Forall_app. split; [exact Hs|apply IH].
Qed.
Lemma cmade_stands u A n g d : cmade u A n g d -> stands g (dgate_of d) /\ Forall (fun q => q < n)%N (operands (dgate_of d)).
Proof.
  intros H. induction H using cmade_induct.
  - destruct H as (Hty & (vf & Hm) & _ & _ & Ho). split; [constructor; now apply (acts_factory vf)|exact Ho].
  - split; [now constructor|]. cbn. auto.
  - cbn [dgate_of]. rewrite <- combine_map_r. assert (H2' : Forall2 stands gs (map dgate_of ds) /\ Forall (fun s => Forall (fun q => q < n)%N (operands s)) (map dgate_of ds)).
    { match goal with K : Forall2 (fun g d => stands g (dgate_of d) /\ _) gs ds |- _ => clear -K; induction K as [|? ? ? ? [K1 K2] K [IH1 IH2]]; cbn; split; constructor; auto end. }
    split; [constructor; tauto|]. apply operands_combine. tauto.
Qed.
Lemma pmade_stands u A n v g d : pmade u A n v g d -> (exists s, pstands g s /\ s v = dgate_of d) /\ Forall (fun q => q < n)%N (operands (dgate_of d)).
Proof.
  intros H. induction H using pmade_induct.
  - apply cmade_stands in H. destruct H as [H1 H2]. split; [|exact H2]. exists (fun _ => dgate_of d). split; [now constructor|reflexivity].
  - destruct H as (Hty & (vf & Hm) & _ & _ & Ho). split; [|destruct k; exact Ho]. exists (fun v => act_of (pcall_at k v)). split; [now apply (pstands_factory vf)|reflexivity].
  - cbn [dgate_of]. rewrite <- combine_map_r.
    assert (H2' : (exists ss, Forall2 pstands gs ss /\ map (fun s => s v) ss = map dgate_of ds) /\ Forall (fun s => Forall (fun q => q < n)%N (operands s)) (map dgate_of ds)).
    { match goal with K : Forall2 (fun g d => (exists s, _) /\ _) gs ds |- _ => clear -K; induction K as [|? ? ? ? [(s & K0 & K1) K2] K [(ss & IH0 & IH1) IH2]]; cbn end.
      - split; [exists []; split; constructor|constructor].
      - split; [|now constructor]. exists (s :: ss). split; [now constructor|]. cbn. now rewrite K1, IH1. }
    destruct H2' as [(ss & K1 & K2) K3]. split; [|now apply operands_combine]. exists (fun v => Choice (combine dist (map (fun s => s v) ss))). split; [now constructor|]. now rewrite K2.
Qed.
Lemma dmade_represents u A n ps i d : dmade u A n ps i d -> (exists si, represents i si /\ item_gate ps si = Some (dgate_of d)) /\ Forall (fun q => q < n)%N (operands (dgate_of d)).
Proof.
  intros [g d' H|g key v d' Hv H].
  - apply cmade_stands in H. destruct H as [H1 H2]. split; [|exact H2]. exists (SFixed (dgate_of d')). split; [now constructor|reflexivity].
  - apply pmade_stands in H. destruct H as [(s & H0 & H1) H2]. split; [|exact H2]. exists (SKeyed key s). split; [now constructor|]. cbn [item_gate]. now rewrite Hv, H1.
Qed.
Lemma dcircuit_program u A n ps c l : dcircuit_is u A n ps c l -> exists p, circuit_is c p /\ instantiate ps p = Some (map (fun gc => (dgate_of (fst gc), snd gc)) l) /\
  Forall (fun gc => Forall (fun q => q < n)%N (operands (dgate_of (fst gc)))) l.
Proof.
  intros [H1 H2]. unfold circuit_is. rewrite H2. clear H2. revert H1. generalize (c_gates c). clear c. induction l as [|[d f] l IH]; intros items H1; inversion H1 as [|i ? items' ? Hi Hr]; subst.
  - exists []. repeat split; constructor.
  - destruct (IH items' Hr) as (p & (K1 & K2) & K3 & K4). destruct (dmade_represents _ _ _ _ _ _ Hi) as [(si & K5 & K6) K7]. cbn [fst] in *. exists ((si, f) :: p). split; [|split].
    + cbn [map fst snd]. split; [now constructor|]. now rewrite K2.
    + cbn [instantiate map fst snd]. now rewrite K6, K3.
    + now constructor.
Qed.
Lemma item_gate_operands ps si g i : represents i si -> item_gate ps si = Some g -> forall q, In q (item_operands si) <-> In q (operands g).
Proof.
  intros H Hg q. destruct H as [g0 s H|g0 key s H]; cbn [item_gate item_operands] in *.
  - injection Hg as ->. reflexivity.
  - destruct (ps key) as [v|]; [|discriminate]. injection Hg as <-. rewrite <- (pstands_mask g0 s v H q), <- (pstands_mask g0 s 0 H q). reflexivity.
Qed.
Lemma required_made u A n ps c l : dcircuit_is u A n ps c l -> (required_n_qubits c <=? n)%N = true.
Proof.
  intros H. destruct (dcircuit_program _ _ _ _ _ _ H) as (p & Hc & Hi & HF). rewrite (required_spec c p n Hc). apply negb_true_iff, not_true_is_false. intros Hex. apply existsb_exists in Hex. destruct Hex as (q & Hq & Hle).
  apply N.leb_le in Hle. enough (q < n)%N by lia. clear Hle H. destruct Hc as [Hc _]. revert Hc. generalize (c_gates c). clear c. revert l Hi HF q Hq. induction p as [|[si f] p IH]; intros l Hi HF q Hq items Hc; [destruct Hq|].
  inversion Hc as [|i ? items' ? Hr Hc']; subst. cbn [instantiate] in Hi. destruct (item_gate ps si) as [g|] eqn:Eg; [|discriminate]. destruct (instantiate ps p) as [l'|] eqn:El; [|discriminate]. destruct l as [|[d f'] l]; [discriminate|].
  cbn [map fst snd] in Hi. injection Hi as -> -> ->. inversion HF as [|? ? HF1 HF2]; subst. unfold program_operands in Hq. cbn [flat_map fst] in Hq. apply in_app_iff in Hq. destruct Hq as [Hq|Hq].
  - apply (item_gate_operands ps si _ i Hr Eg) in Hq. cbn [fst] in HF1. rewrite Forall_forall in HF1. now apply HF1.
  - eapply IH; [reflexivity|exact HF2|exact Hq|exact Hc'].
Qed.
Lemma keys_made u A n ps c l : dcircuit_is u A n ps c l -> forallb (fun k => match ps k with Some _ => true | None => false end) (keys c) = true.
Proof.
  intros [H _]. apply forallb_forall. intros key Hk. unfold keys in Hk. apply in_flat_map in Hk. destruct Hk as (i & Hi & Hk). destruct (Forall2_in_l _ _ _ i H Hi) as (d & _ & Hm).
  destruct Hm as [g d' Hm|g k v d' Hv Hm]; [destruct Hk|]. destruct Hk as [<-|[]]. now rewrite Hv.
Qed.
Section Rounded.
  Variables (u eta : R) (A : arith) (n L : N) (h : nat).
  Hypothesis HA : accurate u eta A.
  Hypothesis Hn : (n < 64)%N.
  Hypothesis HL : lanes_ok L.
  Hypothesis Hh : height_ok u n h.
  Hypothesis Hsg : sign_kept A.
  Variables (e64 : R) (rnd64 : R -> R).

  Lemma act_plan k g w phi d : call_ok u A n k g -> held A (2 ^ n) (w_amp w) -> sqnorm n phi = 1 -> distance n (w_amp w) phi <= d -> d <= 1 ->
    exists p, f_update_plan A n (2 ^ n) L g = Ok p /\ runs (hplan (2 ^ n) p) w (done (fun _ w' =>
      distance n (w_amp w') (apply_mat (call_targets k) (call_controls k) (call_matrix k) phi) <= d + weight k * unit_error u eta n 2 /\
      held A (2 ^ n) (w_amp w') /\ w_reg w' = w_reg w /\ w_rand w' = w_rand w)).
  Proof.
    intros Hk Hw Hphi Hd Hd1. set (Uk := apply_mat (call_targets k) (call_controls k) (call_matrix k)).
    assert (Hs : sizes_ok n 1 L). { split; [assumption|]. split; [|assumption]. rewrite N.mul_1_l. apply N.pow_le_mono_r; lia. }
    pose proof Hk as (Hty & (vf & Hm) & Hun & Hr & Hops).
    destruct (call_close u eta A vf k g n 1 L (w_amp w) HA Hty Hm Hr Hops Hs) as (r & (p & Hp & Hu) & Hdr). specialize (Hdr 0%N ltac:(lia)). fold Uk in Hdr.
    rewrite N.mul_1_l in Hp, Hu. exists p. split; [exact Hp|].
    eapply runs_weaken; [apply (plan_runs _ _ _ _ Hu)|]. intros [t w'|w'|]; cbn; try tauto. intros (H1 & H2 & H3 & _). split; [|split; [|tauto]].
    - rewrite (distance_ext n (w_amp w') (batch n 0 r) (Uk phi) (Uk phi)) by (intros x Hx; rewrite ?batch_first; auto).
      eapply Rle_trans; [apply (distance_tri n _ (Uk (batch n 0 (w_amp w))))|]. unfold Uk at 2 3. rewrite (act_distance u A n k g _ _ Hn Hk). fold Uk.
      rewrite (distance_ext n (batch n 0 (w_amp w)) (w_amp w) phi phi) by (intros x Hx; rewrite ?batch_first; auto).
      rewrite (vnorm_ext n (batch n 0 (w_amp w)) (w_amp w)) in Hdr by (intros x Hx; now rewrite batch_first).
      assert (Hv1 : vnorm n phi = 1) by (unfold vnorm; rewrite Hphi; apply sqrt_1). pose proof (vnorm_distance n (w_amp w) phi) as Hv.
      assert (unit_error u eta n (vnorm n (w_amp w)) <= unit_error u eta n 2). { unfold unit_error. apply Rplus_le_compat_r. apply Rmult_le_compat_l; [apply (acc_u _ _ _ HA)|lra]. }
      assert (weight k * unit_error u eta n (vnorm n (w_amp w)) <= weight k * unit_error u eta n 2) by (apply Rmult_le_compat_l; [apply weight_nonneg|assumption]). lra.
    - intros x Hx. rewrite H1 by assumption. destruct Hu as [Hu1 Hu2]. destruct (Hu2 (fun _ => C0)) as (scheds & r' & Hr'). specialize (Hu1 (fun _ => C0) scheds). rewrite Hr' in Hu1.
      rewrite <- (Hu1 x Hx). refine (plan_keeps (2 ^ n) (held_number A) p (fun _ => C0) scheds (w_amp w) r' (update_keeps u eta A HA n (2 ^ n) L g p Hp) (fun _ => held_0 u eta A HA) _ Hr' x Hx). intros a Ha. now apply Hw.
  Qed.
  Lemma act_rounded k g w phi d : call_ok u A n k g -> held A (2 ^ n) (w_amp w) -> sqnorm n phi = 1 -> distance n (w_amp w) phi <= d -> d <= 1 ->
    runs (f_elem_update A n L g) w (done (fun _ w' =>
      distance n (w_amp w') (apply_mat (call_targets k) (call_controls k) (call_matrix k) phi) <= d + weight k * unit_error u eta n 2 /\
      held A (2 ^ n) (w_amp w') /\ w_reg w' = w_reg w /\ w_rand w' = w_rand w)).
  Proof.
    intros Hk Hw Hphi Hd Hd1. destruct (act_plan k g w phi d Hk Hw Hphi Hd Hd1) as (p & Hp & Hr). unfold f_elem_update. rewrite Hp. cbn [hlift]. eapply returns_bind; [apply runs_ret; reflexivity|exact Hr].
  Qed.
  Lemma turn_rounded k g v w phi d : turn_ok A n k g -> held A (2 ^ n) (w_amp w) -> sqnorm n phi = 1 -> distance n (w_amp w) phi <= d -> d <= 1 ->
    runs (f_pgate_update A (shallow h) rnd64 n L g v) w (done (fun _ w' =>
      distance n (w_amp w') (call_act (pcall_at k v) phi) <= d + turn_weight k v * unit_error u eta n 2 /\
      held A (2 ^ n) (w_amp w') /\ w_reg w' = w_reg w /\ w_rand w' = w_rand w)).
  Proof.
    intros (Hty & (vf & Hm) & Hpc & Hco & Hops) Hw Hphi Hd Hd1. set (a := f_angle A (pcall_factor k) v). destruct (turned_made vf k g a Hm) as [Hma Hg].
    assert (Hops' : Forall (fun q => q < n)%N (call_operands (turn_by k 0))) by (destruct k; exact Hops).
    assert (Hok : call_ok u A n (turn_by k a) (turned_gate g a)).
    { split; [destruct k; exact Hty|]. split; [now exists vf|]. split; [|split].
      - destruct k as [[]|]; cbn; [exact I..|apply Hco].
      - destruct k as [[]|]; cbn; rewrite Rmult_1_l; [apply (angle_idem u eta A HA)..|]. split; [apply (angle_idem u eta A HA)|exact Hco].
      - destruct k; exact Hops. }
    destruct (act_plan _ _ w phi d Hok Hw Hphi Hd Hd1) as (p & Hp & Hr).
    assert (Hv1 : vnorm n phi = 1) by (unfold vnorm; rewrite Hphi; apply sqrt_1).
    assert (Hfin : forall w', distance n (w_amp w') (call_act (turn_by k a) phi) <= d + weight (turn_by k a) * unit_error u eta n 2 ->
      distance n (w_amp w') (call_act (pcall_at k v) phi) <= d + turn_weight k v * unit_error u eta n 2).
    { intros w' Hw'. eapply Rle_trans; [apply (distance_tri n _ (call_act (turn_by k a) phi))|]. rewrite (pcall_turn k v).
      pose proof (turn_apart n k a (pcall_factor k * v) phi Hops' ltac:(destruct k; [exact I|apply Hco])) as Ht. rewrite Hv1 in Ht. pose proof (turn_total u eta A HA n k v) as Htot. fold a in Htot. lra. }
    assert (Hres : runs (hplan (2 ^ n) p) w (done (fun _ w' =>
      distance n (w_amp w') (call_act (pcall_at k v) phi) <= d + turn_weight k v * unit_error u eta n 2 /\ held A (2 ^ n) (w_amp w') /\ w_reg w' = w_reg w /\ w_rand w' = w_rand w))).
    { eapply runs_weaken; [exact Hr|]. intros [t w'|w'|]; cbn [done]; try tauto. intros (K1 & K2). split; [now apply Hfin|exact K2]. }
    destruct g as [t k0 b pc|t b p0 pc|]; [| |contradiction]; subst pc; cbn [f_pgate_update turned_gate] in *; fold a.
    - unfold f_elem_update. rewrite Hp. cbn [hlift]. eapply returns_bind; [apply runs_ret; reflexivity|exact Hres].
    - destruct (call_sem vf (turn_by k a) _ n Hn (proj1 Hok) Hma (proj2 (proj2 (proj2 (proj2 Hok))))) as (_ & Hfit & _).
      assert (Hb : within_bounds n b = true) by (apply (within_bounds_iff n b Hn); exact Hfit). rewrite Hb. cbn [hcheck]. eapply returns_bind; [apply runs_ret; reflexivity|].
      unfold hkernel. cbn [f_update_plan g_base] in Hp. injection Hp as <-. exact Hres.
  Qed.
  Lemma measurement_rounded q bit reset g w phi d : make_measurement q bit reset = Ok g -> (q < n)%N -> (bit < N.of_nat (length (w_reg w)))%N ->
    held A (2 ^ n) (w_amp w) -> sqnorm n phi = 1 -> distance n (w_amp w) phi <= d -> d <= 1 ->
    let e := measure_error u eta n h d in bit_prob n q false phi <= 1 - e ->
    (forall b, outcome_about e (bit_prob n q false phi) (w_rand w 0%nat) b -> likely u eta n h d (bit_prob n q b phi)) ->
    runs (f_cgate_update A (shallow h) rnd64 n L g) w (done (fun _ w' => exists b,
      outcome_about e (bit_prob n q false phi) (w_rand w 0%nat) b /\ w_reg w' = with_bit (w_reg w) bit b /\
      distance n (w_amp w') (measured n q reset b phi) <= after_measure u eta n h d (bit_prob n q b phi) /\ held A (2 ^ n) (w_amp w') /\
      (forall i, w_rand w' i = w_rand w (S i)))).
  Proof.
    intros Hm Hq Hbit Hw Hphi Hd Hd1 e He Hl. apply measurement_mask in Hm. destruct Hm as [_ ->]. cbn [f_cgate_update]. unfold f_measurement_update.
    rewrite (proj2 (within_bounds_iff n (GBase (2 ^ q) 0 0) Hn)).
    2: { cbn. split; [apply N.pow_lt_mono_r; lia|apply N.neq_0_lt_0, N.pow_nonzero; lia]. }
    cbn [hcheck]. eapply returns_bind; [apply runs_ret; reflexivity|]. eapply returns_bind; [apply runs_get; reflexivity|].
    destruct (N.leb_spec (N.of_nat (length (w_reg w))) bit) as [Hb|_]; [lia|]. cbn [negb hcheck]. eapply returns_bind; [apply runs_ret; reflexivity|].
    eapply runs_bind_done; [apply (measure_rounded u eta A n L h HA Hn HL Hh Hsg q reset w phi d Hq Hw Hphi Hd Hd1 He Hl)|].
    intros z w1 (Ho & Hd2 & Hh2 & _ & Hr & Hra). eapply runs_weaken; [apply with_bit_ok; now rewrite Hr|]. intros o ->. cbn. exists (negb z). rewrite Hr. auto.
  Qed.
  Lemma decides_shown e p r b q psi : p = bit_prob n q false psi -> 0 <= e -> decides e p r -> outcome_about e p r b -> b = shown n q psi r.
  Proof. intros -> He (_ & H) Ho. unfold shown. destruct (Rlt_dec _ _); destruct b; cbn in Ho; [lra|reflexivity|reflexivity|lra]. Qed.

  Lemma measure_error_nonneg d : 0 <= d -> 0 <= measure_error u eta n h d.
  Proof.
    intros Hd. unfold measure_error, sum_error. pose proof (acc_u _ _ _ HA). pose proof (acc_eta _ _ _ HA). pose proof (pos_INR h).
    assert (0 <= (5 * INR h + 9) * u * 4) by (apply Rmult_le_pos; [apply Rmult_le_pos; lra|lra]). assert (0 <= 24 * eta * 2 ^ N.to_nat n) by (apply Rmult_le_pos; [lra|apply pow_le; lra]). lra.
  Qed.
  Hypothesis H64 : adds_doubles e64 rnd64.
  Definition gate_update (v : R) (g : cgate + pgate) : host world unit :=
    match g with inl g => f_cgate_update A (shallow h) rnd64 n L g | inr g => f_pgate_update A (shallow h) rnd64 n L g v end.
  Definition arrives (us : list R) (w : world) (s' : sstate) (d' : R) : unit -> world -> Prop := fun _ w' =>
    distance n (w_amp w') (s_psi s') <= d' /\ w_reg w' = s_reg s' /\ held A (2 ^ n) (w_amp w') /\ sqnorm n (s_psi s') = 1 /\ (forall i, w_rand w' i = w_rand w (length us + i)%nat).
  Lemma gate_rounded : forall dg us s d s' d', gdecided u eta e64 n h dg us s d s' d' -> forall v g w, pmade u A n v g dg -> draws w us ->
    held A (2 ^ n) (w_amp w) -> sqnorm n (s_psi s) = 1 -> distance n (w_amp w) (s_psi s) <= d -> w_reg w = s_reg s ->
    runs (gate_update v g) w (done (arrives us w s' d')).
  Proof.
    intros dg us s d s' d' H. induction H as [k s d Hd1|k v0 s d Hd1 k'|q bit reset x s d Hd1 Hbit Hdec b Hlik|l x dg us s d s' d' Hx Hle Hpick H IH]; intros v g w Hm Hdr Hw Hphi Hd Hreg.
    - inversion Hm as [g0 d0 Hc E1 E2| |]; subst. inversion Hc as [t g1 k0 Hk| |]; subst. cbn [gate_update f_cgate_update].
      eapply runs_weaken; [apply (act_rounded k g1 w (s_psi s) d); assumption|]. intros [? w'|w'|]; cbn [done]; try tauto. intros (K1 & K2 & K3 & K4). unfold arrives. cbn [s_psi s_reg length Nat.add].
      split; [exact K1|]. split; [congruence|]. split; [exact K2|]. split; [|intros i; now rewrite K4].
      pose proof (act_keeps u A n k g1 (s_psi s) Hn Hk) as Hke. rewrite <- vnorm_sq, Hke, vnorm_sq. exact Hphi.
    - inversion Hm as [g0 d0 Hc E1 E2|k0 g0 Hk|]; subst; [inversion Hc|]. cbn [gate_update].
      eapply runs_weaken; [apply (turn_rounded k g0 v0 w (s_psi s) d); assumption|]. intros [? w'|w'|]; cbn [done]; try tauto. intros (K1 & K2 & K3 & K4). unfold arrives. cbn [s_psi s_reg length Nat.add].
      split; [exact K1|]. split; [congruence|]. split; [exact K2|]. split; [|intros i; now rewrite K4].
      destruct Hk as (Hty & (vf & Hmk) & _ & Hco & Hops). destruct (make_param_at vf k g0 v0 Hmk) as [Hmv _].
      assert (Hin : inner n (call_act k' (s_psi s)) (call_act k' (s_psi s)) = inner n (s_psi s) (s_psi s)).
      { apply (call_inner vf k' (pgate_at g0 v0) n); [exact Hn|now apply pcall_typed_at|exact Hmv| |destruct k; exact Hops]. unfold k'. destruct k as [[]|]; cbn; [exact I..|apply Hco]. }
      fold (call_act k'). change (norm2 n (call_act k' (s_psi s)) = norm2 n (s_psi s)) in Hin. rewrite <- !sqnorm_norm2 in Hin. injection Hin as Hin. rewrite Hin. exact Hphi.
    - inversion Hm as [g0 d0 Hc E1 E2| |]; subst. inversion Hc as [|q0 bit0 reset0 g1 Hmk Hq|]; subst. cbn [gate_update]. destruct (draws_cons _ _ _ Hdr) as [-> Hdr'].
      assert (He : 0 <= measure_error u eta n h d). { apply measure_error_nonneg. pose proof (vnorm_nonneg n (fun x => Csub (w_amp w x) (s_psi s x))). unfold distance in Hd. lra. }
      eapply runs_weaken.
      { apply (measurement_rounded q bit reset g0 w (s_psi s) d); try assumption; [now rewrite Hreg|apply Hdec|].
        intros b' Hb'. rewrite (decides_shown _ _ _ b' q (s_psi s) eq_refl He Hdec Hb'). exact Hlik. }
      intros [? w'|w'|]; cbn [done]; try tauto. intros (b' & Hb' & H1 & H2 & H3 & H4). apply (decides_shown _ _ _ b' q (s_psi s) eq_refl He Hdec) in Hb'. fold b in Hb'. subst b'. unfold arrives. cbn [s_psi s_reg length Nat.add].
      split; [exact H2|]. split; [now rewrite H1, Hreg|]. split; [exact H3|]. split; [|exact H4]. apply sqnorm_measured; [exact Hq|]. apply Hlik.
    - destruct (draws_cons _ _ _ Hdr) as [Ex Hdr'].
      set (w1 := World (w_amp w) (w_home w) (w_reg w) (fun k => w_rand w (S k))).
      assert (Hgen : forall (T : Type) (upd : T -> host world unit) (gs : list T) dist ds, distribution_ok dist -> length dist = length ds -> length dist = length gs -> l = combine dist ds ->
        (forall i g, nth_error ds i = Some dg -> nth_error gs i = Some g -> runs (upd g) w1 (done (arrives us w1 s' d'))) ->
        runs (r <~ hdraw;; nth (N.to_nat (f_select_index rnd64 dist r)) (map upd gs) hundefined) w (done (arrives (x :: us) w s' d'))).
      { intros T upd gs dist ds Hdist Hl1 Hl2 El Hup. subst l. destruct (clearly_index e64 rnd64 dist ds gs x dg H64 Hdist Hl1 Hl2 Hx Hle Hpick) as (i & g1 & Ei & E1 & E2).
        eapply runs_bind; [instantiate (1 := fun o => o = HDone (w_rand w 0%nat) w1); split; [intros o ->; reflexivity|eexists; reflexivity]| |intros ? [=]|intros [=]].
        intros t w' [= -> ->]. rewrite <- Ex, Ei, (nth_error_nth (map upd gs) i hundefined (x := upd g1)) by (rewrite nth_error_map, E2; reflexivity).
        exact (Hup i g1 E1 E2). }
      assert (Hw1 : forall v g, pmade u A n v g dg -> runs (gate_update v g) w1 (done (arrives us w1 s' d'))).
      { intros v' g' Hm'. apply IH; try assumption. apply Hdr'. reflexivity. }
      inversion Hm as [g0 d0 Hc E1 E2| |t dist gs ds Hd0 Hl0 H2 E1 E2]; subst.
      + inversion Hc as [| |t dist gs ds Hd0 Hl0 H2 E1 E2]; subst. cbn [gate_update f_cgate_update]. pose proof (Forall2_len _ _ _ H2) as Hlen.
        apply (Hgen cgate (f_cgate_update A (shallow h) rnd64 n L) gs dist ds Hd0 ltac:(congruence) Hl0 eq_refl). intros i g1 Ed Eg. apply (Hw1 0 (inl g1)). constructor. exact (Forall2_nth_error _ _ _ H2 i g1 dg Eg Ed).
      + cbn [gate_update f_pgate_update]. pose proof (Forall2_len _ _ _ H2) as Hlen.
        apply (Hgen (cgate + pgate)%type (gate_update v) gs dist ds Hd0 ltac:(congruence) Hl0 eq_refl). intros i g1 Ed Eg. apply Hw1. exact (Forall2_nth_error _ _ _ H2 i g1 dg Eg Ed).
  Qed.

  Lemma draws_app w us vs : draws w (us ++ vs) -> draws w us /\ forall w', (forall i, w_rand w' i = w_rand w (length us + i)%nat) -> draws w' vs.
  Proof.
    unfold draws. intros H. apply prefix_split in H. destruct H as [H1 H2]. split; [exact H1|]. intros w' Hw'. rewrite H2 at 1. apply map_ext. intros i. symmetry. apply Hw'.
  Qed.
  Lemma items_rounded ps : forall l ms us s d s' d', decided u eta e64 n h l ms us s d s' d' -> forall items mask w, Forall2 (dmade u A n ps) items (map fst l) ->
    (forall q, N.testbit mask q = true <-> In q ms) -> draws w us -> held A (2 ^ n) (w_amp w) -> sqnorm n (s_psi s) = 1 -> distance n (w_amp w) (s_psi s) <= d -> w_reg w = s_reg s ->
    runs (f_run_items A (shallow h) rnd64 n L ps items (map snd l) mask) w (done (arrives us w s' d')).
  Proof.
    intros l ms us s d s' d' H. induction H as [ms s d|g c r ms us s d s' d' Hc H IH|g c r ms us vs s d s1 d1 s' d' Hc Ht Hg H IH];
      intros items mask w Hit Hmask Hdr Hw Hphi Hd Hreg; inversion Hit as [|i g' items' ? Hi Hit']; subst.
    - apply runs_ret. cbn [done]. unfold arrives. cbn. auto.
    - cbn [map snd f_run_items]. eapply runs_bind_done; [instantiate (1 := fun b w1 => b = false /\ w1 = w)|].
      { unfold checked_cond. unfold holds in Hc. destruct c as [f|]; [|discriminate]. eapply returns_bind; [apply runs_get; reflexivity|]. rewrite Hreg, Hc. apply runs_ret. cbn. auto. }
      intros ? ? (-> & ->). now apply IH.
    - cbn [map snd f_run_items]. eapply runs_bind_done; [instantiate (1 := fun b w1 => b = true /\ w1 = w)|].
      { unfold checked_cond. unfold holds in Hc. destruct c as [f|]; [|apply runs_ret; cbn; auto]. eapply returns_bind; [apply runs_get; reflexivity|]. rewrite Hreg, Hc. apply runs_ret. cbn. auto. }
      intros ? ? (-> & ->). cbn [fst] in Hi. unfold f_guarded_update. destruct (dmade_represents _ _ _ _ _ _ Hi) as [(si & Hrep & Hig) _].
      rewrite (touches_mask mask ms (item_mask i) (dgate_of g) Hmask (item_mask_spec ps i si _ Hrep Hig)), Ht. cbn [negb hcheck]. destruct (draws_app _ _ _ Hdr) as [Hdr1 Hdr2].
      eapply runs_bind_done.
      { eapply returns_bind; [apply runs_ret; reflexivity|]. eapply runs_bind_done; [instantiate (1 := arrives us w s1 d1)|].
        - destruct Hi as [g0 d0 Hm|g0 key v d0 Hv Hm]; cbn [f_item_update].
          + apply (gate_rounded d0 us s d s1 d1 Hg 0 (inl g0) w); try assumption. now constructor.
          + rewrite Hv. cbn [opt_res hlift]. eapply returns_bind; [apply runs_ret; reflexivity|]. apply (gate_rounded d0 us s d s1 d1 Hg v (inr g0) w); assumption.
        - intros ? w1 Hp. apply runs_ret. instantiate (1 := fun m w1 => m = mark_measured i mask /\ arrives us w s1 d1 tt w1). cbn. split; [reflexivity|exact Hp]. }
      cbn beta. intros m w1 (-> & H1 & H2 & H3 & H4 & H5).
      eapply runs_weaken; [apply (IH items' (mark_measured i mask) w1); try assumption|].
      + apply (mark_spec ps i si _ mask ms Hrep Hig Hmask).
      + now apply Hdr2.
      + intros [? w2|w2|]; cbn [done]; try tauto. intros (K1 & K2 & K3 & K4 & K5). unfold arrives. repeat (split; [assumption|]). intros j. rewrite K5, H5, app_length. f_equal. lia.
  Qed.
End Rounded.
