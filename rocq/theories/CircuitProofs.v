(** Elementary gates and measurements as host programs. *)
From Verif Require Export CircuitSpec StateProofs4 MergeProofs6 GatesProofs9.
From Coq Require Import ZifyBool ZifyN ZifyNat Permutation Lra.

(** ** Elementary gates *)
Definition home_kept {T} (w : world) (o : houtcome world T) : Prop :=
  match o with HDone _ w' | HThrown w' => w_home w' = w_home w | HUndefined => True end.
Lemma plan_runs D p w psi' : updates_to D p (w_amp w) psi' ->
  runs (hplan D p) w (done (fun _ w' => (forall a, a < D -> w_amp w' a = psi' a) /\ w_reg w' = w_reg w /\ w_rand w' = w_rand w /\
                                        match p with InPlace _ => w_home w' = w_home w | Buffered _ => True end)).
Proof.
  intros [H1 H2]. split.
  - intros o (junk & scheds & Ho). specialize (H1 junk scheds). destruct (run_plan D p junk scheds (w_amp w)) as [r| | |]; try contradiction.
    subst o. simpl. destruct p; simpl; auto.
  - destruct (H2 (fun _ => C0)) as (scheds & r & Hr). eexists. exists (fun _ => C0), scheds. rewrite Hr. reflexivity.
Qed.
Lemma elem_update_runs n L g w : n < 64 -> lanes_ok L -> gate_wf g -> gate_fits n g ->
  runs (elem_update n L g) w (done (fun _ w' => (forall a, a < 2 ^ n -> w_amp w' a = gate_sem g (w_amp w) a) /\
     w_reg w' = w_reg w /\ w_rand w' = w_rand w /\ (stays g = true -> w_home w' = w_home w))).
Proof.
  intros Hn HL Hw Hf. assert (Hs : sizes_ok n 1 L).
  { split; [assumption|]. split; [|assumption]. rewrite N.mul_1_l. apply N.pow_le_mono_r; lia. }
  destruct (update_correct' n 1 L g (w_amp w) Hw Hf Hs) as (p & Hp & Hu). rewrite N.mul_1_l in Hp, Hu.
  unfold elem_update. rewrite Hp. cbn [hlift]. eapply returns_bind; [apply runs_ret; reflexivity|].
  eapply runs_weaken; [apply (plan_runs _ _ _ _ Hu)|]. intros [t w'|w'|]; simpl; auto. intros (H1 & H2 & H3 & H4).
  repeat split; auto. intros Hst. destruct p as [ks|ks]; [exact H4|exfalso].
  destruct g; cbn [update_plan stays] in *; try discriminate; destruct (within_bounds n _); try discriminate.
  destruct (_ && _); [discriminate|]. destruct (_ && _); [discriminate|]. destruct (_ && _); discriminate.
Qed.

(** ** What factory gates and inverses do *)
Lemma acts_spec g s : acts g s -> exists qs f, s = Act qs f /\ gate_wf g /\
  (forall i, N.testbit (base_operands (g_base g)) i = true <-> In i qs) /\
  (forall n, n < 64 -> Forall (fun q => q < n) qs -> gate_fits n g /\ forall psi x, f psi x = gate_sem g psi x).
Proof.
  assert (Hops : forall vf k g, call_typed k -> make vf k = Ok g -> forall i, N.testbit (base_operands (g_base g)) i = true <-> In i (call_operands k)).
  { intros vf k g0 Hty H i. pose proof (make_means vf k g0 Hty H) as Hm. unfold base_operands, call_operands.
    rewrite N.lor_spec, orb_true_iff, in_app_iff. rewrite (means_t _ _ _ _ Hm i), (means_c _ _ _ _ Hm i). reflexivity. }
  assert (Hsem : forall vf k g n, call_typed k -> make vf k = Ok g -> n < 64 -> Forall (fun q => q < n) (call_operands k) ->
            gate_fits n g /\ forall psi x, apply_mat (call_targets k) (call_controls k) (call_matrix k) psi x = gate_sem g psi x).
  { intros vf k g0 n Hty H Hn HF. pose proof (make_means vf k g0 Hty H) as Hm.
    split; [exact (means_fits n g0 _ _ _ Hm HF)|]. intros psi x. symmetry. apply (means_sem _ _ _ _ Hm).
    apply Forall_app in HF. destruct HF as [HF _].
    pose proof (call_targets_NoDup vf k g0 Hty H) as Hnd.
    assert (N.of_nat (length (call_targets k)) <= n); [|lia].
    assert (Hinc : incl (call_targets k) (seqN n)) by (intros y Hy; apply in_seqN; rewrite Forall_forall in HF; auto).
    pose proof (NoDup_incl_length Hnd Hinc) as Hl. unfold seqN in Hl. rewrite map_length, seq_length in Hl. lia. }
  intros H. destruct H as [vf k g Hty H|vf k g g' f Hty H Hinv Hg' Hf1 Hf2].
  - do 2 eexists. split; [reflexivity|]. split; [exact (means_wf _ _ _ _ (make_means vf k g Hty H))|].
    split; [eapply Hops; eassumption|]. intros n Hn HF. eapply Hsem; eassumption.
  - pose proof (means_wf _ _ _ _ (make_means vf k g Hty H)) as Hw.
    destruct (inverse_wf g g' Hw Hg') as [Hw' Hb].
    do 2 eexists. split; [reflexivity|]. split; [exact Hw'|]. split; [rewrite Hb; eapply Hops; eassumption|].
    intros n Hn HF. destruct (Hsem vf k g n Hty H Hn HF) as [Hfit Heq].
    split; [unfold gate_fits in *; now rewrite Hb|]. intros psi x.
    pose proof (make_inverse_ok vf k g H Hinv) as Hok.
    transitivity (gate_sem g' (gate_sem g (f psi)) x).
    + symmetry. apply (gate_sem_inverse n g g' (f psi) x Hn Hw Hfit Hg' Hok).
    + unfold gate_sem at 1 3. apply apply_mat_ext. intros y. rewrite <- Heq. apply Hf1.
Qed.

(** ** Measurement *)
Lemma sem_std1 k q psi x : q < 64 -> gate_sem (EStd k (GBase (2 ^ q) 0 0)) psi x =
  (std1_textbook k (N.b2n (N.testbit x q)) 0 * psi (N.clearbit x q) + std1_textbook k (N.b2n (N.testbit x q)) 1 * psi (N.setbit x q))%C.
Proof.
  intros Hq. assert (Hm : make true (Call1 k q [] []) = Ok (EStd k (GBase (2 ^ q) 0 0))).
  { assert (Ht : vector_to_mask [q] = Ok (2 ^ q)).
    { unfold vector_to_mask. cbn [vector_to_mask_aux]. replace (64 <=? q) with false by lia. rewrite N.bits_0.
      now rewrite shl64_one, N.lor_0_l by assumption. }
    cbn -[vector_to_mask make_base]. rewrite Ht. cbn -[make_base].
    unfold make_base. rewrite N.land_0_r. reflexivity. }
  rewrite (means_sem _ _ _ _ (make_means true (Call1 k q [] []) _ I Hm)) by (simpl; lia).
  cbn [call_targets call_controls call_matrix]. rewrite apply_mat_one. reflexivity.
Qed.
Lemma std1_runs n L k q w : n < 64 -> lanes_ok L -> q < n ->
  sets (2 ^ n) (hkernel n (std1_kernel n (2 ^ n) L k (2 ^ q) 0 0)) w (gate_sem (EStd k (GBase (2 ^ q) 0 0)) (w_amp w)).
Proof.
  intros Hn HL Hq. set (g := EStd k (GBase (2 ^ q) 0 0)).
  assert (Hp2 : 2 ^ q < 2 ^ n) by (apply N.pow_lt_mono_r; lia).
  assert (Hf : gate_fits n g) by (split; cbn [g_base g_t g_c g]; [exact Hp2|apply N.neq_0_lt_0, N.pow_nonzero; lia]).
  assert (Hw : gate_wf g).
  { split; cbn [g_base g_t g_c g]; [|now exists q]. apply base_ok_intro; [|unfold two64; lia|apply N.land_0_r|reflexivity].
    unfold two64. apply (N.lt_le_trans _ (2 ^ n)); [assumption|apply N.pow_le_mono_r; lia]. }
  assert (Hs : sizes_ok n 1 L).
  { split; [assumption|]. split; [|assumption]. rewrite N.mul_1_l. apply N.pow_le_mono_r; lia. }
  destruct (update_correct' n 1 L g (w_amp w) Hw Hf Hs) as (p & Hp & Hu). rewrite N.mul_1_l in Hp, Hu.
  cbn [update_plan g g_base g_t g_c g_cv] in Hp. rewrite (proj2 (within_bounds_iff n (GBase (2 ^ q) 0 0) Hn)) in Hp by exact Hf.
  injection Hp as <-. eapply runs_weaken; [apply (plan_runs _ _ _ _ Hu)|]. intros [t w'|w'|]; simpl; auto.
  intros (H1 & H2 & H3 & H4). repeat split; assumption.
Qed.
Lemma clearbit_same x q : N.testbit x q = false -> N.clearbit x q = x.
Proof. intros H. apply N.bits_inj. intros i. rewrite N.clearbit_eqb. destruct (N.eqb_spec q i) as [<-|]; [now rewrite H|]. apply andb_true_r. Qed.
Lemma setbit_same x q : N.testbit x q = true -> N.setbit x q = x.
Proof. intros H. apply N.bits_inj. intros i. rewrite N.setbit_eqb. destruct (N.eqb_spec q i) as [<-|]; [now rewrite H|]. reflexivity. Qed.
Lemma flip_clear x q : N.testbit x q = true -> N.lxor x (2 ^ q) = N.clearbit x q.
Proof.
  intros H. apply N.bits_inj. intros i. rewrite N.lxor_spec, N.clearbit_eqb, N.pow2_bits_eqb. destruct (N.eqb_spec q i) as [<-|]; [now rewrite H|].
  now rewrite xorb_false_r, andb_true_r.
Qed.
Lemma flip_set x q : N.testbit x q = false -> N.lxor x (2 ^ q) = N.setbit x q.
Proof.
  intros H. apply N.bits_inj. intros i. rewrite N.lxor_spec, N.setbit_eqb, N.pow2_bits_eqb. destruct (N.eqb_spec q i) as [<-|]; [now rewrite H|].
  now rewrite xorb_false_r.
Qed.
Lemma sem_project b q psi x : q < 64 -> gate_sem (EStd (if b : bool then GP1 else GP0) (GBase (2 ^ q) 0 0)) psi x = if shows_bit q b x then psi x else C0.
Proof.
  intros Hq. rewrite sem_std1 by assumption. unfold shows_bit. destruct b, (N.testbit x q) eqn:E; cbn [N.b2n std1_textbook pauli1 Bool.eqb];
    change (1 =? 1) with true; change (0 =? 1) with false; change (1 =? 0) with false; change (0 =? 0) with true; cbn [andb].
  - rewrite setbit_same by assumption. ring.
  - ring.
  - ring.
  - rewrite clearbit_same by assumption. ring.
Qed.
Lemma sem_X q psi x : q < 64 -> gate_sem (EStd GX (GBase (2 ^ q) 0 0)) psi x = flipped q psi x.
Proof.
  intros Hq. rewrite sem_std1 by assumption. unfold flipped. destruct (N.testbit x q) eqn:E; cbn [N.b2n std1_textbook pauli1 Bool.eqb];
    change (1 =? 1) with true; change (0 =? 1) with false; change (1 =? 0) with false; change (0 =? 0) with true; cbn [andb].
  - rewrite flip_clear by assumption. ring.
  - rewrite flip_set by assumption. ring.
Qed.
Lemma Cnorm2_C0 : Cnorm2 C0 = 0%R.
Proof. unfold Cnorm2. simpl. ring. Qed.
Lemma Rsuml_filter_if {T} (f : T -> R) (P : T -> bool) l : Rsuml (fun x => if P x then f x else 0%R) l = Rsuml f (filter P l).
Proof. induction l as [|x l IH]; simpl; [reflexivity|]. destruct (P x); simpl; rewrite IH; ring. Qed.
Lemma sqnorm_project n (P : N -> bool) (psi : state) : sqnorm n (fun x => if P x then psi x else C0) = prob n P psi.
Proof.
  unfold sqnorm, prob. rewrite <- Rsuml_filter_if. apply Rsuml_ext_seqN. intros x _. destruct (P x); [reflexivity|apply Cnorm2_C0].
Qed.
Lemma prob_nonneg n P psi : (0 <= prob n P psi)%R.
Proof. apply Rsuml_nonneg. intros x _. unfold Cnorm2. nra. Qed.
Lemma bit_prob_sum n q psi : (bit_prob n q false psi + bit_prob n q true psi = sqnorm n psi)%R.
Proof.
  unfold bit_prob. rewrite <- (prob_all n (fun _ => true)) by reflexivity. symmetry. apply prob_split; intros x _; unfold shows_bit; destruct (N.testbit x q); reflexivity.
Qed.
Lemma prob_psi_ext n P psi phi : (forall x, x < 2 ^ n -> psi x = phi x) -> prob n P psi = prob n P phi.
Proof. intros H. unfold prob. apply Rsuml_ext. intros x Hx. apply filter_In in Hx. rewrite H; [reflexivity|]. apply in_seqN. tauto. Qed.
Lemma bit_prob_ext n q b psi phi : (forall x, x < 2 ^ n -> psi x = phi x) -> bit_prob n q b psi = bit_prob n q b phi.
Proof. apply prob_psi_ext. Qed.
Lemma shown_possible n q psi u : unit_draw u -> sqnorm n psi = 1%R -> (0 < bit_prob n q (shown n q psi u) psi)%R.
Proof.
  intros [H0 H1] Hs. pose proof (bit_prob_sum n q psi) as Hb. unfold shown. destruct (Rlt_dec _ _); lra.
Qed.
Lemma ctz_pow2 q : ctz (2 ^ q) = q.
Proof.
  destruct (2 ^ q) eqn:E; [now apply N.pow_nonzero in E|]. destruct (ctz_decomp p) as (r & Hr). rewrite <- E in Hr.
  assert (H : forall i, N.testbit (2 ^ q) i = N.testbit (2 ^ ctz_pos p * (2 * r + 1)) i) by (intros; now rewrite Hr).
  pose proof (H (ctz_pos p)) as H1. rewrite ctz_odd_tb, N.pow2_bits_eqb in H1. cbn [ctz].
  destruct (N.eqb_spec q (ctz_pos p)); [congruence|]. rewrite N.ltb_irrefl, N.eqb_refl in H1. discriminate.
Qed.
Lemma runs_lift {T} (t : T) (w : world) (Q : houtcome world T -> Prop) x : x = Ok t -> Q (HDone t w) -> runs (hlift x) w Q.
Proof. intros -> H. now apply runs_ret. Qed.
Lemma bernoulli_runs p w : (0 <= p <= 1)%R ->
  runs (hbernoulli p) w (done (fun z w' => z = (if Rlt_dec (w_rand w 0%nat) p then true else false) /\
    w' = World (w_amp w) (w_home w) (w_reg w) (fun k => w_rand w (S k)))).
Proof.
  intros [H0 H1]. unfold hbernoulli. destruct (Rle_dec 0 p); [|contradiction]. destruct (Rle_dec p 1); [|contradiction].
  split.
  - intros o (o1 & -> & ->). simpl. auto.
  - eexists. eexists. split; [reflexivity|]. reflexivity.
Qed.
Lemma Cscale_C0 r : Cscale r C0 = C0.
Proof. unfold Cscale, C0. simpl. f_equal; ring. Qed.
Lemma measure_runs n L q reset w : n < 64 -> lanes_ok L -> q < n -> sqnorm n (w_amp w) = 1%R -> unit_draw (w_rand w 0%nat) ->
  let b := shown n q (w_amp w) (w_rand w 0%nat) in
  runs (apply_measurement_update n L (2 ^ q) reset) w (done (fun z w' => z = negb b /\
    (forall x, x < 2 ^ n -> w_amp w' x = measured n q reset b (w_amp w) x) /\
    w_home w' = w_home w /\ w_reg w' = w_reg w /\ (forall i, w_rand w' i = w_rand w (S i)))).
Proof.
  intros Hn HL Hq Hs Hu b. unfold apply_measurement_update. rewrite ctz_pow2.
  eapply returns_bind; [apply zero_probability_ok; assumption|].
  pose proof (bit_prob_sum n q (w_amp w)) as Hsum. rewrite Hs in Hsum.
  assert (Hz : prob n (fun x => negb (N.testbit x q)) (w_amp w) = bit_prob n q false (w_amp w)).
  { apply prob_ext. intros x _. unfold shows_bit. now destruct (N.testbit x q). }
  rewrite Hz. pose proof (prob_nonneg n (shows_bit q false) (w_amp w)) as P0. pose proof (prob_nonneg n (shows_bit q true) (w_amp w)) as P1.
  fold (bit_prob n q false (w_amp w)) in P0. fold (bit_prob n q true (w_amp w)) in P1.
  eapply runs_bind_done; [apply bernoulli_runs; lra|]. intros z w1 (Ez & Ew1).
  assert (Ez' : z = negb b) by (rewrite Ez; unfold b, shown; now destruct (Rlt_dec _ _)). clear Ez. subst z.
  assert (Ea : w_amp w1 = w_amp w) by now rewrite Ew1.
  assert (Pb : (0 < bit_prob n q b (w_amp w))%R) by (apply shown_possible; assumption).
  eapply runs_bind_done.
  { instantiate (1 := fun _ w2 => only_amplitudes (2 ^ n) (fun x => if shows_bit q b x then w_amp w x else C0) w1 w2).
    eapply runs_weaken; [apply (std1_runs n L _ q w1); assumption|]. intros [t w2|w2|]; simpl; auto.
    intros (H1 & H2). split; [|assumption]. intros a Ha. rewrite H1 by assumption. rewrite Ea.
    rewrite <- sem_project by lia. destruct b; reflexivity. }
  intros _ w2 (Ha2 & Hh2 & Hr2 & Hd2).
  assert (Hs2 : sqnorm n (w_amp w2) = bit_prob n q b (w_amp w)).
  { rewrite (sqnorm_ext n _ _ Ha2). apply sqnorm_project. }
  eapply runs_bind_done; [apply normalize_ok; rewrite Hs2; lra|]. intros _ w3 (Ha3 & Hh3 & Hr3 & Hd3).
  assert (Hp3 : forall x, x < 2 ^ n -> w_amp w3 x = projected n q b (w_amp w) x).
  { intros x Hx. rewrite Ha3, Hs2, Ha2 by assumption. unfold projected. destruct (shows_bit q b x); [reflexivity|apply Cscale_C0]. }
  rewrite negb_involutive.
  eapply runs_bind_done.
  { instantiate (1 := fun _ w4 => only_amplitudes (2 ^ n) (measured n q reset b (w_amp w)) w3 w4). unfold measured.
    destruct (reset && b) eqn:Er.
    - eapply runs_weaken; [apply (std1_runs n L GX q w3); assumption|]. intros [t w4|w4|]; simpl; auto.
      intros (H1 & H2). split; [|assumption]. intros a Ha. rewrite H1, sem_X by (assumption || lia). unfold flipped. apply Hp3.
      apply lxor_lt_pow2; [assumption|]. apply N.pow_lt_mono_r; lia.
    - apply runs_ret. simpl. split; [exact Hp3|auto]. }
  intros _ w4 (Ha4 & Hh4 & Hr4 & Hd4). apply runs_ret. simpl. split; [reflexivity|]. split; [exact Ha4|].
  rewrite Hh4, Hh3, Hh2, Hr4, Hr3, Hr2, Hd4, Hd3, Hd2, Ew1. simpl. auto.
Qed.
