(** C61: random states; the serial loop; the same seed; the density. *)
From Verif Require Export HaarProofs.
From Verif Require Import StateProofs StateProofs2 StateProofs3 StateProofs4 GroundProofs GroundProofs2 DensityProofs4.
From Verif Require Import DensityProofs8.
From Coq Require Import ZifyBool ZifyN ZifyNat Lia Lra.
Open Scope N_scope.

Lemma normalised_unit n raw psi : normalised n raw psi -> sqnorm n psi = 1%R.
Proof.
  intros [Hz H]. rewrite (sqnorm_ext n _ _ H). pose proof (sqnorm_nonneg n raw) as Hs.
  unfold sqnorm at 1. rewrite (Rsuml_ext _ (fun x => (/ sqrt (sqnorm n raw) * / sqrt (sqnorm n raw) * Cnorm2 (raw x))%R)).
  - rewrite Rsuml_scale. fold (sqnorm n raw). assert (sqrt (sqnorm n raw) <> 0%R) by now apply sqrt_neq_0.
    rewrite <- (sqrt_sqrt (sqnorm n raw)) at 3 by exact Hs. field. assumption.
  - intros x _. unfold Cnorm2, Cscale. cbn. ring.
Qed.

Lemma sum_sq_zero a b : (a * a + b * b = 0)%R -> a = 0%R /\ b = 0%R.
Proof. intros H. apply Rplus_sqr_eq_0. exact H. Qed.

Section Programs.
  Variables (gens : nat) (draw : nat -> nat -> R) (imf : bool).
  Hypothesis Hg : (0 < gens)%nat.

  (** what every execution of set_Haar_random_state ends with *)
  Definition haar_outcome (n : N) (w : world) (o : houtcome world unit) : Prop :=
    exists raw, drawn_from gens draw imf (2 ^ n) raw /\
      match o with
      | HDone _ w' => normalised n raw (w_amp w') /\ w_home w' = w_home w /\ w_reg w' = w_reg w /\ w_rand w' = w_rand w
      | HThrown _ => False
      | HUndefined => sqnorm n raw = 0%R
      end.
  Lemma haar_ok n w : runs (set_Haar_random_state gens draw imf n) w (haar_outcome n w).
  Proof.
    unfold set_Haar_random_state. eapply runs_bind_done; [now apply fill_ok|]. intros _ w1 (Hd & E1 & E2 & E3).
    destruct (Req_dec (sqnorm n (w_amp w1)) 0) as [Hz|Hz].
    - eapply runs_weaken; [now apply normalize_undefined|]. intros o ->. exists (w_amp w1). auto.
    - eapply runs_weaken; [now apply StateProofs.normalize_ok|]. intros [t w'|w'|]; cbn [done]; try tauto.
      intros (H1 & H2 & H3 & H4). exists (w_amp w1). split; [exact Hd|]. repeat split; try congruence; auto.
  Qed.
  Lemma drawn_nonzero n raw : no_double_zero draw -> drawn_from gens draw imf (2 ^ n) raw -> sqnorm n raw <> 0%R.
  Proof.
    intros Hz (from & _ & _ & _ & Hr) E.
    assert (H0 : 0 < 2 ^ n) by (apply N.neq_0_lt_0, N.pow_nonzero; lia). specialize (Hr 0 H0). cbn zeta in Hr.
    assert (Hc : Cnorm2 (raw 0) = 0%R).
    { apply (Rsuml_zero (fun x => Cnorm2 (raw x)) (seqN (2 ^ n))); [intros; apply Cnorm2_nonneg|exact E|now apply in_seqN]. }
    rewrite Hr in Hc. unfold Cnorm2 in Hc. destruct (Hz (fst (from 0)) (2 * snd (from 0%N))%nat) as [H|H]; apply H; destruct imf; cbn [fst snd] in Hc; apply sum_sq_zero in Hc; tauto.
  Qed.
  Lemma haar_done n w : no_double_zero draw ->
    runs (set_Haar_random_state gens draw imf n) w (done (fun _ w' => exists raw, drawn_from gens draw imf (2 ^ n) raw /\
      normalised n raw (w_amp w') /\ returns (get_squared_norm n) w' 1%R /\ w_home w' = w_home w /\ w_reg w' = w_reg w /\ w_rand w' = w_rand w)).
  Proof.
    intros Hz. eapply runs_weaken; [apply haar_ok|]. intros [t w'|w'|] (raw & Hd & H); cbn [done]; try tauto.
    - exists raw. destruct H as (H1 & H2). split; [exact Hd|]. split; [exact H1|]. split; [|exact H2].
      rewrite <- (normalised_unit n raw (w_amp w') H1). apply squared_norm_ok.
    - now apply (drawn_nonzero n raw Hz Hd).
  Qed.
  Lemma with_haar {W T} n (k : state -> host W T) w Q : no_double_zero draw ->
    (forall raw psi, drawn_from gens draw imf (2 ^ n) raw -> normalised n raw psi -> runs (k psi) w Q) ->
    runs (with_Haar_random_state gens draw imf n k) w Q.
  Proof.
    intros Hz Hk. split.
    - intros o (junk & o1 & H1 & H2). apply (proj1 (haar_done n _ Hz)) in H1. destruct o1 as [t w1|w1|]; cbn [done] in H1; try tauto.
      destruct H1 as (raw & Hd & Hn & _). exact (proj1 (Hk raw _ Hd Hn) o H2).
    - destruct (haar_done n (World (fun _ => C0) None [] (fun _ => 0%R)) Hz) as [H1 (o1 & Ho1)]. pose proof (H1 o1 Ho1) as H.
      destruct o1 as [t w1|w1|]; cbn [done] in H; try tauto. destruct H as (raw & Hd & Hn & _).
      destruct (proj2 (Hk raw _ Hd Hn)) as (o & Ho). exists o, (fun _ => C0), (HDone t w1). auto.
  Qed.
  Lemma dm_haar_ok n w : n < 64 -> no_double_zero draw ->
    runs (dm_set_Haar_random_state gens draw imf n) w (done (fun _ d =>
      (exists raw psi, drawn_from gens draw imf (2 ^ n) raw /\ normalised n raw psi /\ mat_eq (2 ^ n) (rho d) (pure psi)) /\
      d_herm d = true /\ yields (get_trace n) d C1 /\ yields (get_purity n) d 1%R)).
  Proof.
    intros Hn Hz. apply with_haar; [exact Hz|]. intros raw psi Hd Hps.
    eapply (runs_bind_done _ _ _ (fun _ _ => True)); [apply runs_modify; exact I|]. intros _ w1 _.
    eapply runs_weaken; [apply runs_both; [apply (load_state_ok n psi w1)|apply (same_answers n psi Hn (World psi None [] (fun _ => 0%R)) w1); reflexivity]|].
    intros [t d|d|]; cbn [done]; try tauto. intros [[E F] (_ & _ & _ & _ & Hs & _)].
    destruct (Hs 1%R) as [H1 H2].
    { rewrite <- (normalised_unit n raw psi Hps). apply (squared_norm_ok n (World psi None [] (fun _ => 0%R))). }
    split; [exists raw, psi; auto|]. split; [exact F|]. split; [exact H1|]. now rewrite Rmult_1_r in H2.
  Qed.
  Lemma b_haar_same_ok B n w : no_double_zero draw ->
    runs (b_set_Haar_random_state gens draw imf B n true) w (done (fun _ w' => exists raw psi,
      drawn_from gens draw imf (2 ^ n) raw /\ normalised n raw psi /\ rows_become B n (fun _ => psi) w w')).
  Proof.
    intros Hz. unfold b_set_Haar_random_state. apply with_haar; [exact Hz|]. intros raw psi Hd Hn.
    pose proof (b_set_ok B n n psi w (fun _ => psi)) as H. cbn [family_op] in H. rewrite N.eqb_refl in H. cbn [on_batches] in H.
    eapply runs_weaken; [exact H|]. intros [t w'|w'|]; cbn [done]; try tauto. intros Hr. exists raw, psi. auto.
  Qed.
  Lemma drawn_row B n raw b : no_double_zero draw -> drawn_from gens draw imf (B * 2 ^ n) raw -> b < B -> sqnorm n (batch n b raw) <> 0%R.
  Proof.
    intros Hz (from & _ & _ & _ & Hr) Hb E.
    assert (H0 : 0 < 2 ^ n) by (apply N.neq_0_lt_0, N.pow_nonzero; lia).
    assert (Hx : b * 2 ^ n + 0 < B * 2 ^ n) by nia. specialize (Hr _ Hx). cbn zeta in Hr.
    assert (Hc : Cnorm2 (batch n b raw 0) = 0%R).
    { apply (Rsuml_zero (fun x => Cnorm2 (batch n b raw x)) (seqN (2 ^ n))); [intros; apply Cnorm2_nonneg|exact E|now apply in_seqN]. }
    unfold batch in Hc. rewrite Hr in Hc. unfold Cnorm2 in Hc.
    destruct (Hz (fst (from (b * 2 ^ n + 0))) (2 * snd (from (b * 2 ^ n + 0)%N))%nat) as [H|H]; apply H; destruct imf; cbn [fst snd] in Hc; apply sum_sq_zero in Hc; tauto.
  Qed.
  Lemma b_haar_each_ok B n w : no_double_zero draw ->
    runs (b_set_Haar_random_state gens draw imf B n false) w (done (fun _ w' => exists raw,
      drawn_from gens draw imf (B * 2 ^ n) raw /\ (forall b, b < B -> normalised n (batch n b raw) (batch n b (w_amp w'))) /\
      w_home w' = w_home w /\ w_reg w' = w_reg w /\ w_rand w' = w_rand w)).
  Proof.
    intros Hz. unfold b_set_Haar_random_state. eapply runs_bind_done; [now apply fill_ok|]. intros _ w1 (Hd & E1 & E2 & E3).
    pose proof (fun b Hb => drawn_row B n (w_amp w1) b Hz Hd Hb) as Hnz.
    pose proof (b_normalize_ok B n w1 (fun b => batch n b (w_amp w1)) (fun b i _ _ => eq_refl) Hnz) as H.
    cbn [on_all vector_op on_batches] in H. eapply runs_weaken; [exact H|]. intros [t w'|w'|]; cbn [done]; try tauto.
    intros (H1 & H2 & H3 & H4). exists (w_amp w1). split; [exact Hd|]. split; [|repeat split; congruence].
    intros b Hb. split; [now apply Hnz|]. intros x Hx. now apply H1.
  Qed.
End Programs.

(** *** One whole iteration, and the serial loop *)
Section Serial.
  Variables (gens : nat) (draw : nat -> nat -> R) (imf : bool) (D : N).
  Notation exec := (fill_exec gens draw imf D).
  Notation step := (fill_step gens draw imf D).

  Definition after_one (i : N) (g : nat) (p : pool) : pool :=
    Pool (set_phase i Freed (set_phase i (Wrote g) (set_phase i (Full g (pair_up imf (draw g (p_used p g)) (draw g (S (p_used p g)))))
           (set_phase i (Half g (draw g (p_used p g))) (set_phase i (Got g) (p_at p))))))
         (upd Nat.eqb (upd Nat.eqb (p_used p) g (S (p_used p g))) g (S (S (p_used p g))))
         (upd Nat.eqb (upd Nat.eqb (p_busy p) g true) g false)
         (upd N.eqb (p_raw p) i (pair_up imf (draw g (p_used p g)) (draw g (S (p_used p g))))).
  Lemma upd_N {V} (f : N -> V) a v : upd N.eqb f a v a = v. Proof. unfold upd. now rewrite N.eqb_refl. Qed.
  Lemma upd_nat {V} (f : nat -> V) a v : upd Nat.eqb f a v a = v. Proof. unfold upd. now rewrite Nat.eqb_refl. Qed.

  Record serial_at (m : N) (p : pool) : Prop := {
    sa_done : forall j, j < m -> p_at p j = Freed /\ p_raw p j = value draw imf (0%nat, N.to_nat j);
    sa_rest : forall j, m < j -> p_at p j = Todo;
    sa_cur : m <= D /\ match p_at p m with
             | Todo => p_used p 0%nat = (2 * N.to_nat m)%nat /\ p_busy p 0%nat = false
             | Got g => g = 0%nat /\ p_used p 0%nat = (2 * N.to_nat m)%nat
             | Half g v => g = 0%nat /\ p_used p 0%nat = S (2 * N.to_nat m) /\ v = draw 0%nat (2 * N.to_nat m)%nat
             | Full g c => g = 0%nat /\ p_used p 0%nat = S (S (2 * N.to_nat m)) /\ c = value draw imf (0%nat, N.to_nat m)
             | Wrote g => g = 0%nat /\ p_used p 0%nat = S (S (2 * N.to_nat m)) /\ p_raw p m = value draw imf (0%nat, N.to_nat m)
             | Freed => False
             end
  }.
  Lemma serial_start junk : serial_at 0 (fill_start junk).
  Proof. constructor; cbn; auto; intros; lia. Qed.
  Lemma set_at i ph f j : set_phase i ph f j = if j =? i then ph else f j. Proof. reflexivity. Qed.
  Lemma serial_order m p q ph : serial_at m p -> p_at q = set_phase m ph (p_at p) -> in_order D q.
  Proof.
    intros [S1 S2 S3] E i j Hj Hi Hn. rewrite E, set_at in *. destruct (N.eqb_spec j m) as [->|Hjm].
    - exfalso. apply Hn. destruct (N.eqb_spec i m); [lia|]. apply S2. lia.
    - apply S1. destruct (N.ltb_spec j m); [assumption|]. exfalso. apply Hn. destruct (N.eqb_spec i m); [lia|]. apply S2. lia.
  Qed.
  Lemma serial_step m p q : gens = 1%nat -> serial_at m p -> step p q -> in_order D q -> exists m', serial_at m' q.
  Proof.
    intros Hg S St Ho. destruct S as [S1 S2 [S3 S4]].
    assert (Hcur : forall i, p_at p i <> Todo -> p_at p i <> Freed -> i = m).
    { intros i H1 H2. destruct (N.lt_trichotomy i m) as [H|[H|H]]; [|exact H|]; [now destruct (S1 i H)|now rewrite (S2 i H) in H1]. }
    destruct St as [i g p Hi Ep Hgg Hb|i g p Hi Ep|i g v p Hi Ep|i g c p Hi Ep|i g p Hi Ep].
    - assert (g = 0%nat) as -> by lia. assert (i = m) as ->.
      { destruct (N.lt_trichotomy i m) as [H|[H|H]]; [|exact H|].
        - destruct (S1 i H). congruence.
        - specialize (Ho i m H Hi). cbn [p_at] in Ho. rewrite !set_at, N.eqb_refl in Ho. destruct (N.eqb_spec m i); [lia|].
          rewrite Ho in S4 by discriminate. destruct S4. }
      exists m. constructor; cbn [p_at p_used p_busy p_raw].
      + intros j Hj. rewrite set_at. destruct (N.eqb_spec j m); [lia|auto].
      + intros j Hj. rewrite set_at. destruct (N.eqb_spec j m); [lia|auto].
      + split; [exact S3|]. rewrite set_at, N.eqb_refl. rewrite Ep in S4. tauto.
    - assert (i = m) as -> by (apply Hcur; congruence). rewrite Ep in S4. destruct S4 as (-> & Hu).
      exists m. constructor; cbn [p_at p_used p_busy p_raw].
      + intros j Hj. rewrite set_at. destruct (N.eqb_spec j m); [lia|auto].
      + intros j Hj. rewrite set_at. destruct (N.eqb_spec j m); [lia|auto].
      + split; [exact S3|]. rewrite set_at, N.eqb_refl, upd_nat, Hu. auto.
    - assert (i = m) as -> by (apply Hcur; congruence). rewrite Ep in S4. destruct S4 as (-> & Hu & ->).
      exists m. constructor; cbn [p_at p_used p_busy p_raw].
      + intros j Hj. rewrite set_at. destruct (N.eqb_spec j m); [lia|auto].
      + intros j Hj. rewrite set_at. destruct (N.eqb_spec j m); [lia|auto].
      + split; [exact S3|]. rewrite set_at, N.eqb_refl, upd_nat, Hu. auto.
    - assert (i = m) as -> by (apply Hcur; congruence). rewrite Ep in S4. destruct S4 as (-> & Hu & ->).
      exists m. constructor; cbn [p_at p_used p_busy p_raw].
      + intros j Hj. rewrite set_at. unfold upd. destruct (N.eqb_spec j m); [lia|auto].
      + intros j Hj. rewrite set_at. destruct (N.eqb_spec j m); [lia|auto].
      + split; [exact S3|]. rewrite set_at, upd_N, N.eqb_refl. auto.
    - assert (i = m) as -> by (apply Hcur; congruence). rewrite Ep in S4. destruct S4 as (-> & Hu & Hr).
      exists (m + 1). constructor; cbn [p_at p_used p_busy p_raw].
      + intros j Hj. rewrite set_at. destruct (N.eqb_spec j m) as [->|]; [auto|]. apply S1. lia.
      + intros j Hj. rewrite set_at. destruct (N.eqb_spec j m); [lia|]. apply S2. lia.
      + split; [lia|]. rewrite set_at. destruct (N.eqb_spec (m + 1) m); [lia|]. rewrite S2 by lia. rewrite upd_nat, Hu. split; [lia|reflexivity].
  Qed.
  Lemma serial_inv k p q : gens = 1%nat -> serial_exec gens draw imf D k p q -> (exists m, serial_at m p) -> exists m, serial_at m q.
  Proof. intros Hg H. induction H as [|k p q r _ IH S Ho]; intros Hm; [exact Hm|]. destruct (IH Hm) as (m & Hs). eapply serial_step; eauto. Qed.
  Lemma serial_result m p : serial_at m p -> fill_done D p -> forall x, x < D -> p_raw p x = value draw imf (0%nat, N.to_nat x).
  Proof.
    intros [S1 S2 [S3 S4]] Hd x Hx. apply S1. destruct (N.ltb_spec x m); [assumption|]. exfalso. assert (Hm : m < D) by lia. rewrite (Hd m Hm) in S4. exact S4.
  Qed.
  Lemma serial_progress m p : gens = 1%nat -> serial_at m p -> fill_done D p \/ exists q, step p q /\ in_order D q.
  Proof.
    intros Hg S. pose proof S as [S1 S2 [S3 S4]]. destruct (N.eq_dec m D) as [->|Hm]; [left; intros i Hi; now apply S1|right].
    assert (Hlt : m < D) by lia. destruct (p_at p m) as [|g|g v|g c|g|] eqn:Ep; [| | | | |contradiction]; eexists; split.
    - apply (s_get _ _ _ _ m 0%nat); auto; [lia|tauto].
    - eapply serial_order; [exact S|reflexivity].
    - apply (s_first _ _ _ _ m g); auto.
    - eapply serial_order; [exact S|reflexivity].
    - apply (s_second _ _ _ _ m g v); auto.
    - eapply serial_order; [exact S|reflexivity].
    - apply (s_store _ _ _ _ m g c); auto.
    - eapply serial_order; [exact S|reflexivity].
    - apply (s_free _ _ _ _ m g); auto.
    - eapply serial_order; [exact S|reflexivity].
  Qed.
  Lemma serial_cons p q : step p q -> in_order D q -> forall k r, serial_exec gens draw imf D k q r -> serial_exec gens draw imf D (S k) p r.
  Proof.
    intros Hs Ho k r H. revert Hs Ho. induction H as [q|k q r s _ IH S O]; intros Hs Ho; [eapply se_step; [constructor|exact Hs|exact Ho]|].
    eapply se_step; [now apply IH|exact S|exact O].
  Qed.
  Lemma serial_finish m p : gens = 1%nat -> serial_at m p -> exists k q, serial_exec gens draw imf D k p q /\ fill_done D q.
  Proof.
    intros Hg. remember (work D p) as u eqn:Eu. revert m p Eu. induction u as [u IH] using lt_wf_ind. intros m p -> S.
    destruct (serial_progress m p Hg S) as [Hd|(q & St & Ho)]; [exists 0%nat, p; split; [constructor|exact Hd]|].
    destruct (serial_step m p q Hg S St Ho) as (m' & S').
    destruct (IH (work D q)) with (m := m') (p := q) as (k & r & E & Hr); auto.
    - rewrite (step_work gens draw imf D p q St). lia.
    - exists (Datatypes.S k), r. split; [|exact Hr]. eapply serial_cons; eauto.
  Qed.
End Serial.

(** a serial loop leaves no choice *)
Definition serial_raw (draw : nat -> nat -> R) (imf : bool) : state := fun x =>
  let a := draw 0%nat (2 * N.to_nat x)%nat in let b := draw 0%nat (S (2 * N.to_nat x)) in if imf then (b, a) else (a, b).
Lemma serial_ok draw imf n w : sqnorm n (serial_raw draw imf) <> 0%R ->
  sets (2 ^ n) (set_Haar_random_state_serial 1 draw imf n) w (fun x => Cscale (/ sqrt (sqnorm n (serial_raw draw imf))) (serial_raw draw imf x)).
Proof.
  intros Hz. unfold set_Haar_random_state_serial, sets.
  eapply (runs_bind_done _ _ _ (fun (_ : unit) w1 => (forall x, x < 2 ^ n -> w_amp w1 x = serial_raw draw imf x) /\ w_home w1 = w_home w /\ w_reg w1 = w_reg w /\ w_rand w1 = w_rand w)).
  - split.
    + intros o (k & p & E & Hd & ->). cbn [done]. split; [|auto]. intros x Hx. cbn [w_amp set_amp].
      destruct (serial_inv _ _ _ _ _ _ _ eq_refl E (ex_intro _ 0 (serial_start 1 draw imf (2 ^ n) (w_amp w)))) as (m & Hs).
      rewrite (serial_result draw imf (2 ^ n) m p Hs Hd x Hx). reflexivity.
    + destruct (serial_finish 1 draw imf (2 ^ n) _ _ eq_refl (serial_start 1 draw imf (2 ^ n) (w_amp w))) as (k & q & E & Hd).
      eexists. exists k, q. split; [exact E|]. split; [exact Hd|reflexivity].
  - intros _ w1 (H & E1 & E2 & E3). rewrite <- (sqnorm_ext n _ _ H) in *. eapply runs_weaken; [apply StateProofs.normalize_ok; exact Hz|].
    intros [t w'|w'|]; cbn [done]; try tauto. intros (H1 & H2 & H3 & H4). repeat split; try congruence. intros x Hx. rewrite H1, H by exact Hx. reflexivity.
Qed.

(** *** Invariance of the density *)
Lemma gaussian_value n raw : gaussian_density n raw = (/ (2 * PI) ^ N.to_nat (2 ^ n) * exp (- sqnorm n raw / 2))%R.
Proof.
  unfold gaussian_density, sqnorm. rewrite <- (length_seqN (2 ^ n)). pose proof PI_RGT_0 as Hpi.
  assert (Hp : (0 < (2 * PI))%R) by lra.
  assert (Hs : (sqrt (2 * PI) * sqrt (2 * PI) = 2 * PI)%R) by (apply sqrt_sqrt; lra).
  assert (Hs0 : sqrt (2 * PI) <> 0%R) by (intros E; rewrite E in Hs; lra).
  induction (seqN (2 ^ n)) as [|x l IH].
  - unfold Rsuml. cbn. rewrite Ropp_0. unfold Rdiv. rewrite Rmult_0_l, exp_0. lra.
  - cbn [fold_right length pow]. rewrite IH. assert (Hpow : ((2 * PI) ^ length l <> 0)%R) by (apply pow_nonzero; lra).
    change (Rsuml (fun y => Cnorm2 (raw y)) (x :: l)) with (Cnorm2 (raw x) + Rsuml (fun y => Cnorm2 (raw y)) l)%R.
    set (T := Rsuml (fun y => Cnorm2 (raw y)) l). unfold normal_density, Cnorm2.
    replace (- (fst (raw x) * fst (raw x) + snd (raw x) * snd (raw x) + T) / 2)%R
      with (- (fst (raw x) * fst (raw x)) / 2 + (- (snd (raw x) * snd (raw x)) / 2 + - T / 2))%R by field.
    rewrite !exp_plus. set (s := sqrt (2 * PI)) in *. set (q := ((2 * PI) ^ length l)%R) in *. rewrite <- Hs. field. split; assumption.
Qed.
Lemma unitary_sqnorm n U phi : unitary (2 ^ n) U -> sqnorm n (mat_vec (2 ^ n) U phi) = sqnorm n phi.
Proof.
  intros [HU _]. assert (E : RtoC (sqnorm n (mat_vec (2 ^ n) U phi)) = RtoC (sqnorm n phi)); [|now injection E].
  rewrite <- !inner_self, inner_adj. unfold inner. apply Csum_ext. intros i Hi. f_equal. f_equal.
  rewrite <- mat_vec_mul. rewrite (mat_vec_ext _ _ mat_id phi phi i HU (fun _ _ => eq_refl) Hi).
  unfold mat_vec. rewrite (Csum_single _ _ i Hi).
  - unfold mat_id. rewrite N.eqb_refl. ring.
  - intros j _ Hj. unfold mat_id. destruct (N.eqb_spec i j); [congruence|]. ring.
Qed.
Lemma density_invariant n U raw : unitary (2 ^ n) U -> gaussian_density n (mat_vec (2 ^ n) U raw) = gaussian_density n raw.
Proof. intros HU. now rewrite !gaussian_value, unitary_sqnorm. Qed.
Lemma normalised_unitary n U raw psi : unitary (2 ^ n) U -> normalised n raw psi -> normalised n (mat_vec (2 ^ n) U raw) (mat_vec (2 ^ n) U psi).
Proof.
  intros HU [Hz H]. unfold normalised. rewrite (unitary_sqnorm n U raw HU). split; [exact Hz|]. intros x Hx. unfold mat_vec.
  rewrite (Csum_ext _ _ (fun j => (RtoC (/ sqrt (sqnorm n raw)) * (U x j * raw j))%C)).
  - rewrite Csum_mul_l. c_eq; cbn; ring.
  - intros j Hj. rewrite H by exact Hj. c_eq; cbn; ring.
Qed.

(** *** The same seed, two schedules *)
Section TwoOrders.
  Definition four (g k : nat) : R := match k with 3%nat => (-1)%R | _ => 1%R end.
  Lemma four_nonzero : no_double_zero four.
  Proof. intros g k. left. unfold four. repeat (destruct k; try lra). Qed.
  Lemma one_iteration gens draw imf D p i : i < D -> (0 < gens)%nat -> p_at p i = Todo -> p_busy p 0%nat = false ->
    exists q, fill_exec gens draw imf D 5 p q /\ p_at q i = Freed /\ (forall j, j <> i -> p_at q j = p_at p j /\ p_raw q j = p_raw p j) /\
      p_busy q 0%nat = false /\ p_used q 0%nat = S (S (p_used p 0%nat)) /\ p_raw q i = pair_up imf (draw 0%nat (p_used p 0%nat)) (draw 0%nat (S (p_used p 0%nat))).
  Proof.
    intros Hi Hg Ep Eb. eexists. split.
    - eapply e_step; [eapply e_step; [eapply e_step; [eapply e_step; [eapply e_step; [constructor|]|]|]|]|].
      + now apply (s_get _ _ _ _ i 0%nat).
      + apply (s_first _ _ _ _ i 0%nat); [exact Hi|]. cbn [p_at]. apply upd_N.
      + eapply (s_second _ _ _ _ i 0%nat); [exact Hi|]. cbn [p_at]. apply upd_N.
      + eapply (s_store _ _ _ _ i 0%nat); [exact Hi|]. cbn [p_at]. apply upd_N.
      + apply (s_free _ _ _ _ i 0%nat); [exact Hi|]. cbn [p_at]. apply upd_N.
    - cbn [p_at p_used p_busy p_raw]. unfold set_phase. rewrite !upd_N, !upd_nat. split; [reflexivity|]. split; [|auto].
      intros j Hj. unfold upd. destruct (N.eqb_spec j i); [congruence|auto].
  Qed.
  Lemma two_iterations imf w a b : a < 2 -> b < 2 -> a <> b ->
    exists w', haar_fill 1 four imf 2 w (HDone tt w') /\ w_amp w' a = (1, 1)%R /\ w_amp w' b = pair_up imf 1%R (-1)%R.
  Proof.
    intros Ha Hb Hab.
    destruct (one_iteration 1 four imf 2 (fill_start (w_amp w)) a Ha ltac:(lia) eq_refl eq_refl) as (p & E1 & P1 & P2 & P3 & P4 & P5).
    destruct (one_iteration 1 four imf 2 p b Hb ltac:(lia)) as (q & E2 & Q1 & Q2 & Q3 & Q4 & Q5).
    { destruct (P2 b ltac:(congruence)) as [-> _]. reflexivity. } { exact P3. }
    exists (set_amp (p_raw q) w). split.
    - exists (5 + 5)%nat, q. split; [eapply exec_trans; eauto|]. split; [|reflexivity].
      intros i Hi. destruct (N.eq_dec i b) as [->|Hn]; [exact Q1|]. destruct (Q2 i Hn) as [-> _]. assert (i = a) as -> by lia. exact P1.
    - cbn [w_amp set_amp]. split.
      + destruct (Q2 a Hab) as [_ ->]. rewrite P5. cbn. now destruct imf.
      + rewrite Q5, P4. reflexivity.
  Qed.
End TwoOrders.
Lemma two_seeds_raw imf w a b : a < 2 -> b < 2 -> a <> b ->
  exists w', set_Haar_random_state 1 four imf 1 w (HDone tt w') /\
    w_amp w' a = Cscale (/ sqrt 4) (1, 1)%R /\ w_amp w' b = Cscale (/ sqrt 4) (pair_up imf 1%R (-1)%R).
Proof.
  intros Ha Hb Hab. destruct (two_iterations imf w a b Ha Hb Hab) as (w1 & E & A & B).
  assert (Hs : sqnorm 1 (w_amp w1) = 4%R).
  { unfold sqnorm. change (seqN (2 ^ 1)) with [0; 1]. unfold Rsuml. cbn [fold_right].
    assert ((a = 0 /\ b = 1) \/ (a = 1 /\ b = 0)) as [[-> ->]|[-> ->]] by lia; rewrite A, B; unfold Cnorm2; destruct imf; cbn; lra. }
  assert (Hz : sqnorm 1 (w_amp w1) <> 0%R) by (rewrite Hs; lra).
  destruct (StateProofs.normalize_ok 1 w1 Hz) as [H1 (o & Ho)]. pose proof (H1 o Ho) as H. destruct o as [[] w'|w'|]; cbn [done] in H; try tauto.
  exists w'. split; [exists (HDone tt w1); auto|]. destruct H as [H _]. rewrite Hs in H. split; rewrite H by (change (2 ^ 1) with 2; assumption); now rewrite ?A, ?B.
Qed.
Lemma orthogonal_seeds imf w : exists w1 w2,
  set_Haar_random_state 1 four imf 1 w (HDone tt w1) /\ set_Haar_random_state 1 four imf 1 w (HDone tt w2) /\
  inner 1 (w_amp w1) (w_amp w2) = C0.
Proof.
  destruct (two_seeds_raw imf w 0 1 ltac:(lia) ltac:(lia) ltac:(lia)) as (w1 & E1 & A1 & B1).
  destruct (two_seeds_raw imf w 1 0 ltac:(lia) ltac:(lia) ltac:(lia)) as (w2 & E2 & A2 & B2).
  exists w1, w2. split; [exact E1|]. split; [exact E2|]. unfold inner. change (2 ^ 1) with 2. rewrite Csum_2, A1, B1, A2, B2.
  destruct imf; c_eq; cbn; ring.
Qed.
