(** C29, C32, C45: measurement, probabilistic gates and noise. *)
From Verif Require Export CircuitProofs5.
From Coq Require Import ZifyBool ZifyN ZifyNat Permutation Lra.

(** ** Measurement *)
Definition with_qubit (x q : N) (b : bool) : N := if b then N.setbit x q else N.clearbit x q.
Lemma measured_amplitudes n q reset b psi x : measured n q reset b psi x =
  if Bool.eqb (N.testbit x q) (b && negb reset) then Cscale (/ sqrt (bit_prob n q b psi)) (psi (with_qubit x q b)) else C0.
Proof.
  unfold measured, projected, flipped, shows_bit, with_qubit. destruct reset, b, (N.testbit x q) eqn:E; cbn [andb negb Bool.eqb];
    rewrite ?N.lxor_spec, ?N.pow2_bits_true, ?E; cbn [xorb Bool.eqb]; try reflexivity.
  - now rewrite flip_set.
  - now rewrite clearbit_same.
  - now rewrite setbit_same.
  - now rewrite clearbit_same.
Qed.
Lemma measurement_correct n L q bit reset g w : n < 64 -> lanes_ok L -> q < n -> make_measurement q bit reset = Ok g ->
  bit < N.of_nat (length (w_reg w)) -> sqnorm n (w_amp w) = 1%R -> unit_draw (w_rand w 0%nat) ->
  exists b p, p = prob n (fun x => Bool.eqb (N.testbit x q) b) (w_amp w) /\ (0 < p)%R /\
    (b = false <-> (w_rand w 0%nat < prob n (fun x => negb (N.testbit x q)) (w_amp w))%R) /\
    runs (cgate_update n L g) w (done (fun _ w' =>
      (forall x, x < 2 ^ n -> w_amp w' x =
         if Bool.eqb (N.testbit x q) (b && negb reset) then Cscale (/ sqrt p) (w_amp w (if b then N.setbit x q else N.clearbit x q)) else C0) /\
      sqnorm n (w_amp w') = 1%R /\
      nth_error (w_reg w') (N.to_nat bit) = Some b /\ length (w_reg w') = length (w_reg w) /\
      (forall j, j <> N.to_nat bit -> nth_error (w_reg w') j = nth_error (w_reg w) j) /\
      w_home w' = w_home w /\ (forall i, w_rand w' i = w_rand w (S i)))).
Proof.
  intros Hn HL Hq Hm Hb Hs Hu. set (b := shown n q (w_amp w) (w_rand w 0%nat)).
  exists b, (bit_prob n q b (w_amp w)). split; [reflexivity|].
  assert (Hpos : (0 < bit_prob n q b (w_amp w))%R) by (now apply shown_possible). split; [exact Hpos|]. split.
  { assert (Hz : prob n (fun x => negb (N.testbit x q)) (w_amp w) = bit_prob n q false (w_amp w)).
    { apply prob_ext. intros x _. unfold shows_bit. now destruct (N.testbit x q). }
    rewrite Hz. unfold b, shown. destruct (Rlt_dec _ _); split; intros; auto; [discriminate|contradiction]. }
  apply measurement_mask in Hm. destruct Hm as [_ ->]. cbn [cgate_update]. unfold measurement_update.
  rewrite (proj2 (within_bounds_iff n (GBase (2 ^ q) 0 0) Hn)).
  2: { cbn. split; [apply N.pow_lt_mono_r; lia|apply N.neq_0_lt_0, N.pow_nonzero; lia]. }
  cbn [hcheck]. eapply returns_bind; [apply runs_ret; reflexivity|]. eapply returns_bind; [apply runs_get; reflexivity|].
  replace (N.of_nat (length (w_reg w)) <=? bit) with false by lia. cbn [negb hcheck].
  eapply returns_bind; [apply runs_ret; reflexivity|]. eapply runs_bind_done; [apply measure_runs; assumption|].
  intros z w1 (-> & Ha1 & Hh1 & Hr1 & Hd1). rewrite negb_involutive. eapply runs_weaken; [apply with_bit_ok; now rewrite Hr1|].
  intros o ->. simpl. fold b in Ha1 |- *. split.
  - intros x Hx. rewrite Ha1 by assumption. apply measured_amplitudes.
  - split; [rewrite (sqnorm_ext n _ _ Ha1); now apply sqnorm_measured|]. rewrite Hr1, <- reg_set_with_bit by assumption.
    split; [|split; [apply reg_set_length|split; [|split; [exact Hh1|exact Hd1]]]].
    + rewrite reg_set_nth, Nat.eqb_refl. replace (Nat.ltb _ _) with true by lia. reflexivity.
    + intros j Hj. rewrite reg_set_nth. replace (Nat.eqb j (N.to_nat bit)) with false by lia. reflexivity.
Qed.
Lemma throw_first {T} (w : world) (k : unit -> host world T) b : b = false -> throws (hbind (hcheck b) k) w.
Proof.
  intros ->. eapply runs_bind; [apply runs_throw; instantiate (1 := fun o => o = HThrown w); reflexivity|intros ? ? [=]|intros ? [= ->]; reflexivity|intros [=]].
Qed.
Lemma measurement_rejects n L q bit reset g w : n < 64 -> make_measurement q bit reset = Ok g ->
  (n <= q \/ N.of_nat (length (w_reg w)) <= bit) -> throws (cgate_update n L g) w.
Proof.
  intros Hn Hm H. apply measurement_mask in Hm. destruct Hm as [_ ->]. cbn [cgate_update]. unfold measurement_update.
  destruct (within_bounds n (GBase (2 ^ q) 0 0)) eqn:Eb; [|now apply throw_first].
  apply (within_bounds_iff n _ Hn) in Eb. cbn in Eb. destruct Eb as [Eb _].
  assert (q < n) by (destruct (N.ltb_spec q n); [assumption|]; assert (2 ^ n <= 2 ^ q) by (apply N.pow_le_mono_r; lia); lia).
  destruct H as [H|H]; [lia|]. eapply returns_bind; [apply runs_ret; reflexivity|]. eapply returns_bind; [apply runs_get; reflexivity|].
  apply throw_first. lia.
Qed.
(** the precondition on the norm matters *)
Lemma measurement_unnormalised : exists n q bit psi reg, q < n /\ bit < N.of_nat (length reg) /\
  exists g, make_measurement q bit false = Ok g /\
  forall r L, undefined (cgate_update n L g) (World psi None reg r).
Proof.
  exists 1, 0, 0, (fun x => if x =? 0 then RtoC 2 else C0), [false]. split; [lia|]. split; [simpl; lia|]. eexists. split; [reflexivity|].
  intros r L. cbn [cgate_update]. unfold measurement_update. replace (within_bounds 1 (GBase (g_t _) 0 0)) with true by reflexivity. cbn [hcheck].
  eapply returns_bind; [apply runs_ret; reflexivity|]. eapply returns_bind; [apply runs_get; reflexivity|]. cbn [w_reg length negb N.of_nat N.leb N.compare hcheck].
  eapply returns_bind; [apply runs_ret; reflexivity|]. eapply runs_bind; [instantiate (1 := fun o => o = HUndefined)|intros ? ? [=]|intros ? [=]|reflexivity].
  unfold apply_measurement_update. eapply returns_bind; [apply (zero_probability_ok 1 0); lia|].
  eapply runs_bind; [instantiate (1 := fun o => o = HUndefined)|intros ? ? [=]|intros ? [=]|reflexivity].
  assert (E : prob 1 (fun x => negb (N.testbit x 0)) (fun x => if x =? 0 then RtoC 2 else C0) = 4%R).
  { unfold prob. change (seqN (2 ^ 1)) with [0; 1]. simpl. unfold Cnorm2. simpl. ring. }
  cbn [w_amp]. rewrite E. unfold hbernoulli. destruct (Rle_dec 0 4); [|split; [intros o ->; reflexivity|eexists; reflexivity]].
  destruct (Rle_dec 4 1) as [H|H]; [lra|]. split; [intros o ->; reflexivity|eexists; reflexivity].
Qed.
