(** Sums and samples that are wrong: adding up in order stalls. *)
From Verif Require Export FloatProofs16.
From Verif Require Import StateProofs StateProofs2 FloatProofs7 FloatProofs10.
From Flocq Require Import Core.
From Coq Require Import Permutation Lra ZifyBool ZifyN ZifyNat.
Open Scope R_scope.

Section Formats.
  Variables prec emin : Z.
  Hypothesis Hp : (2 <= prec)%Z.
  Notation r := (nearest prec emin).
  Lemma prec_pos : Prec_gt_0 prec. Proof. unfold Prec_gt_0. lia. Qed.
  Lemma nearest_odd x : r (- x) = - r x.
  Proof. unfold nearest. apply round_NE_opp. Qed.
  Lemma nearest_sign x : 0 <= x -> 0 <= r x.
  Proof.
    intros H. unfold nearest. pose proof prec_pos. rewrite <- (round_0 radix2 (FLT_exp emin prec) ZnearestE). apply round_le; [apply FLT_exp_valid; assumption|apply valid_rnd_N|exact H].
  Qed.
  Lemma nearest_exact m e : (Z.abs m <= 2 ^ prec)%Z -> (emin <= e)%Z -> r (IZR m * bpow radix2 e) = IZR m * bpow radix2 e.
  Proof.
    intros Hm He. unfold nearest. apply round_generic; [apply valid_rnd_N|]. pose proof prec_pos.
    assert (K : forall m, (Z.abs m < 2 ^ prec)%Z -> forall e, (emin <= e)%Z -> generic_format radix2 (FLT_exp emin prec) (IZR m * bpow radix2 e)).
    { intros m' Hm' e' He'. apply generic_format_FLT. exists (Float radix2 m' e'); cbn; auto. }
    destruct (Z.eq_dec (Z.abs m) (2 ^ prec)) as [E|E]; [|apply K; lia].
    assert (Ep : (2 ^ prec = 2 ^ (prec - 1) * 2)%Z) by (replace prec with (prec - 1 + 1)%Z at 1 by lia; rewrite Z.pow_add_r by lia; reflexivity).
    assert (Hq : (0 < 2 ^ (prec - 1))%Z) by (apply Z.pow_pos_nonneg; lia).
    assert (Em : exists q, m = (q * 2)%Z /\ (Z.abs q < 2 ^ prec)%Z).
    { destruct (Z.abs_eq_or_opp m) as [A|A]; rewrite A in E.
      - exists (2 ^ (prec - 1))%Z. lia.
      - exists (- 2 ^ (prec - 1))%Z. lia. }
    destruct Em as (q & -> & Hq'). replace (IZR (q * 2) * bpow radix2 e) with (IZR q * bpow radix2 (e + 1)); [apply K; [assumption|lia]|].
    rewrite mult_IZR, bpow_plus. change (bpow radix2 1) with 2. ring.
  Qed.
  (** halfway above the power of two at which the spacing doubles: rounded down, to the even neighbour *)
  Lemma nearest_stuck e : (emin <= e)%Z -> r (IZR (2 ^ prec) * bpow radix2 e + bpow radix2 e) = IZR (2 ^ prec) * bpow radix2 e.
  Proof.
    intros He. pose proof prec_pos. set (x := IZR (2 ^ prec) * bpow radix2 e + bpow radix2 e).
    assert (Ep : (2 ^ prec = 2 * 2 ^ (prec - 1))%Z) by (replace prec with (1 + (prec - 1))%Z at 1 by lia; rewrite Z.pow_add_r by lia; reflexivity).
    assert (Eq : (2 ^ (prec - 1) = 2 * 2 ^ (prec - 2))%Z) by (replace (prec - 1)%Z with (1 + (prec - 2))%Z by lia; rewrite Z.pow_add_r by lia; reflexivity).
    assert (Hq : (0 < 2 ^ (prec - 2))%Z) by (apply Z.pow_pos_nonneg; lia).
    assert (Eb : IZR (2 ^ prec) = bpow radix2 prec) by (rewrite <- IZR_Zpower by lia; reflexivity).
    assert (Hb : 0 < bpow radix2 e) by apply bpow_gt_0.
    assert (Hx0 : 0 < x). { unfold x. rewrite Eb. pose proof (bpow_gt_0 radix2 prec). nra. }
    assert (Em : mag radix2 x = (prec + e + 1)%Z :> Z).
    { apply mag_unique_pos. replace (prec + e + 1 - 1)%Z with (prec + e)%Z by lia. unfold x. rewrite Eb, <- bpow_plus. split; [lra|].
      rewrite (bpow_plus radix2 (prec + e) 1). change (bpow radix2 1) with 2. assert (bpow radix2 e < bpow radix2 (prec + e)) by (apply bpow_lt; lia). lra. }
    assert (Ec : cexp radix2 (FLT_exp emin prec) x = (e + 1)%Z) by (unfold cexp; rewrite Em; unfold FLT_exp; lia).
    unfold nearest, Generic_fmt.round, scaled_mantissa. rewrite Ec. unfold F2R. cbn [Fnum Fexp].
    assert (Es : x * bpow radix2 (- (e + 1)) = IZR (2 ^ (prec - 1)) + / 2).
    { rewrite bpow_opp, bpow_plus. change (bpow radix2 1) with 2. unfold x. rewrite Ep, mult_IZR. field. lra. }
    rewrite Es. assert (Ez : ZnearestE (IZR (2 ^ (prec - 1)) + / 2) = (2 ^ (prec - 1))%Z).
    { unfold Znearest. assert (Ef : Zfloor (IZR (2 ^ (prec - 1)) + / 2) = (2 ^ (prec - 1))%Z) by (apply Zfloor_imp; rewrite plus_IZR; lra). rewrite Ef.
      replace (IZR (2 ^ (prec - 1)) + / 2 - IZR (2 ^ (prec - 1))) with (/ 2) by ring. rewrite Rcompare_Eq by reflexivity.
      rewrite Eq, Z.even_mul. reflexivity. }
    rewrite Ez, bpow_plus. change (bpow radix2 1) with 2. rewrite Ep, mult_IZR. ring.
  Qed.
End Formats.

Lemma norm2_real A x : a_rnd A 0 = 0 -> (forall y, a_rnd A (a_rnd A y) = a_rnd A y) -> f_norm2 A (RtoC x) = a_rnd A (x * x).
Proof.
  intros H0 Hi. unfold f_norm2, two_products, RtoC. cbn [fst snd]. rewrite !Rmult_0_l. destruct (a_fuse A _ _ _ _ _); rewrite ?H0, ?Rplus_0_r, ?Hi; reflexivity.
Qed.

Lemma pow_bpow k : 2 ^ N.to_nat k = bpow radix2 (Z.of_N k).
Proof. rewrite FloatProofs7.bpow_powerRZ. replace (Z.of_N k) with (Z.of_nat (N.to_nat k)) by lia. rewrite <- pow_powerRZ. reflexivity. Qed.
Lemma uniform_norm m : sqnorm (2 * m) (uniform m) = 1.
Proof.
  unfold sqnorm, uniform. rewrite Rsuml_same, length_seqN. rewrite <- two_pow. unfold Cnorm2, RtoC. cbn [fst snd]. rewrite !pow_bpow.
  replace (Z.of_N (2 * m)) with (Z.of_N m + Z.of_N m)%Z by lia. rewrite bpow_plus. pose proof (bpow_gt_0 radix2 (Z.of_N m)). field. lra.
Qed.

Section Stall.
  Variables (prec emin : Z) (A : arith) (m : N).
  Hypothesis HA : a_rnd A = nearest prec emin.
  Hypothesis Hp : (8 <= prec)%Z.
  Let Hp2 : (2 <= prec)%Z. Proof. lia. Qed.
  Let n := (2 * m)%N.
  Hypothesis He : (emin <= - Z.of_N n)%Z.
  Let Hz : a_rnd A 0 = 0. Proof. rewrite HA. apply nearest_0. Qed.
  Let Hi y : a_rnd A (a_rnd A y) = a_rnd A y. Proof. rewrite HA. apply nearest_idem. exact Hp. Qed.
  Let unit := bpow radix2 (- Z.of_N n).
  Lemma uniform_unit i : f_norm2 A (uniform m i) = unit.
  Proof.
    unfold uniform. rewrite norm2_real by assumption. rewrite pow_bpow, <- bpow_opp, <- bpow_plus. replace (- Z.of_N m + - Z.of_N m)%Z with (- Z.of_N n)%Z by (unfold n; lia).
    rewrite HA. fold unit. rewrite <- (Rmult_1_l unit). apply nearest_exact; [exact Hp2| |assumption]. assert (2 ^ 1 <= 2 ^ prec)%Z by (apply Z.pow_le_mono_r; lia). lia.
  Qed.
  Lemma stall_step k : (0 <= k)%Z -> f_plus A (IZR (Z.min k (2 ^ prec)) * unit) unit = IZR (Z.min (k + 1) (2 ^ prec)) * unit.
  Proof.
    intros Hk. unfold f_plus. rewrite HA. destruct (Z.lt_ge_cases k (2 ^ prec)) as [H|H].
    - rewrite !Z.min_l by lia. replace (IZR k * unit + unit) with (IZR (k + 1) * unit) by (rewrite plus_IZR; ring). apply nearest_exact; [exact Hp2|lia|assumption].
    - rewrite !Z.min_r by lia. apply nearest_stuck; [exact Hp2|assumption].
  Qed.
  Lemma stall_stacked D i : (i <= D)%N -> f_stacked A [seqN D] (uniform m) i = IZR (Z.min (Z.of_N i) (2 ^ prec)) * unit.
  Proof.
    induction i as [|i IH] using N.peano_ind; intros H.
    - rewrite Z.min_l by (apply Z.pow_nonneg; lia). change (f_stacked A [seqN D] (uniform m) 0) with 0. change (Z.of_N 0) with 0%Z. ring.
    - rewrite <- N.add_1_r, stacked_one, IH, uniform_unit, stall_step by lia. do 2 f_equal. lia.
  Qed.
  Lemma fold_stacked psi D k : (k <= D)%N -> fold_left (fun s i => f_plus A s (f_norm2 A (psi i))) (seqN k) 0 = f_stacked A [seqN D] psi k.
  Proof.
    induction k as [|k IH] using N.peano_ind; intros H; [reflexivity|]. rewrite seqN_succ, fold_left_app. cbn [fold_left]. rewrite IH by lia.
    rewrite <- N.add_1_r, stacked_one by lia. reflexivity.
  Qed.
  Hypothesis Hn : (prec <= Z.of_N n)%Z.
  Let total := bpow radix2 (prec - Z.of_N n).
  Lemma stall_total : IZR (Z.min (Z.of_N (2 ^ n)) (2 ^ prec)) * unit = total.
  Proof.
    assert (E : (2 ^ prec <= Z.of_N (2 ^ n))%Z) by (rewrite N2Z.inj_pow; apply Z.pow_le_mono_r; lia).
    rewrite Z.min_r by exact E. change 2%Z with (radix_val radix2). rewrite IZR_Zpower by lia. unfold unit, total. rewrite <- bpow_plus. f_equal. 
  Qed.
  Lemma in_order_sum psi (f : N -> rprog C N R) w v : (forall i, (i < 2 ^ n)%N -> rrun (fun a => a <? 2 ^ n)%N (w_amp w) (f i) = Some (f_norm2 A (psi i))) ->
    f_stacked A [seqN (2 ^ n)] psi (2 ^ n) = v -> returns (f_sum_R A in_order (2 ^ n) (2 ^ n) f) w v.
  Proof.
    intros Hf Hv. assert (K : reduce 0 (f_plus A) (fun i => rrun (fun a => a <? 2 ^ n)%N (w_amp w) (f i)) (RLeaf (seqN (2 ^ n))) = Some v).
    { rewrite (reduce_pure 0 (f_plus A) (fun i => f_norm2 A (psi i))).
      - cbn [tsum]. rewrite fold_stacked with (D := (2 ^ n)%N) by lia. now rewrite Hv.
      - intros i Hi'. apply Hf. now apply in_seqN. }
    split.
    - intros o (t & Ht & (k & ->) & ->). unfold reduction_of in Ht. cbn [leaves] in Ht.
      assert (k = 2 ^ n)%N. { apply Permutation_length in Ht. rewrite !length_seqN in Ht. lia. } subst k. now rewrite K.
    - eexists. exists (RLeaf (seqN (2 ^ n))). split; [apply reduction_exists|]. split; [now exists (2 ^ n)%N|reflexivity].
  Qed.
  Lemma stall_norm w : w_amp w = uniform m -> returns (f_get_squared_norm A in_order n) w (powerRZ 2 (prec - Z.of_N n)).
  Proof.
    intros Hw. unfold f_get_squared_norm. apply (in_order_sum (uniform m)).
    - intros i Hlt. unfold f_read_norm. cbn [rrun]. rewrite OperatorProofs.ltb_true by assumption. now rewrite Hw.
    - rewrite stall_stacked by lia. rewrite stall_total. apply FloatProofs7.bpow_powerRZ.
  Qed.
  (** normalize() *)
  Lemma stall_normalize w k : (prec = 2 * k)%Z -> w_amp w = uniform m ->
    runs (f_normalize A in_order n) w (done (fun _ w' => sqnorm n (w_amp w') = powerRZ 2 (Z.of_N n - prec))).
  Proof.
    intros Hk Hw. unfold f_normalize. apply runs_bind_done with (P := fun v w' => v = powerRZ 2 (prec - Z.of_N n) /\ w' = w); [apply (runs_weaken _ _ _ _ (stall_norm w Hw)); intros o ->; cbn; auto|].
    cbv beta. intros v w1 (-> & ->). rewrite <- FloatProofs7.bpow_powerRZ. set (kk := (k - Z.of_N m)%Z).
    assert (One : (Z.abs 1 <= 2 ^ prec)%Z). { assert (2 ^ 1 <= 2 ^ prec)%Z by (apply Z.pow_le_mono_r; lia). lia. }
    assert (Ex : forall e, (emin <= e)%Z -> a_rnd A (bpow radix2 e) = bpow radix2 e).
    { intros e He'. rewrite HA, <- (Rmult_1_l (bpow radix2 e)). apply nearest_exact; [exact Hp2|exact One|exact He']. }
    rewrite Ex by lia. assert (Es : sqrt (bpow radix2 (prec - Z.of_N n)) = bpow radix2 kk).
    { replace (prec - Z.of_N n)%Z with (kk + kk)%Z by (unfold kk, n; lia). rewrite bpow_plus. apply sqrt_square. apply bpow_ge_0. }
    rewrite Es, Ex by (unfold kk, n in *; lia). pose proof (bpow_gt_0 radix2 kk) as Hb. destruct (Req_EM_T (bpow radix2 kk) 0) as [E|_]; [lra|].
    eapply runs_done_mono.
    { apply (one_kernel_sets (2 ^ n) _ (fun i v => (a_rnd A (fst v / bpow radix2 kk), a_rnd A (snd v / bpow radix2 kk))) w (fun x => RtoC (bpow radix2 (- k)))); [kernel_tac|kernel_tac|].
      intros x Hx. cbv beta. rewrite Hw. unfold uniform, RtoC. cbn [fst snd]. rewrite pow_bpow, <- bpow_opp. unfold Rdiv. rewrite <- bpow_opp, <- bpow_plus.
      rewrite Rmult_0_l, Hz. symmetry. replace (- Z.of_N m + - kk)%Z with (- k)%Z by (unfold kk; lia). now rewrite Ex by lia. }
    cbv beta. intros _ w' (Hw' & _). unfold sqnorm. rewrite (Rsuml_ext _ (fun _ => bpow radix2 (- prec))).
    - rewrite Rsuml_same, length_seqN, <- two_pow, pow_bpow, <- bpow_plus, <- FloatProofs7.bpow_powerRZ. f_equal. lia.
    - intros x Hx. apply in_seqN in Hx. rewrite Hw' by assumption. unfold Cnorm2, RtoC. cbn [fst snd]. rewrite <- bpow_plus. rewrite Rmult_0_l, Rplus_0_r. f_equal. lia.
  Qed.
  (** sampling *)
  Lemma stall_sampling count rounds l : rounds_ok A rounds -> f_sampling A n [seqN (2 ^ n)] (uniform m) count rounds = Some l ->
    forall b, In b l -> (Z.of_N b < 2 ^ prec)%Z.
  Proof.
    intros Hr E. unfold f_sampling in E.
    destruct (sampling_loop n N.eqb (fun _ => f_choose A n [seqN (2 ^ n)] (uniform m)) rounds (seqN count) (fun _ => 0%N)) as [r|] eqn:El; [|discriminate].
    injection E as <-. destruct (sampling_loop_spec N.eqb neqb_spec _ _ _ _ _ _ (NoDup_seqN count) El) as [_ H].
    intros b Hx. apply in_map_iff in Hx as (s & <- & Hs). destruct (H s Hs) as (draw & i & Hd & Hne & ->). destruct (Hr draw i Hd) as [_ U2].
    destruct (f_choose_spec A (uniform m) n [seqN (2 ^ n)] (draw i) U2) as [(H1 & H2 & H3)|[H1 _]]; [|contradiction].
    set (b := f_choose A n [seqN (2 ^ n)] (uniform m) (draw i)) in *. rewrite !stall_stacked in * by lia.
    destruct (Z.lt_ge_cases (Z.of_N b) (2 ^ prec)) as [Hlt|Hge]; [assumption|]. exfalso. rewrite !Z.min_r in * by lia. lra.
  Qed.
End Stall.

Lemma bad_norm : sqnorm 3 bad_state = 1.
Proof. unfold sqnorm. change (seqN (2 ^ 3)) with [0; 1; 2; 3; 4; 5; 6; 7]%N. unfold Rsuml. cbn [fold_right]. unfold bad_state, Cnorm2, C0. cbn [fst snd]. lra. Qed.
Section Bad.
  Variable A : arith.
  Hypothesis HA : a_rnd A = nearest 8 (-133).
  Let Hz : a_rnd A 0 = 0. Proof. rewrite HA. apply nearest_0. Qed.
  Let Hi y : a_rnd A (a_rnd A y) = a_rnd A y. Proof. rewrite HA. apply nearest_idem. lia. Qed.
  Lemma bf_exact x mt e : (Z.abs mt <= 256)%Z -> (-133 <= e)%Z -> x = IZR mt * bpow radix2 e -> a_rnd A x = x.
  Proof. intros H1 H2 ->. rewrite HA. apply nearest_exact; [lia|exact H1|exact H2]. Qed.
  Lemma bf_stuck : a_rnd A (/ 4 + / 1024) = / 4.
  Proof.
    rewrite HA. pose proof (nearest_stuck 8 (-133) ltac:(lia) (-10) ltac:(lia)) as H. cbn in H. 
    replace (/ 4 + / 1024) with (256 * / 1024 + / 1024) by field. replace (/ 4) with (256 * / 1024) by field. exact H.
  Qed.
  Lemma bad_choose : f_choose A 3 bad_chunks bad_state (/ 4) = 3%N.
  Proof.
    assert (N0 : f_norm2 A (bad_state 0%N) = / 4).
    { change (bad_state 0%N) with (RtoC (/ 2)). rewrite norm2_real by assumption. replace (/ 2 * / 2) with (/ 4) by field. apply (bf_exact _ 1 (-2)); [lia|lia|cbn; field]. }
    assert (NN : forall i, (i = 1 \/ i = 2)%N -> f_norm2 A (bad_state i) = / 1024).
    { intros i Hx. replace (bad_state i) with (RtoC (/ 32)) by (destruct Hx as [-> | ->]; reflexivity). rewrite norm2_real by assumption. replace (/ 32 * / 32) with (/ 1024) by field.
      apply (bf_exact _ 1 (-10)); [lia|lia|cbn; field]. }
    assert (N3 : f_norm2 A (bad_state 3%N) = 0).
    { change (bad_state 3%N) with (RtoC 0). rewrite norm2_real by assumption. rewrite Rmult_0_l. exact Hz. }
    assert (R4 : a_rnd A (/ 4) = / 4) by (apply (bf_exact _ 1 (-2)); [lia|lia|cbn; field]).
    assert (P0 : f_plus A 0 (/ 4) = / 4) by (unfold f_plus; rewrite Rplus_0_l; exact R4).
    assert (P1 : f_plus A (/ 4) (/ 1024) = / 4) by apply bf_stuck.
    assert (P2 : f_plus A 0 (/ 1024) = / 1024) by (unfold f_plus; rewrite Rplus_0_l; apply (bf_exact _ 1 (-10)); [lia|lia|cbn; field]).
    assert (P3 : f_plus A (/ 1024) (/ 1024) = / 512) by (unfold f_plus; replace (/ 1024 + / 1024) with (/ 512) by field; apply (bf_exact _ 1 (-9)); [lia|lia|cbn; field]).
    assert (P4 : f_plus A (/ 4) (/ 512) = 129 / 512) by (unfold f_plus; replace (/ 4 + / 512) with (129 / 512) by field; apply (bf_exact _ 129 (-9)); [lia|lia|cbn; field]).
    assert (P5 : f_plus A (129 / 512) 0 = 129 / 512) by (unfold f_plus; rewrite Rplus_0_r; apply (bf_exact _ 129 (-9)); [lia|lia|cbn; field]).
    assert (T0 : chunk_total A bad_state [0%N] = / 4) by (unfold chunk_total; cbn [fold_left]; now rewrite N0, P0).
    assert (T1 : chunk_total A bad_state [1; 2]%N = / 512) by (unfold chunk_total; cbn [fold_left]; now rewrite !NN, P2, P3 by auto).
    assert (S : exists rest, 0 :: f_scan A bad_state 0 bad_chunks = 0 :: / 4 :: / 4 :: / 4 :: 129 / 512 :: rest).
    { unfold bad_chunks. cbn [f_scan running app]. rewrite T0, T1, P0, N0, P0, !NN, !P1, P4, N3, P5 by auto. eexists. reflexivity. }
    destruct S as [rest S]. unfold f_choose. rewrite R4. change (N.to_nat (2 ^ 3 + 1)) with 9%nat. change (2 ^ 3 + 1)%N with 9%N.
    assert (S2 : f_stacked A bad_chunks bad_state 2%N = / 4) by (unfold f_stacked; now rewrite S).
    assert (S3 : f_stacked A bad_chunks bad_state 3%N = / 4) by (unfold f_stacked; now rewrite S).
    assert (S4 : f_stacked A bad_chunks bad_state 4%N = 129 / 512) by (unfold f_stacked; now rewrite S).
    cbn [bsearch]. change (1 <? 9 - 0)%N with true. cbv iota zeta. change ((0 + 9) / 2)%N with 4%N. rewrite S4. destruct (Rlt_dec (/ 4) (129 / 512)) as [_|Hc]; [|lra].
    change (1 <? 4 - 0)%N with true. cbv iota. change ((0 + 4) / 2)%N with 2%N. rewrite S2. destruct (Rlt_dec (/ 4) (/ 4)) as [Hc|_]; [lra|].
    change (1 <? 4 - 2)%N with true. cbv iota. change ((2 + 4) / 2)%N with 3%N. rewrite S3. destruct (Rlt_dec (/ 4) (/ 4)) as [Hc|_]; [lra|].
    reflexivity.
  Qed.
  Lemma bad_sampling : f_sampling A 3 bad_chunks bad_state 1 [fun _ => / 4] = Some [3%N].
  Proof. unfold f_sampling. change (seqN 1) with [0%N]. cbn [sampling_loop sampling_store]. rewrite bad_choose. reflexivity. Qed.
End Bad.

