(** A measurement in rounded arithmetic. *)
From Verif Require Export FloatProofs21.
From Verif Require Import FloatProofs FloatProofs4 FloatProofs6 CircuitProofs StateProofs RotationProofs.
From Coq Require Import FunctionalExtensionality Lia Lra ZifyBool ZifyN ZifyNat.
Open Scope R_scope.

(** ** The projections are exact *)
Section Project.
  Variables (u eta : R) (A : arith).
  Hypothesis HA : accurate u eta A.
  Lemma mul_one_zero (mul : N -> C -> C -> C) : mul = f_mul A \/ mul = f_simd_mul A -> forall i v, held_number A v -> mul i C1 v = v /\ mul i C0 v = C0.
  Proof.
    intros Hm i [x y] [Hx Hy]. cbn in Hx, Hy. pose proof (acc_zero _ _ _ HA) as Hz.
    destruct Hm as [-> | ->]; unfold f_mul, f_simd_mul, two_products, C1, C0; cbn [fst snd]; split; f_equal; destruct (a_fuse _ _ _ _ _ _);
      rewrite ?Rmult_0_l, ?Rmult_1_l, ?Hx, ?Hy, ?Hz, ?Rminus_0_r, ?Rplus_0_r, ?Hx, ?Hy, ?Hz; try reflexivity.
    all: rewrite ?Rminus_0_r, ?Rplus_0_r, ?Hx, ?Hy, ?Hz; reflexivity.
  Qed.
  Lemma add_zero v : held_number A v -> f_add A v C0 = v /\ f_add A C0 v = v.
  Proof. destruct v as [x y]. intros [Hx Hy]. cbn in Hx, Hy. unfold f_add, C0. cbn [fst snd]. rewrite !Rplus_0_r, !Rplus_0_l, Hx, Hy. auto. Qed.

  Variables (n L : N).
  Hypothesis Hn : (n < 64)%N.
  Hypothesis HL : lanes_ok L.
  Lemma one_out q M psi : (q < n)%N -> exists mul, (mul = f_mul A \/ mul = f_simd_mul A) /\
    kcomputes N.eqb (fun a => (a <? 2 ^ n)%N) (f_one_gate A n (2 ^ n) L (2 ^ q) 0 0 M) psi
      (out n 1 0 0 (pair_of q (fun v0 v1 => f_add A (mul 0%N (M 0%N 0%N) v0) (mul 1%N (M 0%N 1%N) v1)) (fun v0 v1 => f_add A (mul 2%N (M 1%N 0%N) v0) (mul 3%N (M 1%N 1%N) v1)) psi) psi).
  Proof.
    intros Hq. assert (Hn' : (n <= 64)%N) by lia. assert (HB : (1 * 2 ^ n <= two64)%N) by (rewrite N.mul_1_l; apply N.pow_le_mono_r; lia).
    assert (Hc : (0 < 2 ^ n)%N) by (apply N.neq_0_lt_0, N.pow_nonzero; lia). assert (Hcv : N.land 0 0 = 0%N) by reflexivity. assert (Hd : N.testbit 0 q = false) by apply N.bits_0.
    unfold f_one_gate. destruct (use_simd n L (N.lor (2 ^ q) 0)) eqn:E.
    - exists (f_simd_mul A). split; [now right|].
      destruct (use_simd_true n 1 0 0 L Hn' HB Hc Hcv HL (N.lor (2 ^ q) 0)) as (l & El & H1 & H2); [|exact E|].
      { apply lor_u64_pow2; [apply N.pow_lt_mono_r; lia|assumption]. }
      rewrite El in *. unfold f_one_simd. cbv zeta.
      match goal with |- kcomputes _ _ (Kernel _ ?b) _ _ =>
        assert (Eb : b = (fun g => let basis0 := N.lor (insert_zero_at_mask_positions (g * 2 ^ l) (N.lor (2 ^ q) 0)) 0 in
          let basis1 := N.lor basis0 (2 ^ q) in
          lanes_in_row n (1 * 2 ^ n) (2 ^ l) basis0 (lanes_in_row n (1 * 2 ^ n) (2 ^ l) basis1 (
          load_lanes (N.to_nat (2 ^ l)) basis0 (fun v0 =>
          load_lanes (N.to_nat (2 ^ l)) basis1 (fun v1 =>
            store_lanes basis0 (map2C (fun x y => f_add A (f_simd_mul A 0 (M 0%N 0%N) x) (f_simd_mul A 1 (M 0%N 1%N) y)) v0 v1)
             (store_lanes basis1 (map2C (fun x y => f_add A (f_simd_mul A 2 (M 1%N 0%N) x) (f_simd_mul A 3 (M 1%N 1%N) y)) v0 v1) Ret)))))))
      end.
      { extensionality g. cbv zeta. rewrite N.mul_1_l. f_equal. f_equal. f_equal. extensionality v0. f_equal. extensionality v1. now rewrite !map2C_map. }
      rewrite Eb. pose proof (pair_simd n 1 0 0 Hn' HB Hc Hcv q l) as Hp. rewrite !N.mul_1_l in Hp. rewrite N.mul_1_l. apply Hp; assumption.
    - exists (f_mul A). split; [now left|]. pose proof (pair_group n 1 0 0 Hn' HB Hc Hcv q) as Hp. rewrite !N.mul_1_l in Hp.
      apply (Hp (fun b0 => Rd b0 (fun val0 => Rd (N.lor b0 (2 ^ q)) (fun val1 =>
          Wr b0 (f_add A (f_mul A 0 (M 0%N 0%N) val0) (f_mul A 1 (M 0%N 1%N) val1))
          (Wr (N.lor b0 (2 ^ q)) (f_add A (f_mul A 2 (M 1%N 0%N) val0) (f_mul A 3 (M 1%N 1%N) val1)) Ret))))); try assumption.
      + intros it. cbv zeta. rewrite (N.lor_comm 0). reflexivity.
      + intros b; simpl; repeat split; auto.
      + intros b Hne; simpl; unfold upd; upd_simpl; split; reflexivity.
  Qed.
  Lemma project_exact q (b : bool) w : (q < n)%N -> held A (2 ^ n) (w_amp w) ->
    sets (2 ^ n) (hkernel n (f_std1_kernel A n (2 ^ n) L (if b then GP1 else GP0) (2 ^ q) 0 0)) w (kept (shows_bit q b) (w_amp w)).
  Proof.
    intros Hq Hh. set (M := if b then PROJ_1_MATRIX else PROJ_0_MATRIX). destruct (one_out q M (w_amp w) Hq) as (mul & Hm & Hk).
    assert (Ek : f_std1_kernel A n (2 ^ n) L (if b then GP1 else GP0) (2 ^ q) 0 0 = f_one_gate A n (2 ^ n) L (2 ^ q) 0 0 M) by (unfold M; destruct b; reflexivity). rewrite Ek.
    assert (Hu : updates_to (2 ^ n) (InPlace [f_one_gate A n (2 ^ n) L (2 ^ q) 0 0 M]) (w_amp w) (kept (shows_bit q b) (w_amp w))).
    { eapply updates_inplace1; [exact Hk|]. intros a Ha. unfold out. rewrite N.mul_1_l. replace (a <? 2 ^ n)%N with true by lia. rewrite N.land_0_r. cbn [andb N.eqb].
      unfold pair_of, kept, shows_bit. pose proof (mul_one_zero mul Hm) as Hmul.
      assert (H0 : (N.ldiff a (2 ^ q) < 2 ^ n)%N) by (pose proof (ldiff_lt_D a (2 ^ q) 1 n) as H; rewrite !N.mul_1_l in H; now apply H).
      assert (H1 : (N.lor (N.ldiff a (2 ^ q)) (2 ^ q) < 2 ^ n)%N) by (apply lor_u64_pow2; [exact H0|apply N.pow_lt_mono_r; lia]).
      pose proof (Hh _ H0) as V0. pose proof (Hh _ H1) as V1. pose proof (Hh a Ha) as Va. pose proof (held_0 u eta A HA) as VZ.
      assert (Z0 : f_add A C0 C0 = C0) by (now apply add_zero).
      destruct (pow2_group_cases a q) as [[E Ea]|[E Ea]]; rewrite E; unfold M; destruct b; cbn [Bool.eqb PROJ_0_MATRIX PROJ_1_MATRIX mat2];
        change (1 =? 1)%N with true; change (0 =? 1)%N with false; change (1 =? 0)%N with false; change (0 =? 0)%N with true; cbn [andb];
        unfold PROJ_0_MATRIX, PROJ_1_MATRIX, mat2; cbn [N.eqb andb].
      - rewrite !(fun i => proj2 (Hmul i _ V0)), !(fun i => proj2 (Hmul i _ V1)). exact Z0.
      - rewrite !(fun i => proj1 (Hmul i _ V0)), !(fun i => proj2 (Hmul i _ V1)). rewrite Ea at 2. now apply add_zero.
      - rewrite !(fun i => proj2 (Hmul i _ V0)), !(fun i => proj1 (Hmul i _ V1)). rewrite Ea at 2. now apply add_zero.
      - rewrite !(fun i => proj2 (Hmul i _ V0)), !(fun i => proj2 (Hmul i _ V1)). exact Z0. }
    eapply runs_weaken; [apply (plan_runs _ _ _ _ Hu)|]. intros [t w'|w'|]; simpl; auto. intros (H1 & H2 & H3 & H4). repeat split; assumption.
  Qed.
End Project.

(** ** Distances *)
Lemma normal_close n a c : 0 < vnorm n a -> 0 < vnorm n c ->
  distance n (fun x => Cscale (/ vnorm n a) (a x)) (fun x => Cscale (/ vnorm n c) (c x)) <= 2 * distance n a c / vnorm n c.
Proof.
  intros Ha Hc. unfold distance at 1.
  rewrite (vnorm_ext n _ (fun x => RtoC (/ vnorm n c) * (a x - c x) + RtoC (/ vnorm n a - / vnorm n c) * a x)%C) by (intros; unfold Cscale, RtoC; c_eq; cbn; ring).
  eapply Rle_trans; [apply vnorm_add|]. rewrite !vnorm_real. fold (distance n a c). set (x := vnorm n a) in *. set (y := vnorm n c) in *. set (d := distance n a c).
  assert (Hd : Rabs (y - x) <= d). { pose proof (vnorm_distance n a c). pose proof (vnorm_distance n c a) as H'. rewrite (distance_sym n c a) in H'. fold x y d in H, H'. apply Rabs_le. lra. }
  rewrite (Rabs_right (/ y)) by (apply Rle_ge, Rlt_le, Rinv_0_lt_compat; exact Hc).
  replace (/ x - / y) with ((y - x) * (/ x * / y)) by (field; lra). rewrite Rabs_mult, (Rabs_right (/ x * / y)) by (apply Rle_ge, Rlt_le, Rmult_lt_0_compat; now apply Rinv_0_lt_compat).
  replace (Rabs (y - x) * (/ x * / y) * x) with (Rabs (y - x) * / y) by (field; lra).
  assert (Rabs (y - x) * / y <= d * / y) by (apply Rmult_le_compat_r; [apply Rlt_le, Rinv_0_lt_compat; exact Hc|exact Hd]). unfold Rdiv. lra.
Qed.
Lemma flipped_distance n q a b : (q < n)%N -> distance n (flipped q a) (flipped q b) = distance n a b.
Proof.
  intros Hq. unfold distance, flipped. apply (vnorm_xor n (2 ^ q) (fun x => a x - b x)%C). apply N.pow_lt_mono_r; lia.
Qed.
Lemma projected_kept n q b phi : 0 < bit_prob n q b phi -> vnorm n (kept (shows_bit q b) phi) = sqrt (bit_prob n q b phi) /\
  forall x, projected n q b phi x = Cscale (/ vnorm n (kept (shows_bit q b) phi)) (kept (shows_bit q b) phi x).
Proof.
  intros Hp. assert (E : vnorm n (kept (shows_bit q b) phi) = sqrt (bit_prob n q b phi)) by (unfold vnorm, bit_prob; now rewrite prob_kept). split; [exact E|]. intros x. rewrite E.
  unfold projected, kept. destruct (shows_bit q b x); [reflexivity|]. unfold Cscale, C0. cbn. f_equal; ring.
Qed.

(** ** normalize() stores numbers of the type *)
Lemma hplan_keeps D P ks w o : Forall (kernel_keeps P) ks -> (forall x, (x < D)%N -> P (w_amp w x)) -> hplan D (InPlace ks) w o ->
  match o with HDone _ w' => forall x, (x < D)%N -> P (w_amp w' x) | _ => True end.
Proof.
  intros Hk Hw (junk & scheds & Ho). cbn [run_plan] in Ho. destruct (run_kernels _ _ _ _ _) as [r| | |] eqn:E; try contradiction; subst o; try exact I. cbn. intros x Hx.
  refine (kernels_keep _ _ P ks Hk scheds (w_amp w) r _ E x _); [|lia]. intros a Ha. apply Hw. lia.
Qed.
Lemma normalize_held u eta A shape n w o : accurate u eta A -> held A (2 ^ n) (w_amp w) -> f_normalize A shape n w o ->
  match o with HDone _ w' => held A (2 ^ n) (w_amp w') | _ => True end.
Proof.
  intros HA Hw (o1 & H1 & H2). destruct H1 as (t & _ & _ & ->). destruct (reduce _ _ _ _) as [v|]; [|subst o; exact I].
  cbv zeta in H2. destruct (Req_EM_T _ 0); [rewrite H2; exact I|]. refine (hplan_keeps _ _ _ _ _ _ Hw H2). constructor; [|constructor]. intros i. cbn. intros z _. split; [|exact I]. apply (held_pair u eta A HA).
Qed.
Lemma runs_also {T} (p : host world T) w (Q Q' : houtcome world T -> Prop) : runs p w Q -> (forall o, p w o -> Q' o) -> runs p w (fun o => Q o /\ Q' o).
Proof. intros [H1 H2] H. split; [intros o Ho; auto|exact H2]. Qed.

Lemma norm2_sign A z : sign_kept A -> 0 <= f_norm2 A z.
Proof.
  intros Hs. unfold f_norm2, two_products. pose proof (Rle_0_sqr (fst z)). pose proof (Rle_0_sqr (snd z)). unfold Rsqr in *.
  pose proof (Hs _ H). pose proof (Hs _ H0). destruct (a_fuse _ _ _ _ _ _); apply Hs; lra.
Qed.
Lemma reduce_sign A (f : N -> option R) t v : sign_kept A -> (forall i x, f i = Some x -> 0 <= x) -> reduce 0 (f_plus A) f t = Some v -> 0 <= v.
Proof.
  intros Hs Hf. revert v. assert (Ha : forall a b x, (forall y, a = Some y -> 0 <= y) -> (forall y, b = Some y -> 0 <= y) -> oadd (f_plus A) a b = Some x -> 0 <= x).
  { intros [a|] [b|] x H1 H2 [= <-]. specialize (H1 a eq_refl). specialize (H2 b eq_refl). apply Hs. lra. }
  induction t as [l|a IHa b IHb]; intros v; cbn [reduce].
  - assert (H0 : forall y, Some 0 = Some y -> 0 <= y) by (intros y [= <-]; lra). revert H0. generalize (Some 0). induction l as [|i l IH]; intros s H0 E; [now apply H0|].
    cbn in E. apply (IH _ (fun y Hy => Ha s (f i) y H0 (Hf i) Hy) E).
  - intros E. apply (Ha _ _ _ IHa IHb E).
Qed.
Lemma zero_probability_sign A shape n q w o : sign_kept A -> f_get_zero_probability A shape n q w o -> match o with HDone v _ => 0 <= v | _ => True end.
Proof.
  intros Hs. unfold f_get_zero_probability. destruct (n <=? q)%N; [intros ->; exact I|]. intros (t & _ & _ & ->).
  destruct (reduce _ _ _ _) as [v|] eqn:E; [|exact I]. refine (reduce_sign A _ t v Hs _ E). intros i x. cbn. destruct (_ <? _)%N; [|discriminate]. intros [= <-]. now apply norm2_sign.
Qed.

Section Measure.
  Variables (u eta : R) (A : arith) (n L : N) (h : nat).
  Hypothesis HA : accurate u eta A.
  Hypothesis Hn : (n < 64)%N.
  Hypothesis HL : lanes_ok L.
  Hypothesis Hh : height_ok u n h.
  Hypothesis Hsg : sign_kept A.

  Lemma likely_size d p s : likely u eta n h d p -> p / 4 <= s -> sum_error u eta n h 9 s <= s / 4 /\ normalize_error u eta n h s <= normalize_error u eta n h (p / 4).
  Proof.
    intros (Hp & _ & Hs) Hle. unfold normalize_error, sum_error in *. pose proof (acc_u _ _ _ HA). pose proof (acc_eta _ _ _ HA). pose proof (pos_INR h) as Hi.
    set (al := (5 * INR h + 9) * u) in *. set (be := 24 * eta * 2 ^ N.to_nat n) in *.
    assert (Hal : 0 <= al) by (apply Rmult_le_pos; lra). assert (Hbe : 0 <= be) by (unfold be; apply Rmult_le_pos; [lra|apply pow_le; lra]).
    assert (al <= / 4). { apply Rmult_le_reg_r with (p / 4); lra. }
    split.
    - assert ((/ 4 - al) * (p / 4) <= (/ 4 - al) * s) by (apply Rmult_le_compat_l; lra). lra.
    - do 2 apply Rplus_le_compat_r. apply Rmult_le_compat_l; [lra|]. replace ((al * s + be) / s) with (al + be / s) by (field; lra). replace ((al * (p / 4) + be) / (p / 4)) with (al + be / (p / 4)) by (field; lra).
      apply Rplus_le_compat_l. unfold Rdiv. apply Rmult_le_compat_l; [exact Hbe|]. apply Rinv_le_contravar; lra.
  Qed.
  Lemma measure_rounded q reset w phi d : (q < n)%N -> held A (2 ^ n) (w_amp w) -> sqnorm n phi = 1 -> distance n (w_amp w) phi <= d -> d <= 1 ->
    let e := measure_error u eta n h d in bit_prob n q false phi <= 1 - e ->
    (forall b, outcome_about e (bit_prob n q false phi) (w_rand w 0%nat) b -> likely u eta n h d (bit_prob n q b phi)) ->
    runs (f_apply_measurement_update A (shallow h) n L (2 ^ q) reset) w (done (fun z w' => let b := negb z in
      outcome_about e (bit_prob n q false phi) (w_rand w 0%nat) b /\
      distance n (w_amp w') (measured n q reset b phi) <= after_measure u eta n h d (bit_prob n q b phi) /\ held A (2 ^ n) (w_amp w') /\
      w_home w' = w_home w /\ w_reg w' = w_reg w /\ (forall i, w_rand w' i = w_rand w (S i)))).
  Proof.
    intros Hq Hw Hphi Hd Hd1 e He Hl. unfold f_apply_measurement_update. rewrite ctz_pow2.
    assert (Hv1 : vnorm n phi = 1) by (unfold vnorm; rewrite Hphi; apply sqrt_1).
    assert (Hvr : vnorm n (w_amp w) <= 2) by (pose proof (vnorm_distance n (w_amp w) phi); lra).
    pose proof (vnorm_nonneg n (w_amp w)) as Hv0. assert (Hs4 : sqnorm n (w_amp w) <= 4) by (rewrite <- vnorm_sq; nra).
    assert (Hd0 : 0 <= distance n (w_amp w) phi) by apply vnorm_nonneg.
    assert (Ez : forall a, prob n (fun x => negb (N.testbit x q)) a = bit_prob n q false a).
    { intros a. apply prob_ext. intros x _. unfold shows_bit. now destruct (N.testbit x q). }
    eapply runs_bind_done.
    { instantiate (1 := fun v w1 => (w1 = w /\ Rabs (v - bit_prob n q false phi) <= e) /\ 0 <= v).
      refine (runs_weaken _ _ _ _ (runs_also _ _ (done (fun v w1 => w1 = w /\ Rabs (v - bit_prob n q false phi) <= e)) (fun o => match o with HDone v _ => 0 <= v | _ => True end) _ (fun o => zero_probability_sign A (shallow h) n q w o Hsg)) _); [|intros [t w1|w1|]; cbn; tauto].
      pose proof (zero_probability_about u eta A HA n h Hh q w Hn Hq) as H. cbv zeta in H. rewrite Ez in H. refine (returns_about_near _ _ _ _ _ (3 * d) _ H _ _).
      - eapply Rle_trans; [apply (prob_close n)|]. rewrite Hv1. apply Rmult_le_compat; lra.
      - unfold e, measure_error. rewrite Rplus_comm. apply Rplus_le_compat_l. apply (sum_error_mono u eta A n HA); [lra|]. pose proof (prob_le n (shows_bit q false) (w_amp w)). unfold bit_prob. lra. }
    intros v w1 ((-> & Hv) & Hv00). apply FloatProofs14.Rabs_between in Hv || apply Rabs_between in Hv.
    eapply runs_bind_done; [apply bernoulli_runs; lra|]. intros z w1 (Ez' & Ew1). set (b := negb z).
    assert (Eb : z = negb b) by (unfold b; now rewrite negb_involutive).
    assert (Ho : outcome_about e (bit_prob n q false phi) (w_rand w 0%nat) b).
    { unfold b. rewrite Ez'. destruct (Rlt_dec _ _); cbn; lra. }
    assert (Ek : (if z then GP0 else GP1) = (if b then GP1 else GP0)) by (unfold b; now destruct z). rewrite Ek.
    assert (Ea : w_amp w1 = w_amp w) by now rewrite Ew1.
    pose proof (Hl b Ho) as Hlb. destruct Hlb as (Hp & Hpd & Hps). set (p := bit_prob n q b phi) in *. destruct (projected_kept n q b phi Hp) as [Ekp Epr]. fold p in Ekp.
    eapply runs_bind_done; [apply project_exact with (u := u) (eta := eta); rewrite ?Ea; assumption|]. rewrite Ea. intros _ w2 (Ha2 & Hh2 & Hr2 & Hd2).
    set (rb := kept (shows_bit q b) (w_amp w)) in *.
    assert (Hheld2 : held A (2 ^ n) (w_amp w2)).
    { intros x Hx. rewrite Ha2 by assumption. unfold rb, kept. destruct (shows_bit q b x); [now apply Hw|apply (held_0 u eta A HA)]. }
    assert (Hdk : distance n rb (kept (shows_bit q b) phi) <= d) by (eapply Rle_trans; [apply kept_distance|exact Hd]).
    assert (Hvn : sqrt p / 2 <= vnorm n rb).
    { pose proof (vnorm_distance n (kept (shows_bit q b) phi) rb) as H. rewrite distance_sym, Ekp in H. lra. }
    pose proof (sqrt_lt_R0 p Hp) as Hsp. assert (Hs : p / 4 <= sqnorm n rb).
    { rewrite <- vnorm_sq. pose proof (sqrt_sqrt p ltac:(lra)) as Hq2. assert (sqrt p / 2 * (sqrt p / 2) <= vnorm n rb * vnorm n rb) by (apply Rmult_le_compat; lra). lra. }
    assert (E2 : sqnorm n (w_amp w2) = sqnorm n rb) by now apply sqnorm_ext. assert (E2' : vnorm n (w_amp w2) = vnorm n rb) by now apply vnorm_ext.
    destruct (likely_size d p (sqnorm n rb) (conj Hp (conj Hpd Hps)) Hs) as [Hq1 Hq2].
    pose proof (normalize_about u eta A HA n h Hh w2) as Hno. rewrite E2, E2' in Hno. specialize (Hno ltac:(lra) Hq1). unfold leaves_about in Hno.
    eapply runs_bind_done.
    { instantiate (1 := fun _ w3 => distance n (w_amp w3) (projected n q b phi) <= after_measure u eta n h d p /\ held A (2 ^ n) (w_amp w3) /\ w_home w3 = w_home w2 /\ w_reg w3 = w_reg w2 /\ w_rand w3 = w_rand w2).
      eapply runs_weaken; [apply (runs_also _ _ _ _ Hno (fun o => normalize_held u eta A (shallow h) n w2 o HA Hheld2))|].
      intros [t w3|w3|]; cbn; try tauto. intros [(K1 & K2 & K3 & K4) K5]. split; [|tauto].
      eapply Rle_trans; [apply distance_tri with (b := fun x => Cscale (/ vnorm n rb) (w_amp w2 x))|].
      assert (Hnc : distance n (fun x => Cscale (/ vnorm n rb) (w_amp w2 x)) (projected n q b phi) <= 2 * d / sqrt p).
      { rewrite (distance_ext n _ (fun x => Cscale (/ vnorm n rb) (rb x)) _ (fun x => Cscale (/ vnorm n (kept (shows_bit q b) phi)) (kept (shows_bit q b) phi x))); [|intros x Hx; now rewrite Ha2|intros x _; apply Epr].
        eapply Rle_trans; [apply normal_close; lra|]. rewrite Ekp. unfold Rdiv. apply Rmult_le_compat_r; [apply Rlt_le, Rinv_0_lt_compat; exact Hsp|lra]. }
      unfold after_measure. lra. }
    intros _ w3 (Hd3 & Hheld3 & Hh3 & Hr3 & Hra3). replace (negb z) with b by reflexivity.
    eapply runs_bind_done.
    { instantiate (1 := fun _ w4 => distance n (w_amp w4) (measured n q reset b phi) <= after_measure u eta n h d p /\ held A (2 ^ n) (w_amp w4) /\ w_home w4 = w_home w3 /\ w_reg w4 = w_reg w3 /\ w_rand w4 = w_rand w3).
      unfold measured. destruct (reset && b) eqn:Er; [|apply runs_ret; cbn; tauto].
      eapply runs_weaken; [apply (std1_runs n L GX q w3); assumption|]. intros [t w4|w4|]; cbn; try tauto. intros (H1 & H2 & H3 & H4).
      assert (EX : forall x, (x < 2 ^ n)%N -> w_amp w4 x = flipped q (w_amp w3) x) by (intros x Hx; rewrite H1 by assumption; apply sem_X; lia).
      split; [|split; [|tauto]].
      - rewrite (distance_ext n _ (flipped q (w_amp w3)) _ (flipped q (projected n q b phi))) by (auto using eq_refl). now rewrite flipped_distance.
      - intros x Hx. rewrite EX by assumption. unfold flipped. apply Hheld3. apply lxor_lt_pow2; [assumption|]. apply N.pow_lt_mono_r; lia. }
    intros _ w4 (Hd4 & Hheld4 & Hh4 & Hr4 & Hra4). apply runs_ret. cbn. fold b. fold p. split; [exact Ho|]. split; [exact Hd4|]. split; [exact Hheld4|].
    rewrite Hh4, Hh3, Hh2, Hr4, Hr3, Hr2, Hra4, Hra3, Hd2, Ew1. cbn. auto.
  Qed.
End Measure.
