(** Rounded Pauli and Pauli rotation gates. *)
From Verif Require Export FloatProofs5.
From Coq Require Import FunctionalExtensionality Lra ZifyBool ZifyN ZifyNat.
Open Scope R_scope.

(** The error at an index, with other factors than in [close] *)
Definition closeK (u eta K H : R) (S : list N) (D : N) (psi phi exact : state) : Prop :=
  forall a, (a < D)%N -> Cmod (phi a - exact a)%C <= K * u * spread S psi a + H * eta.
Lemma close_closeK u eta S D psi phi exact : close u eta S D psi phi exact -> closeK u eta 73 33 S D psi phi exact.
Proof. intros H a Ha. now apply H. Qed.

Lemma updates_same D p psi x y : updates_to D p psi x -> updates_to D p psi y -> forall a, (a < D)%N -> x a = y a.
Proof.
  intros Hx Hy a Ha. pose proof Hx as [_ Hr]. destruct (Hr psi) as (scheds & r & Hrun).
  rewrite <- (updates_to_run _ _ _ _ _ _ _ Hx Hrun a Ha). exact (updates_to_run _ _ _ _ _ _ _ Hy Hrun a Ha).
Qed.

Section PauliPair.
  Variables (n B bf c cv : N).
  Hypothesis Hn : (n <= 64)%N.
  Hypothesis HB : (B * 2 ^ n <= two64)%N.
  Hypothesis Hbf : (bf < 2 ^ n)%N.
  Hypothesis Hc : (c < 2 ^ n)%N.
  Hypothesis Hd : N.land bf c = 0%N.
  Hypothesis Hcv : N.land cv c = cv.
  Let D := (B * 2 ^ n)%N.
  Let q := (bit_width bf - 1)%N.

  Lemma pauli_pair_out (body : N -> cprog) (F : bool -> N -> C -> C -> C) m : bf <> 0%N ->
    (forall it, body it = let b0 := N.lor (insert_zero_at_mask_positions it (N.lor c (shl64 1 q))) cv in
                          let b1 := N.lxor b0 bf in
                          Rd b0 (fun v0 => Rd b1 (fun v1 => Wr b0 (F false b0 v0 v1) (Wr b1 (F true b1 v1 v0) Ret)))) ->
    kcomputes N.eqb (fun a => (a <? D)%N) (Kernel (N.shiftr D (popcount c + 1)) body) m
      (out n B c cv (fun a => F (N.testbit a q) a (m a) (m (N.lxor a bf))) m).
  Proof.
    intros Hbf0 Hbody.
    set (P := fun b0 => let b1 := N.lxor b0 bf in
                Rd b0 (fun v0 => Rd b1 (fun v1 => Wr b0 (F false b0 v0 v1) (Wr b1 (F true b1 v1 v0) Ret)))).
    unfold kcomputes. cbn [k_iters k_body].
    eapply par_computes_ext; [|apply (pair_computes n B bf c cv Hn HB Hbf Hbf0 Hc Hd Hcv P body m)].
    - intros a. cbn beta. unfold out, gdom. fold D. destruct ((a <? D) && (N.land a c =? cv))%N; [|reflexivity].
      fold q. unfold P. destruct (N.testbit a q) eqn:E.
      + simpl. unfold upd. rewrite N.lxor_assoc, N.lxor_nilpotent, N.lxor_0_r, N.eqb_refl. reflexivity.
      + simpl. unfold upd. rewrite N.eqb_refl. destruct (N.eqb_spec a (N.lxor a bf)) as [H|H]; [|reflexivity].
        exfalso. revert H. apply (bf_neq bf Hbf0).
    - intros it. rewrite Hbody. reflexivity.
    - intros b. unfold P. simpl. tauto.
  Qed.
  Lemma pauli_diag_out (body : N -> cprog) (F : N -> C -> C) m :
    (forall i, body i = let s := N.lor (insert_zero_at_mask_positions i c) cv in Rd s (fun v => Wr s (F s v) Ret)) ->
    kcomputes N.eqb (fun a => (a <? D)%N) (Kernel (N.shiftr D (popcount c)) body) m (out n B c cv (fun a => F a (m a)) m).
  Proof.
    intros Hb. replace (popcount c) with (popcount (N.lor 0 c)) by now rewrite N.lor_0_l.
    apply (group_out n B 0 c cv Hn HB (pow2_pos n) Hc (N.land_0_l c) Hcv (fun s => Rd s (fun v => Wr s (F s v) Ret)) body).
    - intros it. rewrite Hb. now rewrite N.lor_0_l.
    - intros b _. simpl. split; [|intros v; split; [|exact I]]; exists 0%N; (split; [reflexivity|now rewrite N.lor_0_r]).
    - intros a. rewrite N.ldiff_0_r. simpl. unfold upd. now rewrite N.eqb_refl.
  Qed.
End PauliPair.

Section PauliClose.
  Variables (u eta : R) (A : arith) (n B c cv bf pf : N).
  Hypothesis HA : accurate u eta A.
  Hypothesis Hn : (n <= 64)%N.
  Hypothesis HB : (B * 2 ^ n <= two64)%N.
  Hypothesis Hbf : (bf < 2 ^ n)%N.
  Hypothesis Hc : (c < 2 ^ n)%N.
  Hypothesis Hd : N.land bf c = 0%N.
  Hypothesis Hcv : N.land cv c = cv.
  Let D := (B * 2 ^ n)%N.
  Let Hu := u_range u eta A HA.
  Let He := eta_range u eta A HA.
  Notation near := (near_entry u).

  Lemma spread2 psi a : spread [0%N; bf] psi a = Cmod (psi a) + Cmod (psi (N.lxor a bf)).
  Proof. unfold spread, Rsuml. cbn [map fold_right]. rewrite N.lxor_0_r. ring. Qed.
  Lemma out_closeK K H G G0 psi exact : 0 <= K -> 0 <= H ->
    (forall a, (a < D)%N -> exact a = if (a <? D)%N then (if (N.land a c =? cv)%N then G0 a else psi a) else psi a) ->
    (forall a, (a < D)%N -> Cmod (G a - G0 a)%C <= K * u * (Cmod (psi a) + Cmod (psi (N.lxor a bf))) + H * eta) ->
    closeK u eta K H [0%N; bf] D psi (out n B c cv G psi) exact.
  Proof.
    intros HK HH Ex Hg a Ha. rewrite Ex by assumption. unfold out. fold D. rewrite spread2.
    replace (a <? D)%N with true by (symmetry; now apply N.ltb_lt). cbn [andb].
    destruct (N.land a c =? cv)%N; [now apply Hg|]. replace (psi a - psi a)%C with C0 by ring. rewrite Cmod_0.
    pose proof (Cmod_nonneg (psi a)). pose proof (Cmod_nonneg (psi (N.lxor a bf))).
    assert (0 <= K * u) by (apply Rmult_le_pos; lra). assert (0 <= H * eta) by (apply Rmult_le_pos; lra). nra.
  Qed.
  Lemma mi_pow_mod k : Cmod (mi_pow k) = 1.
  Proof.
    unfold mi_pow. assert (H : (k mod 4 < 4)%N) by (apply N.mod_lt; lia).
    assert (k mod 4 = 0 \/ k mod 4 = 1 \/ k mod 4 = 2 \/ k mod 4 = 3)%N as [-> |[-> |[-> | ->]]] by lia; cbn [PHASE_M90ROT];
      rewrite ?Cmod_opp; first [apply Cmod_1|apply Cmod_i].
  Qed.
  Lemma sign_mod x : Cmod (pauli_sign x) = 1.
  Proof. unfold pauli_sign. destruct (parity x); rewrite ?Cmod_opp; apply Cmod_1. Qed.

  Lemma f_pauli_close coef psi exact : Cmod coef <= 1 ->
    (forall a, (a < D)%N -> exact a = if (a <? D)%N then (if (N.land a c =? cv)%N then (coef * pauli_phase bf pf a * psi (N.lxor a bf))%C else psi a) else psi a) ->
    exists phi, kcomputes N.eqb (fun a => (a <? D)%N) (f_apply_pauli A D c cv bf pf (f_entry A coef)) psi phi /\
      closeK u eta 80 33 [0%N; bf] D psi phi exact.
  Proof.
    intros Hm Ex. pose proof (entry_near u eta A HA coef Hm) as [_ Hne]. set (cf := f_entry A coef) in *.
    unfold f_apply_pauli. destruct (N.eqb_spec bf 0) as [E|E].
    - eexists. split.
      + apply (pauli_diag_out n B c cv Hn HB Hc Hcv _ (fun a v => if parity (N.land a pf) then f_mul A 0 v (- cf)%C else f_mul A 1 v cf)).
        intros i. cbv zeta. unfold f_mul_at. destruct (parity _); reflexivity.
      + eapply (out_closeK 80 33 _ _ psi exact); [lra|lra|exact Ex|]. intros a Ha. rewrite E, N.lxor_0_r.
        unfold pauli_phase. rewrite N.land_0_l. change (popcount 0) with 0%N. rewrite mi_pow_0. unfold pauli_sign.
        pose proof (Cmod_nonneg (psi a)) as Hp.
        assert (W : forall z, Cmod z <= 67 * u * Cmod (psi a) + 6 * eta -> Cmod z <= 80 * u * (Cmod (psi a) + Cmod (psi a)) + 33 * eta).
        { intros z Hz. assert (0 <= u * Cmod (psi a)) by (apply Rmult_le_pos; lra). lra. }
        apply W. destruct (parity (N.land a pf)).
        * replace (coef * (C1 * - C1) * psi a)%C with (- coef * psi a)%C by ring.
          apply (prod_err' u eta A HA (f_mul A 0)); [apply (mul_multiplies u eta A HA)|now rewrite Cmod_opp|].
          replace (- cf - - coef)%C with (- (cf - coef))%C by ring. now rewrite Cmod_opp.
        * replace (coef * (C1 * C1) * psi a)%C with (coef * psi a)%C by ring.
          apply (prod_err' u eta A HA (f_mul A 1)); [apply (mul_multiplies u eta A HA)|assumption|assumption].
    - set (ph := mi_pow (popcount (N.land bf pf))).
      set (F := fun (side : bool) (a : N) (v w : C) =>
        let tmp := f_mul A (if side then 2 else 3) w ph in
        f_mul A (if side then 5 else 4) (if parity (N.land a pf) then (- tmp)%C else tmp) cf).
      eexists. split.
      + apply (pauli_pair_out n B bf c cv Hn HB Hbf Hc Hd Hcv _ F psi E). intros it. reflexivity.
      + eapply (out_closeK 80 33 _ _ psi exact); [lra|lra|exact Ex|]. intros a Ha. unfold F. cbv zeta.
        set (w := psi (N.lxor a bf)). set (i := if N.testbit a _ then 2%N else 3%N). set (j := if N.testbit a _ then 5%N else 4%N).
        pose proof (f_mul_err u eta A HA i w ph) as H1. unfold ph in H1 at 3. rewrite mi_pow_mod, Rmult_1_r in H1.
        set (t := if parity (N.land a pf) then (- f_mul A i w ph)%C else f_mul A i w ph).
        assert (H2 : Cmod (t - pauli_phase bf pf a * w)%C <= 5 * u * Cmod w + 6 * eta).
        { unfold t, pauli_phase, pauli_sign. fold ph. destruct (parity (N.land a pf)).
          - replace (- f_mul A i w ph - ph * - C1 * w)%C with (- (f_mul A i w ph - w * ph))%C by ring. now rewrite Cmod_opp.
          - replace (f_mul A i w ph - ph * C1 * w)%C with (f_mul A i w ph - w * ph)%C by ring. exact H1. }
        assert (H3 : Cmod (pauli_phase bf pf a * w)%C = Cmod w).
        { unfold pauli_phase. rewrite !Cmod_mul, mi_pow_mod, sign_mod. ring. }
        pose proof (Cmod_near _ _ _ H2) as H4. rewrite H3 in H4.
        pose proof (prod_err' u eta A HA (f_mul A j) coef cf t (mul_multiplies u eta A HA j) Hm Hne) as H5.
        pose proof (Cmod_tri3 (f_mul A j t cf) (coef * t)%C (coef * (pauli_phase bf pf a * w))%C) as H6.
        replace (coef * t - coef * (pauli_phase bf pf a * w))%C with (coef * (t - pauli_phase bf pf a * w))%C in H6 by ring.
        rewrite Cmod_mul in H6. replace (coef * pauli_phase bf pf a * w)%C with (coef * (pauli_phase bf pf a * w))%C by ring.
        pose proof (Cmod_nonneg w) as Hw. pose proof (Cmod_nonneg (psi a)) as Hp. pose proof (Cmod_nonneg coef) as Hk.
        assert (J1 : Cmod coef * Cmod (t - pauli_phase bf pf a * w)%C <= 1 * (5 * u * Cmod w + 6 * eta))
          by (apply Rmult_le_compat; try apply Cmod_nonneg; lra).
        set (T := Cmod (f_mul A j t cf - coef * (pauli_phase bf pf a * w))%C) in *. clearbody T.
        assert (J2 : u * Cmod t <= u * (Cmod w + (5 * u * Cmod w + 6 * eta))) by (apply Rmult_le_compat_l; lra).
        assert (J3 : u * (u * Cmod w) <= / 256 * (u * Cmod w)) by (apply Rmult_le_compat_r; [apply Rmult_le_pos; lra|lra]).
        assert (J4 : u * eta <= / 256 * eta) by (apply Rmult_le_compat_r; lra).
        assert (J5 : 0 <= u * Cmod w) by (apply Rmult_le_pos; lra). assert (J6 : 0 <= u * Cmod (psi a)) by (apply Rmult_le_pos; lra).
        lra.
  Qed.

  (** ** Rotations *)
  Lemma rnd_half0 : f_half A 0 = 0.
  Proof. unfold f_half. replace (0 / 2) with 0 by field. apply (acc_zero _ _ _ HA). Qed.
  Lemma trig_near f g h t : Rabs (f - g) <= h * u -> Rabs g <= 1 -> Rabs f <= 1 + 2 * u -> 0 <= t ->
    Rabs (a_rnd A (f * a_cosh A 0) - g) <= (h + 5) * u.
  Proof.
    intros H1 H2 H3 Ht. pose proof (acc_cosh _ _ _ HA) as Hch. set (ch := a_cosh A 0) in *.
    assert (Hc1 : Rabs ch <= 1 + 2 * u). { replace ch with ((ch - 1) + 1) by ring. pose proof (Rabs_triang (ch - 1) 1). rewrite Rabs_R1 in *. lra. }
    pose proof (acc_rnd _ _ _ HA (f * ch)) as Hr. rewrite Rabs_mult in Hr.
    replace (a_rnd A (f * ch) - g) with ((a_rnd A (f * ch) - f * ch) + (f * (ch - 1) + (f - g))) by ring.
    eapply Rle_trans; [apply Rabs_triang|]. pose proof (Rabs_triang (f * (ch - 1)) (f - g)) as Ht2. rewrite Rabs_mult in Ht2.
    pose proof (Rabs_pos f). pose proof (Rabs_pos ch). pose proof (Rabs_pos (ch - 1)).
    assert (J1 : Rabs f * Rabs ch <= (1 + 2 * u) * (1 + 2 * u)) by (apply Rmult_le_compat; lra).
    assert (J2 : Rabs f * Rabs (ch - 1) <= (1 + 2 * u) * (2 * u)) by (apply Rmult_le_compat; lra).
    assert (J3 : u * (Rabs f * Rabs ch) <= u * ((1 + 2 * u) * (1 + 2 * u))) by (apply Rmult_le_compat_l; lra).
    assert (J4 : u * u <= / 256 * u) by (apply Rmult_le_compat_r; lra).
    assert (J5 : u * (u * u) <= u * (/ 256 * u)) by (apply Rmult_le_compat_l; lra). lra.
  Qed.
  Lemma trig_small f : Rabs f <= 1 + 2 * u -> Rabs (a_rnd A (f * a_sinh A 0)) <= 4 * u.
  Proof.
    intros H3. pose proof (acc_sinh _ _ _ HA) as Hsh. set (sh := a_sinh A 0) in *.
    pose proof (acc_rnd _ _ _ HA (f * sh)) as Hr. rewrite Rabs_mult in Hr.
    replace (a_rnd A (f * sh)) with ((a_rnd A (f * sh) - f * sh) + f * sh) by ring.
    eapply Rle_trans; [apply Rabs_triang|]. rewrite Rabs_mult. pose proof (Rabs_pos f). pose proof (Rabs_pos sh).
    assert (J1 : Rabs f * Rabs sh <= (1 + 2 * u) * (2 * u)) by (apply Rmult_le_compat; lra).
    assert (J3 : u * (Rabs f * Rabs sh) <= / 256 * (Rabs f * Rabs sh)) by (apply Rmult_le_compat_r; [apply Rmult_le_pos; lra|lra]).
    assert (J4 : u * u <= / 256 * u) by (apply Rmult_le_compat_r; lra). lra.
  Qed.
  Lemma split_near (z : C) r a b : Rabs (fst z - r) <= a -> Rabs (snd z) <= b -> Cmod (z - RtoC r)%C <= a + b.
  Proof.
    intros H1 H2. replace (z - RtoC r)%C with (RtoC (fst z - r) + RtoC (snd z) * Ci)%C by (destruct z; c_eq; cbn; ring).
    eapply Rle_trans; [apply Cmod_tri|]. rewrite Cmod_mul, !Cmod_real, Cmod_i. lra.
  Qed.

  (** The rounded cosine and sine of half the angle *)
  Definition f_half_angle (coef : C) (angle : R) : C := (f_half A (fst (f_scale A angle coef)), f_half A (snd (f_scale A angle coef))).
  Lemma half_angle_near coef angle : snd coef = 0 ->
    snd (- f_half_angle coef angle)%C = 0 /\ 
    Rabs (fst (- f_half_angle coef angle)%C - - (angle * fst coef / 2)) <= (Rabs (angle * fst coef) / 2 + 3 / 2) * u.
  Proof.
    intros Hre. set (theta := angle * fst coef). unfold f_half_angle, f_scale. cbn [fst snd]. rewrite Hre, Rmult_0_r, (acc_zero _ _ _ HA), rnd_half0. fold theta.
    split; [cbn; ring|]. cbn [fst Copp].
    replace (- f_half A (a_rnd A theta) - - (theta / 2)) with (- (f_half A (a_rnd A theta) - theta / 2)) by ring. rewrite Rabs_Ropp.
    pose proof (half_near u eta A HA (a_rnd A theta) (acc_idem _ _ _ HA theta)) as H1. pose proof (acc_rnd _ _ _ HA theta) as H2.
    replace (f_half A (a_rnd A theta) - theta / 2) with ((f_half A (a_rnd A theta) - a_rnd A theta / 2) + (a_rnd A theta - theta) * / 2) by field.
    eapply Rle_trans; [apply Rabs_triang|]. rewrite (Rabs_mult _ (/ 2)), (Rabs_right (/ 2)) by lra. lra.
  Qed.
  Definition angle_units (coef : C) (angle : R) : R := Rabs (angle * fst coef) / 2 + 13.
  Lemma f_ccos_near coef angle : snd coef = 0 ->
    Cmod (f_ccos A (- f_half_angle coef angle) - RtoC (cos (angle * fst coef / 2)))%C <= angle_units coef angle * u /\
    Cmod (f_ccos A (- f_half_angle coef angle)) <= 1 + 14 * u.
  Proof.
    intros Hre. destruct (half_angle_near coef angle Hre) as [E1 E2]. set (theta := angle * fst coef) in *. unfold f_ccos. rewrite E1.
    set (x := fst (- f_half_angle coef angle)%C) in *.
    pose proof (cos_near u eta A HA x (- (theta / 2)) _ E2) as Hc1. rewrite cos_neg in Hc1.
    pose proof (acc_cos _ _ _ HA x) as Hc2. pose proof (acc_sin _ _ _ HA x) as Hs2.
    pose proof (abs1 _ _ _ Hc2 (cos1 x)) as Hc3. pose proof (abs1 _ _ _ Hs2 (sin1 x)) as Hs3.
    assert (Hs4 : Rabs (- a_sin A x) <= 1 + 2 * u) by now rewrite Rabs_Ropp.
    pose proof (trig_small _ Hs4) as Hi. split.
    - eapply Rle_trans; [apply (split_near _ _ ((Rabs theta / 2 + 3 / 2 + 2 + 5) * u) (4 * u)); cbn [fst snd]|].
      + apply (trig_near _ _ _ 0); [lra|apply cos1|exact Hc3|lra].
      + exact Hi.
      + unfold angle_units. fold theta. lra.
    - assert (Hn1 : Cmod ((a_rnd A (a_cos A x * a_cosh A 0), a_rnd A (- a_sin A x * a_sinh A 0)) - RtoC (cos x))%C <= 7 * u + 4 * u).
      { apply split_near; cbn [fst snd]; [|exact Hi]. replace (7 * u) with ((2 + 5) * u) by ring. apply (trig_near _ _ _ 0); [lra|apply cos1|exact Hc3|lra]. }
      pose proof (Cmod_near _ _ _ Hn1) as Hn2. rewrite Cmod_real in Hn2. pose proof (cos1 x). lra.
  Qed.
  Lemma f_csin_near coef angle : snd coef = 0 ->
    Cmod (f_csin A (- f_half_angle coef angle) - RtoC (- sin (angle * fst coef / 2)))%C <= angle_units coef angle * u /\
    Cmod (f_csin A (- f_half_angle coef angle)) <= 1 + 14 * u.
  Proof.
    intros Hre. destruct (half_angle_near coef angle Hre) as [E1 E2]. set (theta := angle * fst coef) in *. unfold f_csin. rewrite E1.
    set (x := fst (- f_half_angle coef angle)%C) in *.
    pose proof (sin_near u eta A HA x (- (theta / 2)) _ E2) as Hc1. rewrite sin_neg in Hc1.
    pose proof (acc_cos _ _ _ HA x) as Hc2. pose proof (acc_sin _ _ _ HA x) as Hs2.
    pose proof (abs1 _ _ _ Hc2 (cos1 x)) as Hc3. pose proof (abs1 _ _ _ Hs2 (sin1 x)) as Hs3.
    pose proof (trig_small _ Hc3) as Hi. split.
    - eapply Rle_trans; [apply (split_near _ _ ((Rabs theta / 2 + 3 / 2 + 2 + 5) * u) (4 * u)); cbn [fst snd]|].
      + apply (trig_near _ _ _ 0); [lra|rewrite Rabs_Ropp; apply sin1|exact Hs3|lra].
      + exact Hi.
      + unfold angle_units. fold theta. lra.
    - assert (Hn1 : Cmod ((a_rnd A (a_sin A x * a_cosh A 0), a_rnd A (a_cos A x * a_sinh A 0)) - RtoC (sin x))%C <= 7 * u + 4 * u).
      { apply split_near; cbn [fst snd]; [|exact Hi]. replace (7 * u) with ((2 + 5) * u) by ring. apply (trig_near _ _ _ 0); [lra|apply sin1|exact Hs3|lra]. }
      pose proof (Cmod_near _ _ _ Hn1) as Hn2. rewrite Cmod_real in Hn2. pose proof (sin1 x). lra.
  Qed.
  (** A product with a factor [x'] whose size is known and that is [w] units away from [x] *)
  Lemma prod_units i x x' v w : Cmod x' <= 5 / 4 -> Cmod (x' - x)%C <= w * u ->
    Cmod (f_mul A i x' v - x * v)%C <= (w + 7) * u * Cmod v + 6 * eta /\ Cmod (f_mul A i x' v) <= 13 / 10 * Cmod v + 6 * eta.
  Proof.
    intros H1 H2. pose proof (f_mul_err u eta A HA i x' v) as H3. pose proof (Cmod_nonneg v) as Hv. pose proof (Cmod_nonneg x').
    assert (J1 : Cmod x' * Cmod v <= 5 / 4 * Cmod v) by (apply Rmult_le_compat_r; lra).
    assert (J2 : u * (Cmod x' * Cmod v) <= u * (5 / 4 * Cmod v)) by (apply Rmult_le_compat_l; lra).
    assert (J3 : u * Cmod v <= / 256 * Cmod v) by (apply Rmult_le_compat_r; lra). split.
    - pose proof (Cmod_tri3 (f_mul A i x' v) (x' * v)%C (x * v)%C) as H4.
      replace (x' * v - x * v)%C with ((x' - x) * v)%C in H4 by ring. rewrite (Cmod_mul (x' - x)%C) in H4.
      assert (J4 : Cmod (x' - x)%C * Cmod v <= w * u * Cmod v) by (apply Rmult_le_compat_r; lra).
      assert (0 <= u * Cmod v) by (apply Rmult_le_pos; lra). lra.
    - pose proof (Cmod_near _ _ _ H3) as H4. rewrite Cmod_mul in H4. lra.
  Qed.
  Lemma prod_units' i x x' v w : Cmod x' <= 5 / 4 -> Cmod (x' - x)%C <= w * u ->
    Cmod (f_mul A i v x' - x * v)%C <= (w + 7) * u * Cmod v + 6 * eta.
  Proof.
    intros H1 H2. pose proof (f_mul_err u eta A HA i v x') as H3. pose proof (Cmod_nonneg v) as Hv. pose proof (Cmod_nonneg x').
    assert (J1 : Cmod v * Cmod x' <= Cmod v * (5 / 4)) by (apply Rmult_le_compat_l; lra).
    assert (J2 : u * (Cmod v * Cmod x') <= u * (Cmod v * (5 / 4))) by (apply Rmult_le_compat_l; lra).
    pose proof (Cmod_tri3 (f_mul A i v x') (v * x')%C (x * v)%C) as H4.
    replace (v * x' - x * v)%C with ((x' - x) * v)%C in H4 by ring. rewrite (Cmod_mul (x' - x)%C) in H4.
    assert (J4 : Cmod (x' - x)%C * Cmod v <= w * u * Cmod v) by (apply Rmult_le_compat_r; lra).
    assert (0 <= u * Cmod v) by (apply Rmult_le_pos; lra). lra.
  Qed.
  Lemma add_own x y : Cmod (f_add A x y - (x + y))%C <= 3 / 2 * u * Cmod (x + y)%C + 2 * eta.
  Proof.
    pose proof (f_add_err u eta A HA x y (x + y)%C 0) as H. replace (x + y - (x + y))%C with C0 in H by ring. rewrite Cmod_0 in H.
    specialize (H (Rle_refl 0)). lra.
  Qed.
  Lemma sub_own x y : Cmod (f_sub A x y - (x - y))%C <= 3 / 2 * u * Cmod (x - y)%C + 2 * eta.
  Proof.
    replace (f_sub A x y) with (f_add A x (- y)%C) by reflexivity. replace (x - y)%C with (x + - y)%C by ring. apply add_own.
  Qed.

  Lemma f_rotation_close coef angle psi exact : snd coef = 0 -> let theta := angle * fst coef in
    (forall a, (a < D)%N -> exact a = if (a <? D)%N then (if (N.land a c =? cv)%N
       then (RtoC (cos (theta / 2)) * psi a + Ci * RtoC (- sin (theta / 2)) * pauli_phase bf pf a * psi (N.lxor a bf))%C else psi a) else psi a) ->
    exists phi, kcomputes N.eqb (fun a => (a <? D)%N) (f_apply_pauli_rotation A D c cv bf pf coef angle) psi phi /\
      closeK u eta (80 + Rabs theta) 33 [0%N; bf] D psi phi exact.
  Proof.
    intros Hre theta Ex. unfold f_apply_pauli_rotation. cbv zeta. fold (f_half_angle coef angle).
    destruct (f_ccos_near coef angle Hre) as [C1' C2']. destruct (f_csin_near coef angle Hre) as [S1' S2'].
    unfold angle_units in C1', S1'. fold theta in C1', S1'. set (w := Rabs theta / 2 + 13) in *.
    set (cs := f_ccos A (- f_half_angle coef angle)) in *. set (sn := f_csin A (- f_half_angle coef angle)) in *.
    set (rc := RtoC (cos (theta / 2))) in *. set (rs := RtoC (- sin (theta / 2))) in *.
    pose proof (Rabs_pos theta) as Hth. assert (Hw : 13 <= w) by (unfold w; lra).
    assert (Hcs : Cmod cs <= 5 / 4) by lra. assert (Hsn : Cmod sn <= 5 / 4) by lra.
    (* i times the sine *)
    assert (HI : forall i, Cmod (f_mul A i Ci sn - Ci * rs)%C <= (w + 12) * u /\ Cmod (f_mul A i Ci sn) <= 1 + 26 * u).
    { intros i. pose proof (f_mul_err u eta A HA i Ci sn) as H1. rewrite Cmod_i, Rmult_1_l in H1.
      assert (J : u * Cmod sn <= u * (1 + 14 * u)) by (apply Rmult_le_compat_l; lra).
      assert (J4 : u * u <= / 256 * u) by (apply Rmult_le_compat_r; lra). split.
      - pose proof (Cmod_tri3 (f_mul A i Ci sn) (Ci * sn)%C (Ci * rs)%C) as H2.
        replace (Ci * sn - Ci * rs)%C with (Ci * (sn - rs))%C in H2 by ring. rewrite (Cmod_mul Ci), Cmod_i in H2. lra.
      - pose proof (Cmod_near _ _ _ H1) as H2. rewrite Cmod_mul, Cmod_i in H2. lra. }
    destruct (N.eqb_spec bf 0) as [E|E].
    - set (pls := f_add A cs (f_mul A 1 Ci sn)). set (mns := f_sub A cs (f_mul A 0 Ci sn)).
      eexists. split.
      + apply (pauli_diag_out n B c cv Hn HB Hc Hcv _ (fun a v => if parity (N.land a pf) then f_mul A 2 v mns else f_mul A 3 v pls)).
        intros i. unfold f_mul_at. destruct (parity _); reflexivity.
      + eapply (out_closeK (80 + Rabs theta) 33 _ _ psi exact); [lra|lra|exact Ex|]. intros a Ha. cbv beta. rewrite E, N.lxor_0_r.
        unfold pauli_phase. rewrite N.land_0_l. change (popcount 0) with 0%N. rewrite mi_pow_0. unfold pauli_sign.
        pose proof (Cmod_nonneg (psi a)) as Hp.
        assert (HM : forall x y, Cmod x <= 1 + 14 * u -> Cmod y <= 1 + 26 * u -> Cmod (x + y)%C <= 5 / 2).
        { intros x y Hx Hy. pose proof (Cmod_tri x y). lra. }
        (* the coefficient may have modulus close to 1 only; 5/2 is enough *)
        assert (Fin : forall i z z', Cmod z' <= 3 -> Cmod (z' - z)%C <= (2 * w + 20) * u ->
          Cmod (f_mul A i (psi a) z' - z * psi a)%C <= (80 + Rabs theta) * u * (Cmod (psi a) + Cmod (psi a)) + 33 * eta).
        { intros i z z' H1 H2. pose proof (f_mul_err u eta A HA i (psi a) z') as H3. pose proof (Cmod_nonneg z').
          assert (J1 : Cmod (psi a) * Cmod z' <= Cmod (psi a) * 3) by (apply Rmult_le_compat_l; lra).
          assert (J2 : u * (Cmod (psi a) * Cmod z') <= u * (Cmod (psi a) * 3)) by (apply Rmult_le_compat_l; lra).
          pose proof (Cmod_tri3 (f_mul A i (psi a) z') (psi a * z')%C (z * psi a)%C) as H4.
          replace (psi a * z' - z * psi a)%C with ((z' - z) * psi a)%C in H4 by ring. rewrite (Cmod_mul (z' - z)%C) in H4.
          assert (J4 : Cmod (z' - z)%C * Cmod (psi a) <= (2 * w + 20) * u * Cmod (psi a)) by (apply Rmult_le_compat_r; lra).
          set (s := Cmod (psi a)) in *. assert (0 <= u * s) by (apply Rmult_le_pos; lra).
          assert (0 <= Rabs theta * (u * s)) by (apply Rmult_le_pos; lra). unfold w in J4. nra. }
        destruct (HI 0%N) as [I1 I2]. destruct (HI 1%N) as [P1 P2].
        assert (Step : forall x y r, Cmod x <= 1 + 14 * u -> Cmod y <= 1 + 26 * u -> Cmod (x - rc)%C <= w * u -> Cmod (y - r)%C <= (w + 12) * u ->
          Cmod (f_add A x y) <= 3 /\ Cmod (f_add A x y - (rc + r))%C <= (2 * w + 20) * u).
        { intros x y r Hx Hy Hxr Hyr. pose proof (add_own x y) as H1. pose proof (HM x y Hx Hy) as H2.
          assert (J : u * Cmod (x + y)%C <= u * (5 / 2)) by (apply Rmult_le_compat_l; lra). split.
          - pose proof (Cmod_near _ _ _ H1). lra.
          - pose proof (Cmod_tri3 (f_add A x y) (x + y)%C (rc + r)%C) as H3.
            replace (x + y - (rc + r))%C with ((x - rc) + (y - r))%C in H3 by ring. pose proof (Cmod_tri (x - rc)%C (y - r)%C). lra. }
        destruct (parity (N.land a pf)).
        * replace (rc * psi a + Ci * rs * (C1 * - C1) * psi a)%C with ((rc + - (Ci * rs)) * psi a)%C by ring.
          change mns with (f_add A cs (- f_mul A 0 Ci sn)%C).
          destruct (Step cs (- f_mul A 0 Ci sn)%C (- (Ci * rs))%C C2') as [K1 K2]; [now rewrite Cmod_opp|exact C1'| |].
          { replace (- f_mul A 0 Ci sn - - (Ci * rs))%C with (- (f_mul A 0 Ci sn - Ci * rs))%C by ring. now rewrite Cmod_opp. }
          now apply Fin.
        * replace (rc * psi a + Ci * rs * (C1 * C1) * psi a)%C with ((rc + Ci * rs) * psi a)%C by ring.
          destruct (Step cs (f_mul A 1 Ci sn) (Ci * rs)%C C2' P2 C1' P1) as [K1 K2]. now apply Fin.
    - set (F := fun (side : bool) (a : N) (v w : C) =>
        f_add A (f_mul A (if side then 8 else 4) cs v)
          (f_mul A (if side then 11 else 7) (f_mul A (if side then 10 else 6) (f_mul A (if side then 9 else 5) Ci sn) w)
             (PHASE_M90ROT ((popcount (N.land bf pf) + N.b2n (parity (N.land a pf)) * 2) mod 4)))).
      eexists. split.
      + apply (pauli_pair_out n B bf c cv Hn HB Hbf Hc Hd Hcv _ F psi E). intros it. reflexivity.
      + eapply (out_closeK (80 + Rabs theta) 33 _ _ psi exact); [lra|lra|exact Ex|]. intros a Ha. unfold F. cbv beta.
        set (y := psi (N.lxor a bf)). set (x := psi a).
        generalize (if N.testbit a (bit_width bf - 1) then 8%N else 4%N) (if N.testbit a (bit_width bf - 1) then 11%N else 7%N)
          (if N.testbit a (bit_width bf - 1) then 10%N else 6%N) (if N.testbit a (bit_width bf - 1) then 9%N else 5%N). intros i1 i2 i3 i4.
        change (PHASE_M90ROT _) with (mi_pow (popcount (N.land bf pf) + N.b2n (parity (N.land a pf)) * 2)).
        set (ph := mi_pow (popcount (N.land bf pf) + N.b2n (parity (N.land a pf)) * 2)).
        assert (Eph : pauli_phase bf pf a = ph).
        { unfold ph, pauli_phase, pauli_sign. rewrite mi_pow_add, mi_pow_2b. reflexivity. }
        rewrite Eph. assert (Hph : Cmod ph = 1) by apply mi_pow_mod.
        destruct (prod_units i1 rc cs x w Hcs C1') as [A1 A2].
        destruct (HI i4) as [I1 I2]. destruct (prod_units i3 (Ci * rs)%C (f_mul A i4 Ci sn) y (w + 12)) as [B1 B2]; [lra|exact I1|].
        set (t := f_mul A i3 (f_mul A i4 Ci sn) y) in *.
        pose proof (f_mul_err u eta A HA i2 t ph) as G1. rewrite Hph, Rmult_1_r in G1.
        pose proof (Cmod_nonneg x) as Hx. pose proof (Cmod_nonneg y) as Hy.
        assert (J1 : u * Cmod t <= u * (13 / 10 * Cmod y + 6 * eta)) by (apply Rmult_le_compat_l; lra).
        assert (J2 : u * eta <= / 256 * eta) by (apply Rmult_le_compat_r; lra).
        assert (J3 : u * Cmod y <= / 256 * Cmod y) by (apply Rmult_le_compat_r; lra).
        assert (G2 : Cmod (f_mul A i2 t ph - Ci * rs * ph * y)%C <= (w + 26) * u * Cmod y + 13 * eta).
        { pose proof (Cmod_tri3 (f_mul A i2 t ph) (t * ph)%C (Ci * rs * ph * y)%C) as H2.
          replace (t * ph - Ci * rs * ph * y)%C with ((t - Ci * rs * y) * ph)%C in H2 by ring. rewrite (Cmod_mul (t - Ci * rs * y)%C), Hph, Rmult_1_r in H2.
          assert (0 <= u * Cmod y) by (apply Rmult_le_pos; lra). lra. }
        assert (G3 : Cmod (f_mul A i2 t ph) <= 4 / 3 * Cmod y + 13 * eta).
        { pose proof (Cmod_near _ _ _ G1) as H2. rewrite Cmod_mul, Hph in H2. lra. }
        set (p := f_mul A i1 cs x) in *. set (q := f_mul A i2 t ph) in *.
        pose proof (add_own p q) as K1. pose proof (Cmod_tri p q) as K2.
        pose proof (Cmod_tri3 (f_add A p q) (p + q)%C (rc * x + Ci * rs * ph * y)%C) as K3.
        replace (p + q - (rc * x + Ci * rs * ph * y))%C with ((p - rc * x) + (q - Ci * rs * ph * y))%C in K3 by ring.
        pose proof (Cmod_tri (p - rc * x)%C (q - Ci * rs * ph * y)%C) as K4.
        assert (J5 : u * Cmod (p + q)%C <= u * (13 / 10 * Cmod x + 6 * eta + (4 / 3 * Cmod y + 13 * eta))) by (apply Rmult_le_compat_l; lra).
        assert (J6 : 0 <= u * Cmod x) by (apply Rmult_le_pos; lra). assert (J7 : 0 <= u * Cmod y) by (apply Rmult_le_pos; lra).
        assert (J8 : 0 <= Rabs theta * (u * Cmod x)) by (apply Rmult_le_pos; lra). assert (J9 : 0 <= Rabs theta * (u * Cmod y)) by (apply Rmult_le_pos; lra).
        set (T := Cmod (f_add A p q - (rc * x + Ci * rs * ph * y))%C) in *. clearbody T. unfold w in *. lra.
  Qed.
End PauliClose.
