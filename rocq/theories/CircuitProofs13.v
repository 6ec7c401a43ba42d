(** Kernels that run one team of threads per element of a batch. *)
From Verif Require Export CircuitProofs12.
From Coq Require Import ZifyBool ZifyN ZifyNat Lra.

(** ** Kernels whose iterations own disjoint parts of a state of d amplitudes *)
Definition owned (d : N) (dom : N -> bool) (owner : N -> N) (k : kernel N) : Prop :=
  (forall a, dom a = true -> a < d /\ owner a < k_iters k) /\
  (forall i, i < k_iters k -> foot (fun a => dom a = true /\ owner a = i) (fun a => dom a = true /\ owner a = i) (k_body k i)).
Lemma owned_computes d dom owner k m : owned d dom owner k ->
  kcomputes N.eqb (fun a => a <? d) k m (fun a => if dom a then run1 N.eqb (k_body k (owner a)) m a else m a).
Proof.
  intros (H1 & H2). unfold kcomputes.
  apply (owned_par_computes C N N.eqb neqb_spec (fun a => a <? d) (k_iters k) (k_body k) m (fun _ => false) dom owner).
  - intros a Ha. destruct (H1 a Ha). split; [now apply N.ltb_lt|]. auto.
  - discriminate.
  - intros i Hi. eapply foot_mono; [| |apply (H2 i Hi)]; auto.
Qed.
Lemma kcomputes_unique valid k (m m1 m2 : state) : kcomputes N.eqb valid k m m1 -> kcomputes N.eqb valid k m m2 -> forall a, m1 a = m2 a.
Proof.
  intros [H1 (s & r & Hr)] [H2 _] a. specialize (H1 s). specialize (H2 s). rewrite Hr in H1, H2. now rewrite <- H1, <- H2.
Qed.

(** ** Rows *)
Section Row.
  Variables (n B : N).
  Notation D := (B * 2 ^ n).
  Lemma in_row_foot b (P Q : N -> Prop) p : b < B -> (forall a, P a -> a < 2 ^ n) -> (forall a, Q a -> a < 2 ^ n) -> foot P Q p ->
    foot (fun a => a / 2 ^ n = b /\ P (a mod 2 ^ n)) (fun a => a / 2 ^ n = b /\ Q (a mod 2 ^ n)) (in_row n B b p).
  Proof.
    intros Hb HP HQ. induction p as [|a k IH|a v q IH]; cbn [foot in_row]; auto.
    - intros [Ha Hk]. pose proof (HP a Ha) as Hlt. rewrite (proj2 (N.ltb_lt a (2 ^ n)) Hlt). rewrite row_div, row_mod by assumption. split; [now split|auto].
    - intros [Ha Hq]. pose proof (HQ a Ha) as Hlt. rewrite (proj2 (N.ltb_lt a (2 ^ n)) Hlt). rewrite row_div, row_mod by assumption. split; [now split|auto].
  Qed.
  Lemma in_row_run b (P : N -> Prop) p : b < B -> (forall a, P a -> a < 2 ^ n) -> foot P P p ->
    forall (M : state) x, x < 2 ^ n -> run1 N.eqb (in_row n B b p) M (at_row n b x) = run1 N.eqb p (fun i => M (at_row n b i)) x.
  Proof.
    intros Hb HP. induction p as [|a k IH|a v q IH]; cbn [foot in_row run1]; auto; intros [Ha Hk] M x Hx; pose proof (HP a Ha) as Hlt;
      rewrite (proj2 (N.ltb_lt a (2 ^ n)) Hlt).
    - apply IH; auto.
    - rewrite IH by assumption. apply (run1_local C N N.eqb neqb_spec (fun i => i < 2 ^ n)); [|intros i Hi|assumption].
      + eapply foot_mono; [| |exact Hk]; auto.
      + unfold upd. destruct (N.eqb_spec i a) as [->|Hne]; [now rewrite N.eqb_refl|].
        destruct (N.eqb_spec (at_row n b i) (at_row n b a)) as [E|]; [|reflexivity]. apply row_inj in E; [|assumption|assumption]. tauto.
  Qed.

  Lemma row_kernel_computes (k : N -> kernel N) m dom owner (M : state) (M' : N -> state) : B * 2 ^ n <= two64 ->
    (forall b, b < B -> k_iters (k b) = m /\ owned (2 ^ n) dom owner (k b) /\
       kcomputes N.eqb (fun a => a <? 2 ^ n) (k b) (fun i => M (at_row n b i)) (M' b)) ->
    kcomputes N.eqb (fun a => a <? D) (row_kernel n B k) M
      (fun a => if a <? D then M' (a / 2 ^ n) (a mod 2 ^ n) else M a).
  Proof.
    intros HD H. destruct (N.eq_dec B 0) as [HB0|HB0].
    { unfold kcomputes. eapply par_computes_ext; [|apply (owned_computes D (fun _ => false) (fun _ => 0))].
      - intros a. cbn beta. rewrite HB0. destruct (N.ltb_spec a (0 * 2 ^ n)); [lia|reflexivity].
      - split; [discriminate|]. intros i. unfold row_kernel. cbn [k_iters]. rewrite HB0. lia. }
    assert (Hm : k_iters (k 0) = m) by (apply H; lia).
    assert (Hrow : forall a, a < D -> a / 2 ^ n < B).
    { intros a Ha. apply N.div_lt_upper_bound; [apply N.pow_nonzero; lia|]. lia. }
    assert (Hmod : forall a, a mod 2 ^ n < 2 ^ n) by (intros a; apply N.mod_lt; apply N.pow_nonzero; lia).
    set (dom' := fun a => (a <? D) && dom (a mod 2 ^ n)).
    set (owner' := fun a => a / 2 ^ n * m + owner (a mod 2 ^ n)).
    assert (Hown : forall a, dom' a = true -> a < D /\ owner' a / m = a / 2 ^ n /\ owner' a mod m = owner (a mod 2 ^ n) /\ owner (a mod 2 ^ n) < m /\ owner' a < B * m).
    { intros a Ha. unfold dom' in Ha. apply andb_true_iff in Ha. destruct Ha as [Ha Hd]. apply N.ltb_lt in Ha.
      destruct (H (a / 2 ^ n) (Hrow a Ha)) as (Hm1 & [Ho _] & _). destruct (Ho _ Hd) as [_ Ho']. rewrite Hm1 in Ho'.
      split; [assumption|]. unfold owner'. rewrite N.add_comm, N.div_add, N.mod_add, N.div_small, N.mod_small by lia.
      repeat split; auto. pose proof (Hrow a Ha). nia. }
    assert (Hk : owned D dom' owner' (row_kernel n B k)).
    { split.
      - intros a Ha. destruct (Hown a Ha) as (H1 & _ & _ & _ & H5). unfold row_kernel. cbn [k_iters]. rewrite Hm. auto.
      - intros i. unfold row_kernel. cbn [k_iters k_body]. rewrite Hm. intros Hi.
        assert (Hm0 : m <> 0) by nia. assert (Hb : i / m < B) by (apply N.div_lt_upper_bound; lia).
        destruct (H (i / m) Hb) as (Hm1 & [Ho Hf] & _). specialize (Hf (i mod m)). rewrite Hm1 in Hf.
        specialize (Hf (N.mod_lt i m Hm0)).
        assert (Hlt : forall a, dom a = true /\ owner a = i mod m -> a < 2 ^ n) by (intros a [Hd _]; exact (proj1 (Ho a Hd))).
        pose proof (in_row_foot (i / m) _ _ _ Hb Hlt Hlt Hf) as HF.
        assert (Himp : forall a, a / 2 ^ n = i / m /\ dom (a mod 2 ^ n) = true /\ owner (a mod 2 ^ n) = i mod m -> dom' a = true /\ owner' a = i).
        { intros a (E1 & E2 & E3). unfold dom', owner'. rewrite E2, E1, E3, andb_true_r. split.
          - apply N.ltb_lt. rewrite (row_split n a), E1. apply row_lt; auto.
          - rewrite N.mul_comm. symmetry. now apply N.div_mod. }
        eapply foot_mono; [| |exact HF]; exact Himp. }
    unfold kcomputes. eapply par_computes_ext; [|exact (owned_computes D dom' owner' _ M Hk)].
    intros a. cbn beta. destruct (N.ltb_spec a D) as [Ha|Ha].
    2: { unfold dom'. replace (a <? D) with false by lia. reflexivity. }
    destruct (H (a / 2 ^ n) (Hrow a Ha)) as (Hm1 & Ho & Hc).
    rewrite <- (kcomputes_unique _ _ _ _ _ (owned_computes _ _ _ _ _ Ho) Hc (a mod 2 ^ n)).
    unfold dom'. rewrite (proj2 (N.ltb_lt a D) Ha). cbn [andb]. destruct (dom (a mod 2 ^ n)) eqn:Ed.
    - assert (Hd : dom' a = true) by (unfold dom'; now rewrite (proj2 (N.ltb_lt a D) Ha), Ed).
      destruct (Hown a Hd) as (_ & E1 & E2 & E3 & _). unfold row_kernel. cbn [k_body]. rewrite Hm, E1, E2.
      transitivity (run1 N.eqb (in_row n B (a / 2 ^ n) (k_body (k (a / 2 ^ n)) (owner (a mod 2 ^ n)))) M (at_row n (a / 2 ^ n) (a mod 2 ^ n)));
        [f_equal; apply row_split|].
      destruct Ho as [Ho1 Ho2]. rewrite Hm1 in Ho2.
      refine (in_row_run (a / 2 ^ n) (fun x => dom x = true /\ owner x = owner (a mod 2 ^ n)) _ (Hrow a Ha) _ _ M (a mod 2 ^ n) (Hmod a)).
      + intros x [Hx _]. exact (proj1 (Ho1 x Hx)).
      + now apply Ho2.
    - now rewrite <- row_split.
  Qed.
End Row.

(** ** The kernels in question *)
Lemma group_owned n B t c cv (P : N -> cprog) (body : N -> cprog) : n <= 64 -> B * 2 ^ n <= two64 -> t < 2 ^ n -> c < 2 ^ n ->
  N.land t c = 0 -> N.land cv c = cv ->
  (forall it, it < gcnt n B t c -> body it = P (gbase t c cv it)) ->
  (forall b, N.land b t = 0 ->
     foot (fun a => exists s, N.land s t = s /\ a = N.lor b s) (fun a => exists s, N.land s t = s /\ a = N.lor b s) (P b)) ->
  owned (B * 2 ^ n) (gdom n B c cv) (gowner t c) (Kernel (gcnt n B t c) body).
Proof.
  intros Hn HB Ht Hc Hd Hcv Hbody Hfoot. split; cbn [k_iters k_body].
  - intros a Ha. destruct (gowner_base n B t c cv Hn HB Ht Hc Hd Hcv a Ha). apply valid_gdom in Ha. tauto.
  - intros it Hit. rewrite Hbody by assumption.
    eapply foot_mono; [| |apply (Hfoot (gbase t c cv it))].
    + intros a (s & Hs & ->). now apply gbase_owner.
    + intros a (s & Hs & ->). now apply gbase_owner.
    + bitwise i. destruct (N.testbit t i) eqn:Et; [|now rewrite andb_false_r].
      rewrite (gbase_tb n B t c cv Hn HB Ht Hc Hd Hcv); [|assumption|rewrite N.lor_spec, Et; reflexivity].
      destruct (N.testbit cv i) eqn:Ev; [|reflexivity]. apply (cv_tb c cv Hcv) in Ev.
      rewrite (land0_tb t c i Hd Et) in Ev. discriminate.
Qed.
Lemma pair_owned n B bf c cv (P : N -> cprog) (body : N -> cprog) : n <= 64 -> B * 2 ^ n <= two64 -> bf < 2 ^ n -> bf <> 0 -> c < 2 ^ n ->
  N.land bf c = 0 -> N.land cv c = cv ->
  (forall it, body it = P (N.lor (insert_zero_at_mask_positions it (N.lor c (shl64 1 (bit_width bf - 1)))) cv)) ->
  (forall b, foot (fun a => a = b \/ a = N.lxor b bf) (fun a => a = b \/ a = N.lxor b bf) (P b)) ->
  let fold_idx a := if N.testbit a (bit_width bf - 1) then N.lxor a bf else a in
  owned (B * 2 ^ n) (gdom n B c cv) (fun a => gowner (2 ^ (bit_width bf - 1)) c (fold_idx a)) (Kernel (N.shiftr (B * 2 ^ n) (popcount c + 1)) body).
Proof.
  intros Hn HB Hbf Hbf0 Hc Hd Hcv Hbody Hfoot fold_idx. set (q := bit_width bf - 1) in *.
  pose proof (q_lt n bf Hbf Hbf0) as Hq. pose proof (q_pow n B bf c cv Hn HB Hbf Hbf0 Hc Hd Hcv) as Hqp. pose proof (q_disj bf c Hbf0 Hd) as Hqd. fold q in Hq, Hqp, Hqd.
  assert (Hq64 : shl64 1 q = 2 ^ q) by (apply shl64_1; lia).
  assert (Hcnt : N.shiftr (B * 2 ^ n) (popcount c + 1) = gcnt n B (2 ^ q) c).
  { unfold gcnt. f_equal. rewrite popcount_lor_disj by exact Hqd. rewrite <- (bits_length (2 ^ q)), bits_pow2. simpl length. lia. }
  assert (Hb : forall it, body it = P (gbase (2 ^ q) c cv it)).
  { intros it. rewrite Hbody, Hq64. unfold gbase. now rewrite N.lor_comm with (a := c). }
  split; cbn [k_iters k_body]; rewrite Hcnt.
  - intros a Ha. destruct (gowner_base n B (2 ^ q) c cv Hn HB Hqp Hc Hqd Hcv (fold_idx a)) as [H1 _].
    + exact (fold_dom n B bf c cv Hbf Hd a Ha).
    + apply valid_gdom in Ha. tauto.
  - intros it Hit. rewrite Hb. eapply foot_mono; [| |apply Hfoot].
    1, 2: intros a Ha;
      destruct (gbase_owner n B (2 ^ q) c cv Hn HB Hqp Hc Hqd Hcv it 0 Hit eq_refl) as [H1 H2];
      rewrite N.lor_0_r in H1, H2;
      (assert (Hf : fold_idx (gbase (2 ^ q) c cv it) = gbase (2 ^ q) c cv it);
        [unfold fold_idx; rewrite (gbase_tb n B (2 ^ q) c cv Hn HB Hqp Hc Hqd Hcv it q Hit);
          [destruct (N.testbit cv q) eqn:E; [|reflexivity]; exfalso;
           apply (cv_tb c cv Hcv) in E; apply (land0_tb _ _ q) in Hqd; [congruence|apply N.pow2_bits_true]
          |rewrite N.lor_spec, N.pow2_bits_true; reflexivity]|]);
      destruct Ha as [-> | ->];
      [now rewrite Hf|split; [now apply flip_dom|]; pose proof (fold_flip bf Hbf0 (gbase (2 ^ q) c cv it)) as Hff; cbv beta in Hff;
       change (fold_idx (N.lxor (gbase (2 ^ q) c cv it) bf) = fold_idx (gbase (2 ^ q) c cv it)) in Hff; now rewrite Hff, Hf].
Qed.
Lemma rotation_owned n t c cv q : n < 64 -> t = 2 ^ q -> t < 2 ^ n -> c < 2 ^ n -> N.land t c = 0 -> N.land cv c = cv ->
  exists dom owner, (forall M, owned (2 ^ n) dom owner (one_target_dense_matrix_gate_scalar (2 ^ n) t c cv M)) /\
    forall d0 d1, owned (2 ^ n) dom owner (one_target_diagonal_matrix_gate (2 ^ n) t c cv d0 d1).
Proof.
  intros Hn Eq Ht Hc Hd Hcv.
  assert (HB : 1 * 2 ^ n <= two64) by (rewrite N.mul_1_l; unfold two64; apply N.pow_le_mono_r; lia).
  assert (Hn' : n <= 64) by lia.
  exists (gdom n 1 c cv), (gowner t c). replace (2 ^ n) with (1 * 2 ^ n) by apply N.mul_1_l. split.
  - intros M. apply (group_owned n 1 t c cv (fun b0 => Rd b0 (fun val0 => Rd (N.lor b0 t) (fun val1 =>
        Wr b0 (M 0 0 * val0 + M 0 1 * val1)%C (Wr (N.lor b0 t) (M 1 0 * val0 + M 1 1 * val1)%C Ret))))); auto.
    + intros it _. unfold gbase. now rewrite (N.lor_comm c t).
    + intros b _. cbn [foot]. assert (H0 : exists s, N.land s t = s /\ b = N.lor b s) by (exists 0; split; [reflexivity|now rewrite N.lor_0_r]).
      assert (H1 : exists s, N.land s t = s /\ N.lor b t = N.lor b s) by (exists t; split; [apply N.land_diag|reflexivity]). tauto.
  - intros d0 d1. apply (group_owned n 1 t c cv (fun i => mul_at i d0 (mul_at (N.lor i t) d1 Ret))); auto.
    intros b _. unfold mul_at. cbn [foot]. assert (H0 : exists s, N.land s t = s /\ b = N.lor b s) by (exists 0; split; [reflexivity|now rewrite N.lor_0_r]).
    assert (H1 : exists s, N.land s t = s /\ N.lor b t = N.lor b s) by (exists t; split; [apply N.land_diag|reflexivity]). tauto.
Qed.
Lemma pauli_rotation_owned n c cv bf pf coef : n < 64 -> bf < 2 ^ n -> c < 2 ^ n -> N.land bf c = 0 -> N.land cv c = cv ->
  exists dom owner, forall angle, owned (2 ^ n) dom owner (apply_pauli_rotation (2 ^ n) c cv bf pf coef angle).
Proof.
  intros Hn Hbf Hc Hd Hcv.
  assert (HB : 1 * 2 ^ n <= two64) by (rewrite N.mul_1_l; unfold two64; apply N.pow_le_mono_r; lia).
  assert (Hn' : n <= 64) by lia. unfold apply_pauli_rotation. destruct (N.eqb_spec bf 0) as [E|E].
  - exists (gdom n 1 c cv), (gowner 0 c). intros angle. replace (2 ^ n) with (1 * 2 ^ n) by apply N.mul_1_l.
    replace (N.shiftr (1 * 2 ^ n) (popcount c)) with (gcnt n 1 0 c) by (unfold gcnt; now rewrite N.lor_0_l).
    set (cs := Ccos _). set (sn := Csin _).
    apply (group_owned n 1 0 c cv (fun s => if parity (N.land s pf) then mul_at s (cs - Ci * sn)%C Ret else mul_at s (cs + Ci * sn)%C Ret)); auto.
    + apply pow2_pos.
    + intros b _. assert (H0 : exists s, N.land s 0 = s /\ b = N.lor b s) by (exists 0; split; [reflexivity|now rewrite N.lor_0_r]).
      destruct (parity _); unfold mul_at; cbn [foot]; tauto.
  - exists (gdom n 1 c cv), (fun a => gowner (2 ^ (bit_width bf - 1)) c (if N.testbit a (bit_width bf - 1) then N.lxor a bf else a)).
    intros angle. replace (2 ^ n) with (1 * 2 ^ n) by apply N.mul_1_l. set (cs := Ccos _). set (sn := Csin _).
    apply (pair_owned n 1 bf c cv (fun b0 => Rd b0 (fun v0 => Rd (N.lxor b0 bf) (fun v1 =>
       Wr b0 (cs * v0 + Ci * sn * v1 * PHASE_M90ROT ((popcount (N.land bf pf) + N.b2n (parity (N.land b0 pf)) * 2) mod 4))%C
         (Wr (N.lxor b0 bf) (cs * v1 + Ci * sn * v0 * PHASE_M90ROT ((popcount (N.land bf pf) + N.b2n (parity (N.land (N.lxor b0 bf) pf)) * 2) mod 4))%C
          Ret))))); auto.
    intros b. cbn [foot]. tauto.
Qed.

Lemma single_computes D k (M M' R : state) : kcomputes N.eqb (fun a => a <? D) k M M' -> updates_to D (InPlace [k]) M R -> forall a, a < D -> M' a = R a.
Proof.
  intros [H1 (s & r & Hr)] [H2 _] a Ha. specialize (H1 s). specialize (H2 (fun _ => C0) [s]). cbn [run_plan run_kernels] in H2. rewrite Hr in H1, H2.
  now rewrite <- H1, H2.
Qed.
(** One gate per element. *)
Lemma row_updates n B (k : N -> kernel N) (g : N -> egate) m dom owner (M : state) : n < 64 -> B * 2 ^ n <= two64 ->
  (forall b, b < B -> k_iters (k b) = m /\ owned (2 ^ n) dom owner (k b) /\ update_plan n (2 ^ n) 0 (g b) = Ok (InPlace [k b]) /\
                      gate_wf (g b) /\ gate_fits n (g b)) ->
  updates_to (B * 2 ^ n) (InPlace [row_kernel n B k]) M
    (fun a => gate_sem (g (a / 2 ^ n)) (fun i => M (at_row n (a / 2 ^ n) i)) (a mod 2 ^ n)).
Proof.
  intros Hn HB H.
  set (row := fun b (i : N) => M (at_row n b i)).
  eapply updates_inplace1.
  - apply (row_kernel_computes n B k m dom owner M (fun b a => if dom a then run1 N.eqb (k_body (k b) (owner a)) (row b) a else row b a)); [assumption|].
    intros b Hb. destruct (H b Hb) as (H1 & H2 & _). split; [assumption|]. split; [assumption|]. exact (owned_computes _ _ _ _ (row b) H2).
  - intros a Ha. cbn beta. rewrite (proj2 (N.ltb_lt a (B * 2 ^ n)) Ha).
    assert (Hb : a / 2 ^ n < B) by (apply N.div_lt_upper_bound; [apply N.pow_nonzero; lia|lia]).
    destruct (H (a / 2 ^ n) Hb) as (H1 & H2 & H3 & H4 & H5).
    assert (Hs : sizes_ok n 1 0).
    { split; [assumption|]. split; [rewrite N.mul_1_l; apply N.pow_le_mono_r; lia|]. left. reflexivity. }
    destruct (update_correct' n 1 0 _ (row (a / 2 ^ n)) H4 H5 Hs) as (p & Hp & Hu). rewrite N.mul_1_l in Hp, Hu. rewrite H3 in Hp. injection Hp as <-.
    apply (single_computes _ _ _ _ _ (owned_computes _ _ _ _ (row (a / 2 ^ n)) H2) Hu). apply N.mod_lt. apply N.pow_nonzero. lia.
Qed.
Lemma b_rot_updates n B k b (angle : N -> R) (M : state) : n < 64 -> B * 2 ^ n <= two64 -> gate_wf (EStd (rot_std k 0) b) -> gate_fits n (EStd (rot_std k 0) b) ->
  updates_to (B * 2 ^ n) (InPlace [b_rot_kernel n B k (g_t b) (g_c b) (g_cv b) angle]) M
    (fun a => gate_sem (EStd (rot_std k (angle (a / 2 ^ n))) b) (fun i => M (at_row n (a / 2 ^ n) i)) (a mod 2 ^ n)).
Proof.
  intros Hn HB Hw Hf. pose proof Hw as [(Hd & Hcv & _) (q & Hq)]. destruct Hf as [Ht Hc]. cbn [g_base] in *.
  destruct (rotation_owned n (g_t b) (g_c b) (g_cv b) q Hn Hq Ht Hc Hd Hcv) as (dom & owner & H1 & H2).
  unfold b_rot_kernel. apply (row_updates n B _ (fun e => EStd (rot_std k (angle e)) b) (N.shiftr (2 ^ n) (popcount (N.lor (g_t b) (g_c b)))) dom owner); auto.
  intros e He. assert (Hwb : within_bounds n b = true) by (apply (within_bounds_iff n b Hn); auto).
  split; [|split; [|split; [|split]]].
  - destruct k; reflexivity.
  - destruct k; [apply H1|apply H1|apply H2].
  - unfold update_plan. cbn [g_base]. rewrite Hwb. destruct k; cbn [rot_std std1_kernel]; unfold one_target_dense_matrix_gate, use_simd; cbn [N.ltb N.compare andb];
      try reflexivity.
    change (0 <? 0) with false. cbn [andb]. replace (RtoC (- sin (angle e / 2))) with (- RtoC (sin (angle e / 2)))%C; [reflexivity|]. unfold RtoC, Copp. cbn [fst snd]. f_equal; ring.
  - exact Hw.
  - split; assumption.
Qed.
Lemma b_pauli_rotation_updates n B b p (angle : N -> R) (M : state) : n < 64 -> B * 2 ^ n <= two64 -> gate_wf (EPauliRotation b p 0) -> gate_fits n (EPauliRotation b p 0) ->
  updates_to (B * 2 ^ n) (InPlace [b_pauli_rotation_kernel n B (g_c b) (g_cv b) p angle]) M
    (fun a => gate_sem (EPauliRotation b p (angle (a / 2 ^ n))) (fun i => M (at_row n (a / 2 ^ n) i)) (a mod 2 ^ n)).
Proof.
  intros Hn HB Hw Hf. pose proof Hw as [(Hd & Hcv & _) Hq]. pose proof Hf as [Ht Hc]. cbn [g_base] in *.
  assert (Hbf : p_bf p < 2 ^ n) by (rewrite Hq in Ht; apply lor_lt_iff in Ht; tauto).
  assert (Hbd : N.land (p_bf p) (g_c b) = 0).
  { rewrite Hq in Hd. apply N.bits_inj. intros i. pose proof (eq_tb _ _ Hd i) as E. rewrite N.land_spec, N.lor_spec, N.bits_0 in E. rewrite N.land_spec, N.bits_0.
    destruct (N.testbit (p_bf p) i), (N.testbit (g_c b) i); simpl in *; congruence. }
  destruct (pauli_rotation_owned n (g_c b) (g_cv b) (p_bf p) (p_pf p) (p_coef p) Hn Hbf Hc Hbd Hcv) as (dom & owner & H1).
  unfold b_pauli_rotation_kernel. apply (row_updates n B _ (fun e => EPauliRotation b p (angle e))
    (if p_bf p =? 0 then N.shiftr (2 ^ n) (popcount (g_c b)) else N.shiftr (2 ^ n) (popcount (g_c b) + 1)) dom owner); auto.
  intros e He. split; [|split; [|split; [|split]]]; auto.
  unfold apply_pauli_rotation. destruct (p_bf p =? 0); reflexivity.
Qed.
