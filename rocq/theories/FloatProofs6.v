(** Calls and sequences of calls in rounded arithmetic. *)
From Verif Require Export FloatProofs11 RotationProofs CircuitProofs5.
From Verif Require Import GroundProofs4 GroundProofs9 GatesProofs8.
From Coq Require Import Lra ZifyBool ZifyN ZifyNat.
Open Scope R_scope.

(** * Calls *)
Lemma make_allowed vf k g u A : call_typed k -> make vf k = Ok g -> a_rnd A 0 = 0 -> rounded_call u A k -> f_allowed u A g /\ gate_weight g = weight k.
Proof.
  intros Hty H Hz Hr. destruct k; cbn [make rounded_call weight call_typed] in *;
    try solve [contradiction
              |inv_bind H; apply create_ok in H; destruct H as (? & ? & ? & _ & _ & _ & _ & ->); split; [first [exact I | exact Hr]|reflexivity]
              |apply create_ok in H; destruct H as (? & ? & ? & _ & _ & _ & _ & ->); split; [first [exact I | exact Hr]|reflexivity]].
  - injection H as <-. split; [exact I|reflexivity].
  - inv_bind H. inv_bind H. destruct v0 as [[t c] cv]. inv_bind H. inv_bind H. inv_bind H. injection H as <-. split; [exact I|reflexivity].
  - destruct (64 <=? _)%N; [discriminate|]. inv_bind H. destruct (negb _); [discriminate|]. unfold make_permutation_impl in H.
    inv_bind H. destruct (64 <=? _)%N; [discriminate|]. destruct (negb _); [discriminate|]. inv_bind H. injection H as <-. split; [exact I|reflexivity].
  - inv_bind H. inv_bind H. destruct v0 as [[t c] cv]. inv_bind H. injection H as <-. split; [exact Hr|reflexivity].
  - inv_bind H. inv_bind H. destruct v0 as [[t c] cv]. inv_bind H. injection H as <-. split; [|reflexivity]. destruct Hr as (_ & Hr & Hi). split; [|exact Hi].
    unfold f_entry. rewrite Hi, Hz, Hr. rewrite <- Hi. now destruct (p_coef p).
  - inv_bind H. destruct (64 <=? _)%N eqn:E64; [discriminate|]. rewrite shl64_one in H by lia.
    destruct (m_rows M =? _)%N eqn:E1; [|discriminate]. destruct (m_cols M =? _)%N eqn:E2; [|discriminate]. cbn [negb orb] in H.
    apply N.eqb_eq in E1, E2. apply create_ok in H; destruct H as (t & c & cv & Ht & _ & _ & _ & ->).
    pose proof (mask_popcount _ _ Ht) as Hp. apply vector_to_mask_ok in Ht. destruct Ht as (_ & Hnd & Htb). cbn [f_allowed gate_weight g_t]. destruct Hr as [Hlen Hent].
    rewrite Hp, Nat2N.id. split.
    + split; [destruct Hlen; [left; lia|now right]|].
      destruct (is_sorted targets); [exact Hent|]. cbn [transform_dense_matrix_by_order m_rows m_cols m_at]. rewrite E1, E2 in *.
      destruct (transformed_index_bij targets Hnd ltac:(lia)) as (B1 & _). intros i j Hi Hj. apply Hent; now apply B1.
    + replace (N.of_nat (length targets) <=? 2)%N with (length targets <=? 2)%nat by lia. reflexivity.
  - inv_bind H. destruct Hr as [Hlen Hent]. destruct (is_sorted targets).
    + apply create_ok in H; destruct H as (t & c & cv & Ht & _ & _ & _ & ->). pose proof (mask_popcount _ _ Ht) as Hp.
      cbn [f_allowed gate_weight g_t]. rewrite Hp, Nat2N.id. split; [split; assumption|reflexivity].
    + destruct (64 <=? _)%N eqn:E64; [discriminate|]. rewrite shl64_one in H by lia.
      destruct (csr_rows S =? _)%N eqn:E1; [|discriminate]. cbn [negb orb] in H. apply N.eqb_eq in E1.
      apply create_ok in H; destruct H as (t & c & cv & Ht & _ & _ & _ & ->). pose proof (mask_popcount _ _ Ht) as Hp.
      apply vector_to_mask_ok in Ht. destruct Ht as (_ & Hnd & _). cbn [f_allowed gate_weight g_t]. rewrite Hp, Nat2N.id. split; [|reflexivity]. split; [exact Hlen|].
      destruct (transformed_index_bij targets Hnd ltac:(lia)) as (B1 & _). intros i j Hi Hj.
      change (i < csr_rows S)%N in Hi. change (j < csr_rows S)%N in Hj. rewrite sparse_view_sum by assumption.
      cbn [transform_dense_matrix_by_order m_at]. destruct Hty as [Hok _]. rewrite E1 in *.
      rewrite csr_dense_sum; [|rewrite E1; now apply B1|exact Hok]. apply Hent; now apply B1.
Qed.

(** * Norms *)
Lemma flat_xor n b i s : (i < 2 ^ n)%N -> (s < 2 ^ n)%N -> N.lxor (b * 2 ^ n + i) s = (b * 2 ^ n + N.lxor i s)%N.
Proof.
  intros Hi Hs. pose proof (lxor_lt_pow2 i s n Hi Hs) as Hx. apply N.bits_inj. intros q. rewrite N.lxor_spec.
  destruct (N.ltb_spec q n) as [Hq|Hq].
  - rewrite !flat_tb_low by assumption. symmetry. apply N.lxor_spec.
  - rewrite !flat_tb_high by assumption. rewrite (testbit_high s n q) by assumption. apply xorb_false_r.
Qed.
Lemma vnorm_mono n (a b : state) : (forall x, (x < 2 ^ n)%N -> Cmod (a x) <= Cmod (b x)) -> vnorm n a <= vnorm n b.
Proof.
  intros H. unfold vnorm, sqnorm. apply sqrt_le_1_alt. apply Rsuml_le. intros x Hx. apply in_seqN in Hx.
  rewrite <- !Cmod_sq. pose proof (H x Hx). pose proof (Cmod_nonneg (a x)). apply Rmult_le_compat; assumption.
Qed.
Lemma vnorm_mods n (a : state) : vnorm n (fun x => RtoC (Cmod (a x))) = vnorm n a.
Proof.
  unfold vnorm, sqnorm. f_equal. apply Rsuml_ext. intros x _. rewrite <- !Cmod_sq, Cmod_real. rewrite Rabs_right by (apply Rle_ge, Cmod_nonneg). reflexivity.
Qed.
Lemma vnorm_xor n s (a : state) : (s < 2 ^ n)%N -> vnorm n (fun x => a (N.lxor x s)) = vnorm n a.
Proof.
  intros Hs. rewrite <- (string_norm n (Pauli C1 s 0) a).
  - apply vnorm_ext. intros x _. rewrite string_eq. cbn [p_bf p_pf].
    replace (pauli_phase s 0 x) with C1; [ring|]. unfold pauli_phase. rewrite !N.land_0_r. transitivity (C1 * C1)%C; [ring|reflexivity].
  - split; cbn [p_bf p_pf]; [assumption|apply pow2_pos].
Qed.
Lemma INR_pow2 n : INR (N.to_nat (2 ^ n)) = 2 ^ N.to_nat n.
Proof. rewrite N2Nat.inj_pow, pow_INR. reflexivity. Qed.
Lemma vnorm_const n r : 0 <= r -> vnorm n (fun _ => RtoC r) = r * sqrt (2 ^ N.to_nat n).
Proof.
  intros Hr. rewrite (vnorm_ext n _ (fun x => (RtoC r * C1)%C)) by (intros; ring). rewrite vnorm_real, Rabs_right by lra. f_equal.
  unfold vnorm, sqnorm. f_equal. rewrite (Rsuml_ext _ (fun _ => 1)) by (intros; unfold Cnorm2; cbn; ring). rewrite Rsuml_const, length_seqN. apply INR_pow2.
Qed.
Lemma Rsuml_scale {T} c (f : T -> R) l : Rsuml (fun x => c * f x) l = c * Rsuml f l.
Proof. induction l as [|x l IH]; cbn; [ring|]. unfold Rsuml in *. cbn. rewrite IH. ring. Qed.
Lemma Rsuml_same {T} c (l : list T) : Rsuml (fun _ => c) l = c * INR (length l).
Proof. rewrite <- Rsuml_const, <- Rsuml_scale. apply Rsuml_ext. intros; ring. Qed.

Lemma close_distance u eta K H S n B psi phi exact b : 0 <= u -> 0 <= eta -> 0 <= K -> 0 <= H -> Forall (fun s => (s < 2 ^ n)%N) S ->
  closeK u eta K H S (B * 2 ^ n) psi phi exact -> (b < B)%N ->
  distance n (batch n b phi) (batch n b exact) <= INR (length S) * K * (u * vnorm n (batch n b psi)) + H * (eta * sqrt (2 ^ N.to_nat n)).
Proof.
  intros Hu He HK HH HSn Hc Hb. set (v := batch n b psi). unfold distance.
  assert (HKu : 0 <= K * u) by now apply Rmult_le_pos. assert (HHe : 0 <= H * eta) by now apply Rmult_le_pos.
  apply Rle_trans with (vnorm n (fun x => RtoC (K * u) * Csuml (fun s => RtoC (Cmod (v (N.lxor x s)))) S + RtoC (H * eta))%C).
  - apply vnorm_mono. intros x Hx. unfold batch at 1 2. eapply Rle_trans; [apply Hc; nia|].
    rewrite <- RtoC_Rsuml. rewrite <- RtoC_mul, <- RtoC_add, Cmod_real. rewrite Rabs_right.
    + apply Req_le. do 2 f_equal. unfold spread. apply Rsuml_ext. intros s Hs. rewrite Forall_forall in HSn. rewrite flat_xor by auto. reflexivity.
    + apply Rle_ge. assert (0 <= Rsuml (fun s => Cmod (v (N.lxor x s))) S) by (apply (spread_nonneg S v x)). apply Rplus_le_le_0_compat; [now apply Rmult_le_pos|assumption].
  - eapply Rle_trans; [apply vnorm_add|]. rewrite vnorm_const by lra. rewrite vnorm_real, Rabs_right by lra.
    assert (H1 : vnorm n (fun x => Csuml (fun s => RtoC (Cmod (v (N.lxor x s)))) S) <= INR (length S) * vnorm n v).
    { eapply Rle_trans; [apply (vnorm_suml n (fun s x => RtoC (Cmod (v (N.lxor x s)))))|].
      rewrite (Rsuml_ext _ (fun _ => vnorm n v)).
      - rewrite Rsuml_same. rewrite Rmult_comm. apply Rle_refl.
      - intros s Hs. rewrite Forall_forall in HSn. rewrite (vnorm_mods n (fun x => v (N.lxor x s))). apply vnorm_xor. auto. }
    assert (H2 : K * u * vnorm n (fun x => Csuml (fun s => RtoC (Cmod (v (N.lxor x s)))) S) <= K * u * (INR (length S) * vnorm n v)) by (apply Rmult_le_compat_l; lra).
    nra.
Qed.

(** * One call *)
Lemma f_result_updating A n B L g psi phi r : f_updating A n B L g psi phi -> f_result A n B L g psi r -> forall a, (a < B * 2 ^ n)%N -> r a = phi a.
Proof.
  intros (p & Hp & Hu) (p' & junk & scheds & Hp' & Hr) a Ha. rewrite Hp in Hp'. injection Hp' as <-. exact (updates_to_run _ _ _ _ _ _ _ Hu Hr a Ha).
Qed.
Lemma f_updating_result A n B L g psi phi : f_updating A n B L g psi phi -> exists r, f_result A n B L g psi r.
Proof. intros (p & Hp & _ & Hu). destruct (Hu psi) as (scheds & r & Hr). exists r, p, psi, scheds. auto. Qed.

Lemma distance_ext n a a' c c' : (forall x, (x < 2 ^ n)%N -> a x = a' x) -> (forall x, (x < 2 ^ n)%N -> c x = c' x) -> distance n a c = distance n a' c'.
Proof. intros H1 H2. apply vnorm_ext. intros x Hx. now rewrite H1, H2. Qed.

Lemma unit_error_nonneg u eta n size : 0 <= u -> 0 <= eta -> 0 <= size -> 0 <= unit_error u eta n size.
Proof. intros. unfold unit_error. pose proof (sqrt_pos (2 ^ N.to_nat n)). apply Rplus_le_le_0_compat; now apply Rmult_le_pos. Qed.
Lemma call_close u eta A vf k g n B L psi : accurate u eta A -> call_typed k -> make vf k = Ok g -> rounded_call u A k ->
  Forall (fun q => (q < n)%N) (call_operands k) -> sizes_ok n B L ->
  exists phi, f_updating A n B L g psi phi /\
  forall b, (b < B)%N -> distance n (batch n b phi) (apply_mat (call_targets k) (call_controls k) (call_matrix k) (batch n b psi)) <= weight k * unit_error u eta n (vnorm n (batch n b psi)).
Proof.
  intros HA Hty H Hr HF (Hn & HB & HL). pose proof (make_means vf k g Hty H) as Hm.
  destruct (make_allowed vf k g u A Hty H (acc_zero _ _ _ HA) Hr) as [Hal Hw].
  destruct (f_gate_closeK u eta A n B L HA Hn HB HL g psi (means_wf _ _ _ _ Hm) (means_fits _ _ _ _ _ Hm HF) Hal) as (S & K & H0 & p & phi & W1 & W2 & HK & HH & HSn & Hp & Hu & Hc).
  exists phi. split; [exists p; auto|]. intros b Hb. pose proof (u_range u eta A HA). pose proof (eta_range u eta A HA).
  apply Rle_trans with (INR (length S) * K * (u * vnorm n (batch n b psi)) + H0 * (eta * sqrt (2 ^ N.to_nat n))).
  - eapply Rle_trans; [|apply (close_distance u eta K H0 S n B psi phi (gate_sem g psi) b); try assumption; lra].
    apply Req_le. apply distance_ext; [reflexivity|]. intros x Hx. pose proof HF as HF'. apply Forall_app in HF'. destruct HF' as [Ft Fc].
    rewrite <- apply_mat_batch; [|exact (call_targets_NoDup vf k g Hty H)|exact HF|exact Hx].
    unfold batch. symmetry. apply (means_sem _ _ _ _ Hm). pose proof (call_targets_len vf k g n Hty H Ft). lia.
  - rewrite Hw in *. unfold unit_error. rewrite Rmult_plus_distr_l. pose proof (vnorm_nonneg n (batch n b psi)). pose proof (sqrt_pos (2 ^ N.to_nat n)).
    apply Rplus_le_compat; apply Rmult_le_compat_r; try assumption; apply Rmult_le_pos; lra.
Qed.

(** * Sequences of calls *)
Lemma distance_tri n a b c : distance n a c <= distance n a b + distance n b c.
Proof.
  unfold distance. rewrite (vnorm_ext n (fun x => a x - c x)%C (fun x => (a x - b x) + (b x - c x))%C) by (intros; ring). apply vnorm_add.
Qed.
Lemma vnorm_distance n a b : vnorm n a <= vnorm n b + distance n a b.
Proof.
  rewrite (vnorm_ext n a (fun x => b x + (a x - b x))%C) by (intros; ring). eapply Rle_trans; [apply vnorm_add|]. unfold distance. lra.
Qed.
Lemma act_keeps u A n k g psi : (n < 64)%N -> call_ok u A n k g -> vnorm n (apply_mat (call_targets k) (call_controls k) (call_matrix k) psi) = vnorm n psi.
Proof.
  intros Hn (Hty & (vf & Hm) & Hun & _ & HF). pose proof (unitary_act_keeps n vf k g Hn Hty Hm Hun HF psi) as H. unfold vnorm. f_equal. exact H.
Qed.
Lemma act_distance u A n k g psi phi : (n < 64)%N -> call_ok u A n k g ->
  distance n (apply_mat (call_targets k) (call_controls k) (call_matrix k) psi) (apply_mat (call_targets k) (call_controls k) (call_matrix k) phi) = distance n psi phi.
Proof.
  intros Hn Hk. unfold distance. rewrite <- (act_keeps u A n k g (fun x => psi x - phi x)%C Hn Hk). apply vnorm_ext. intros x _.
  transitivity (apply_mat (call_targets k) (call_controls k) (call_matrix k) (fun x => psi x + (- C1) * phi x)%C x).
  - rewrite apply_mat_add. rewrite (apply_mat_scale _ _ _ (- C1)%C). ring.
  - apply apply_mat_ext. intros; ring.
Qed.
Lemma weight_nonneg k : 0 <= weight k.
Proof.
  destruct k; cbn [weight]; try lra.
  - pose proof (Rabs_pos (angle * fst (p_coef p))). lra.
  - destruct (_ <=? _)%nat; [lra|]. pose proof (pow_lt 4 (length targets)). lra.
  - pose proof (pow_lt 4 (length targets)). lra.
Qed.
Lemma total_nonneg ks : 0 <= total_weight ks. Proof. apply Rsuml_pos. intros; apply weight_nonneg. Qed.
Definition spoil (u : R) (ks : list call) : R := fold_right (fun k P => (1 + weight k * u) * P) 1 ks.
Lemma spoil_nonneg u ks : 0 <= u -> 0 <= spoil u ks.
Proof. intros Hu. induction ks as [|k ks IH]; cbn; [lra|]. apply Rmult_le_pos; [|exact IH]. pose proof (weight_nonneg k). nra. Qed.
Lemma spoil_exp u ks : 0 <= u -> spoil u ks <= exp (total_weight ks * u).
Proof.
  intros Hu. induction ks as [|k ks IH]; cbn [spoil fold_right].
  - unfold total_weight, Rsuml. cbn. rewrite Rmult_0_l, exp_0. lra.
  - change (total_weight (k :: ks)) with (weight k + total_weight ks). fold (spoil u ks). replace (exp ((weight k + total_weight ks) * u)) with (exp (weight k * u) * exp (total_weight ks * u)) by (rewrite <- exp_plus; f_equal; ring). pose proof (weight_nonneg k). pose proof (spoil_nonneg u ks Hu).
    assert (0 <= weight k * u) by now apply Rmult_le_pos.
    apply Rmult_le_compat; try assumption; [lra|]. destruct (Req_dec (weight k * u) 0) as [->|]; [rewrite exp_0; lra|]. left. apply exp_ineq1. lra.
Qed.
Lemma spoil_3 u ks : 0 <= u -> total_weight ks * u <= 1 -> spoil u ks <= 3.
Proof.
  intros Hu H. eapply Rle_trans; [apply spoil_exp; assumption|]. eapply Rle_trans; [|apply exp_le_3].
  destruct (Rle_lt_or_eq_dec _ _ H) as [H'| ->]; [left; now apply exp_increasing|lra].
Qed.
Lemma run_close_gen u eta A n B L : accurate u eta A -> sizes_ok n B L -> forall ks gs, Forall2 (call_ok u A n) ks gs ->
  forall psi rho, f_run A n B L gs psi rho -> forall b e, (b < B)%N ->
  distance n (batch n b rho) (exact_after ks e) <= spoil u ks * (distance n (batch n b psi) e + total_weight ks * unit_error u eta n (vnorm n e)).
Proof.
  intros HA Hs ks gs HF. pose proof (u_range u eta A HA) as Hu. pose proof (eta_range u eta A HA) as He.
  induction HF as [|k g ks gs Hk HF IH]; intros psi rho Hrun b e Hb; inversion Hrun; subst.
  - cbn. lra.
  - rename phi into r. set (Uk := apply_mat (call_targets k) (call_controls k) (call_matrix k)).
    pose proof Hs as (Hn & _). specialize (IH r rho ltac:(assumption) b (Uk e) Hb).
    replace (exact_after (k :: ks) e) with (exact_after ks (Uk e)) by reflexivity.
    eapply Rle_trans; [exact IH|]. change (spoil u (k :: ks)) with ((1 + weight k * u) * spoil u ks). change (total_weight (k :: ks)) with (weight k + total_weight ks).
    unfold Uk at 2. rewrite (act_keeps u A n k g e Hn Hk). fold Uk.
    pose proof Hk as (Hty & (vf & Hm) & Hun & Hr & Hops).
    destruct (call_close u eta A vf k g n B L psi HA Hty Hm Hr Hops Hs) as (phi & Hphi & Hd). specialize (Hd b Hb). fold Uk in Hd.
    set (Q := unit_error u eta n (vnorm n e)). set (d0 := distance n (batch n b psi) e).
    assert (Hd0 : 0 <= d0) by apply vnorm_nonneg.
    assert (HQ : 0 <= Q) by (apply unit_error_nonneg; [lra|lra|apply vnorm_nonneg]).
    pose proof (weight_nonneg k) as Hwk. set (w := weight k) in *. pose proof (total_nonneg ks) as HW. set (W := total_weight ks) in *.
    assert (Hstep : distance n (batch n b r) (Uk e) <= (1 + w * u) * d0 + w * Q).
    { rewrite (distance_ext n (batch n b r) (batch n b phi) (Uk e) (Uk e)) by (intros x Hx; first [reflexivity | unfold batch; eapply f_result_updating; [exact Hphi|eassumption|nia]]).
      eapply Rle_trans; [apply (distance_tri n _ (Uk (batch n b psi)))|]. unfold Uk at 2 3. rewrite (act_distance u A n k g _ _ Hn Hk). fold Uk. fold d0.
      pose proof (vnorm_distance n (batch n b psi) e) as Hv. fold d0 in Hv.
      assert (unit_error u eta n (vnorm n (batch n b psi)) <= Q + u * d0).
      { unfold Q, unit_error. assert (u * vnorm n (batch n b psi) <= u * (vnorm n e + d0)) by (apply Rmult_le_compat_l; lra). lra. }
      assert (w * unit_error u eta n (vnorm n (batch n b psi)) <= w * (Q + u * d0)) by now apply Rmult_le_compat_l. lra. }
    assert (HP : 0 <= spoil u ks) by (apply spoil_nonneg; lra).
    rewrite (Rmult_comm (1 + w * u)), Rmult_assoc. apply Rmult_le_compat_l; [exact HP|].
    assert (0 <= (w * u) * ((w + W) * Q)) by (apply Rmult_le_pos; [apply Rmult_le_pos; lra|apply Rmult_le_pos; lra]). fold Q. lra.
Qed.
Lemma runs_exist u eta A n B L : accurate u eta A -> sizes_ok n B L -> forall ks gs, Forall2 (call_ok u A n) ks gs -> forall psi, exists rho, f_run A n B L gs psi rho.
Proof.
  intros HA Hs ks gs HF. induction HF as [|k g ks gs Hk HF IH]; intros psi; [exists psi; constructor|].
  pose proof Hk as (Hty & (vf & Hm) & Hun & Hr & Hops). destruct (call_close u eta A vf k g n B L psi HA Hty Hm Hr Hops Hs) as (phi & Hphi & _).
  destruct (f_updating_result _ _ _ _ _ _ _ Hphi) as [r Hr']. destruct (IH r) as [rho Hrho]. exists rho. econstructor; eassumption.
Qed.
