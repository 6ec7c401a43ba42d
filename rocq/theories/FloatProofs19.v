(** Gates and the numbers read from the state afterwards, both in rounded arithmetic. *)
From Verif Require Export SimulationSpec FloatProofs18 FloatProofs8.
From Verif Require Import FloatProofs6 GroundProofs RotationProofs RotationProofs5 StateProofs StateProofs4 FloatProofs2.
From Coq Require Import FunctionalExtensionality Lia Lra Psatz ZifyN.
Open Scope R_scope.

Lemma inner_le n a b : Cmod (inner n a b) <= vnorm n a * vnorm n b.
Proof.
  pose proof (cauchy n a b) as H. unfold Cmod, vnorm. rewrite <- sqrt_mult by apply sqnorm_nonneg. apply sqrt_le_1_alt. exact H.
Qed.
Lemma pauli_act_norm n p a : pauli_fits n p -> vnorm n (pauli_act p a) = Cmod (p_coef p) * vnorm n a.
Proof.
  intros H. rewrite <- (string_norm n p a H). unfold Cmod. rewrite <- vnorm_scale. apply vnorm_ext. intros x _. rewrite pauli_act_eq, string_eq. ring.
Qed.
Lemma op_act_norm n o a : op_fits n o -> vnorm n (op_act o a) <= coef_weight (o_terms o) * vnorm n a.
Proof.
  intros H. unfold op_act, terms_act, coef_weight. eapply Rle_trans; [apply vnorm_suml|]. unfold op_fits in H. induction H as [|p l Hp H IH].
  - unfold Rsuml. cbn. lra.
  - unfold Rsuml in *. cbn [map fold_right]. rewrite pauli_act_norm by assumption. unfold Cmod. lra.
Qed.
Lemma coef_weight_nonneg l : 0 <= coef_weight l.
Proof. unfold coef_weight. apply Rsuml_nonneg. intros; apply sqrt_pos. Qed.
Lemma distance_sym n a b : distance n a b = distance n b a.
Proof.
  unfold distance. rewrite (vnorm_ext n (fun x => a x - b x)%C (fun x => RtoC (-1) * (b x - a x))%C) by (intros; c_eq; ring).
  rewrite vnorm_real. replace (Rabs (-1)) with 1 by (rewrite Rabs_left; lra). ring.
Qed.
(** Expectation values and probabilities depend continuously on the state. *)
Lemma expectation_close n o a b : op_fits n o ->
  Cmod (inner n a (op_act o a) - inner n b (op_act o b))%C <= coef_weight (o_terms o) * ((vnorm n a + vnorm n b) * distance n a b).
Proof.
  intros H. set (d := (fun x => a x - b x)%C).
  assert (E : (inner n a (op_act o a) - inner n b (op_act o b))%C = (inner n a (op_act o d) + inner n d (op_act o b))%C).
  { assert (E1 : inner n a (op_act o d) = (inner n a (op_act o a) - inner n a (op_act o b))%C).
    { rewrite (inner_ext n a (op_act o d) a (fun x => op_act o a x + (- C1) * op_act o b x)%C); [rewrite inner_linear; ring|reflexivity|].
      intros x _. rewrite <- op_act_linear. f_equal. unfold d. apply functional_extensionality. intros y. ring. }
    assert (E2 : inner n d (op_act o b) = (inner n a (op_act o b) - inner n b (op_act o b))%C).
    { rewrite (inner_ext n d (op_act o b) (fun x => a x + (- C1) * b x)%C (op_act o b)); [|intros x _; unfold d; ring|reflexivity].
      rewrite inner_linear_l. replace (Cconj (- C1)%C) with (- C1)%C by (c_eq; cbn; ring). ring. }
    rewrite E1, E2. ring. }
  rewrite E. eapply Rle_trans; [apply Cmod_tri|]. pose proof (inner_le n a (op_act o d)). pose proof (inner_le n d (op_act o b)).
  pose proof (op_act_norm n o d H). pose proof (op_act_norm n o b H). pose proof (vnorm_nonneg n a). pose proof (vnorm_nonneg n d).
  assert (vnorm n a * vnorm n (op_act o d) <= vnorm n a * (coef_weight (o_terms o) * vnorm n d)) by now apply Rmult_le_compat_l.
  assert (vnorm n d * vnorm n (op_act o b) <= vnorm n d * (coef_weight (o_terms o) * vnorm n b)) by now apply Rmult_le_compat_l.
  replace (coef_weight (o_terms o) * ((vnorm n a + vnorm n b) * distance n a b)) with
    (vnorm n a * (coef_weight (o_terms o) * vnorm n d) + vnorm n d * (coef_weight (o_terms o) * vnorm n b)) by (unfold distance, d; ring). lra.
Qed.
Definition kept (P : N -> bool) (a : state) : state := fun x => if P x then a x else C0.
Lemma Cnorm2_0 : Cnorm2 C0 = 0. Proof. unfold Cnorm2, C0. cbn. ring. Qed.
Lemma prob_kept n P a : prob n P a = sqnorm n (kept P a).
Proof.
  unfold prob, sqnorm, kept, Rsuml. induction (seqN (2 ^ n)) as [|x l IH]; [reflexivity|]. cbn [filter map fold_right]. destruct (P x); cbn [map fold_right]; rewrite IH; [reflexivity|]. rewrite Cnorm2_0. ring.
Qed.
Lemma kept_norm n P a : vnorm n (kept P a) <= vnorm n a.
Proof. apply vnorm_mono. intros x _. unfold kept. destruct (P x); [lra|]. unfold Cmod. rewrite Cnorm2_0, sqrt_0. apply sqrt_pos. Qed.
Lemma kept_distance n P a b : distance n (kept P a) (kept P b) <= distance n a b.
Proof.
  unfold distance. eapply Rle_trans; [|apply (kept_norm n P)]. apply Req_le. apply vnorm_ext. intros x _. unfold kept. destruct (P x); ring.
Qed.
Lemma prob_close n P a b : Rabs (prob n P a - prob n P b) <= (vnorm n a + vnorm n b) * distance n a b.
Proof.
  rewrite !prob_kept, <- !vnorm_sq. set (x := vnorm n (kept P a)). set (y := vnorm n (kept P b)).
  replace (x * x - y * y) with ((x - y) * (x + y)) by ring. rewrite Rabs_mult.
  assert (Hxy : Rabs (x - y) <= distance n a b).
  { pose proof (vnorm_distance n (kept P a) (kept P b)). pose proof (vnorm_distance n (kept P b) (kept P a)). rewrite (distance_sym n (kept P b)) in H0.
    pose proof (kept_distance n P a b). apply Rabs_le. unfold x, y. lra. }
  pose proof (kept_norm n P a). pose proof (kept_norm n P b). pose proof (vnorm_nonneg n (kept P a)). pose proof (vnorm_nonneg n (kept P b)). fold x in H, H1. fold y in H0, H2.
  rewrite (Rabs_right (x + y)) by lra. rewrite Rmult_comm. apply Rmult_le_compat; try lra. apply Rabs_pos.
Qed.
Lemma cumulative_prob n k a : (k <= 2 ^ n)%N -> cumulative a k = prob n (fun x => (x <? k)%N) a.
Proof.
  intros H. unfold prob. replace k with (N.min (2 ^ n) k) at 1 by lia. generalize (2 ^ n)%N as m. clear H.
  induction m as [|m IH] using N.peano_ind; [rewrite N.min_0_l; reflexivity|]. rewrite seqN_succ, filter_app, Rsuml_app, <- IH. cbn [filter]. destruct (N.ltb_spec m k).
  - replace (N.min (N.succ m) k) with (N.min m k + 1)%N by lia. rewrite cumulative_succ. replace (N.min m k) with m by lia. unfold Rsuml. cbn. ring.
  - replace (N.min (N.succ m) k) with (N.min m k) by lia. unfold Rsuml at 1. cbn. ring.
Qed.
Lemma cumulative_close n k a b : (k <= 2 ^ n)%N -> Rabs (cumulative a k - cumulative b k) <= (vnorm n a + vnorm n b) * distance n a b.
Proof. intros H. rewrite !(cumulative_prob n) by assumption. apply prob_close. Qed.
Lemma prob_le n P a : 0 <= prob n P a <= sqnorm n a.
Proof. rewrite prob_kept. split; [apply sqnorm_nonneg|]. rewrite <- !vnorm_sq. pose proof (kept_norm n P a). pose proof (vnorm_nonneg n (kept P a)). now apply Rmult_le_compat. Qed.

Lemma returns_about_near p w x y e d e' : returns_about p w x e -> Rabs (x - y) <= d -> e + d <= e' -> returns_about p w y e'.
Proof.
  intros H Hd He. eapply runs_weaken; [exact H|]. intros [v w'| |]; cbn; try tauto. intros [E Hv]. split; [exact E|].
  replace (v - y) with ((v - x) + (x - y)) by ring. eapply Rle_trans; [apply Rabs_triang|]. lra.
Qed.

Lemma exact_keeps u A n ks gs : (n < 64)%N -> Forall2 (call_ok u A n) ks gs -> forall a, vnorm n (exact_after ks a) = vnorm n a.
Proof.
  intros Hn H. induction H as [|k g ks gs Hk HF IH]; intros a; [reflexivity|]. change (exact_after (k :: ks) a) with (exact_after ks (apply_mat (call_targets k) (call_controls k) (call_matrix k) a)).
  rewrite IH. exact (act_keeps u A n k g a Hn Hk).
Qed.

Section Simulation.
  Variables (u eta : R) (A : arith) (n : N) (L : N) (ks : list call) (gs : list egate) (psi : state).
  Hypothesis HA : accurate u eta A.
  Hypothesis HL : sizes_ok n 1 L.
  Hypothesis Hc : Forall2 (call_ok u A n) ks gs.
  Hypothesis H1 : sqnorm n psi = 1.
  Let e := run_error u eta n ks.
  Hypothesis He : e <= 1.
  Let phi := exact_after ks psi.
  Lemma batch_0 a x : batch n 0 a x = a x. Proof. reflexivity. Qed.
  Lemma run_budget : total_weight ks * u <= 1.
  Proof.
    clear Hc HL. unfold e, run_error, unit_error in He. pose proof (acc_u _ _ _ HA) as Hu. pose proof (acc_eta _ _ _ HA) as Heta. pose proof (total_nonneg ks) as Hw. pose proof (sqrt_pos (2 ^ N.to_nat n)) as Hs.
    assert (0 <= total_weight ks * (eta * sqrt (2 ^ N.to_nat n))) by (apply Rmult_le_pos; [assumption|apply Rmult_le_pos; lra]).
    assert (0 <= total_weight ks * u) by (apply Rmult_le_pos; lra). lra.
  Qed.
  Lemma run_psi : vnorm n psi = 1. Proof. clear - H1. unfold vnorm. rewrite H1. apply sqrt_1. Qed.
  Lemma run_exists : exists rho, f_run A n 1 L gs psi rho.
  Proof. exact (proj1 (circuit_rounded u eta A n 1 L ks gs psi HA HL Hc run_budget)). Qed.
  Variable rho : state.
  Hypothesis Hrun : f_run A n 1 L gs psi rho.
  Lemma run_distance : distance n rho phi <= e.
  Proof.
    pose proof (proj2 (circuit_rounded u eta A n 1 L ks gs psi HA HL Hc run_budget) rho 0%N Hrun ltac:(lia)) as H.
    rewrite (vnorm_ext n (batch n 0 psi) psi), run_psi in H by (intros; apply batch_0). unfold e, run_error. eapply Rle_trans; [|exact H]. apply Req_le. unfold distance. apply vnorm_ext.
    intros x _. rewrite batch_0. reflexivity.
  Qed.
  Lemma run_phi : vnorm n phi = 1.
  Proof. destruct HL as [Hn _]. unfold phi. rewrite (exact_keeps u A n ks gs Hn Hc). exact run_psi. Qed.
  Lemma run_norms : vnorm n rho + vnorm n phi <= 3 /\ sqnorm n rho <= 4.
  Proof.
    pose proof run_distance. pose proof run_phi. pose proof (vnorm_distance n rho phi). pose proof (vnorm_nonneg n rho). split; [lra|]. rewrite <- vnorm_sq. nra.
  Qed.
  Lemma run_distance_nonneg : 0 <= distance n rho phi. Proof. clear. apply vnorm_nonneg. Qed.
  Lemma run_product : (vnorm n rho + vnorm n phi) * distance n rho phi <= 3 * e.
  Proof. pose proof run_distance. pose proof run_norms as [? _]. pose proof run_distance_nonneg. pose proof (vnorm_nonneg n rho). pose proof (vnorm_nonneg n phi). apply Rmult_le_compat; lra. Qed.

  Lemma sum_error_mono h c s t : 0 <= c -> s <= t -> sum_error u eta n h c s <= sum_error u eta n h c t.
  Proof.
    intros Hc0 Hs. unfold sum_error. apply Rplus_le_compat_r, Rmult_le_compat_l; [|assumption]. pose proof (acc_u _ _ _ HA) as Hu. pose proof (pos_INR h). apply Rmult_le_pos; lra.
  Qed.
  Lemma run_zero_probability h q w : height_ok u n h -> (q < n)%N -> w_amp w = rho ->
    returns_about (f_get_zero_probability A (shallow h) n q) w (prob n (fun x => negb (N.testbit x q)) phi) (3 * e + sum_error u eta n h 9 4).
  Proof.
    intros Hh Hq Hw. destruct HL as [Hn _]. pose proof (zero_probability_about u eta A HA n h Hh q w Hn Hq) as H. cbv zeta in H. rewrite Hw in H.
    eapply returns_about_near; [exact H| |].
    - eapply Rle_trans; [apply (prob_close n)|apply run_product].
    - rewrite Rplus_comm. apply Rplus_le_compat_l, sum_error_mono; [lra|]. pose proof (prob_le n (fun x => negb (N.testbit x q)) rho). pose proof run_norms. lra.
  Qed.
  Lemma run_marginal h vs w : height_ok u n h -> N.of_nat (length vs) = n -> Forall (fun v => (v <= 2)%N) vs -> w_amp w = rho ->
    returns_about (f_get_marginal_probability A (shallow h) n vs) w (prob n (shows vs) phi) (3 * e + sum_error u eta n h 9 4).
  Proof.
    intros Hh Hl Hv Hw. destruct HL as [Hn _]. pose proof (marginal_about u eta A HA n h Hh vs w Hn Hl Hv) as H. cbv zeta in H. rewrite Hw in H.
    eapply returns_about_near; [exact H| |].
    - eapply Rle_trans; [apply (prob_close n)|apply run_product].
    - rewrite Rplus_comm. apply Rplus_le_compat_l, sum_error_mono; [lra|]. pose proof (prob_le n (shows vs) rho). pose proof run_norms. lra.
  Qed.
  Lemma run_norm h w : height_ok u n h -> w_amp w = rho -> returns_about (f_get_squared_norm A (shallow h) n) w 1 (3 * e + sum_error u eta n h 9 4).
  Proof.
    intros Hh Hw. pose proof (squared_norm_about u eta A HA n h Hh w) as H. rewrite Hw in H.
    assert (Hp : sqnorm n phi = 1) by (rewrite <- vnorm_sq, run_phi; ring). rewrite <- Hp. assert (Ek : forall a, sqnorm n a = prob n (fun _ => true) a) by (intros; rewrite prob_kept; reflexivity).
    eapply returns_about_near; [exact H| |].
    - rewrite !Ek. eapply Rle_trans; [apply (prob_close n)|apply run_product].
    - rewrite Rplus_comm. apply Rplus_le_compat_l, sum_error_mono; [lra|]. apply run_norms.
  Qed.
  Lemma run_expectation o t h : (0 < n)%N -> op_fits n o -> reduction_of (op_iters o (2 ^ n)) t -> (tree_height t <= h)%nat -> 3 / 2 * INR h * u <= 1 ->
    exists v, f_op_expectation A (2 ^ n) o rho t = Some v /\
    Cmod (v - inner n phi (op_act o phi))%C <= 3 * coef_weight (o_terms o) * e + expect_error u eta n h (coef_weight (o_terms o)) (length (o_terms o)) 4.
  Proof.
    intros H0 Ho Ht Hh Hu. destruct HL as [Hn _]. destruct (op_expectation_about u eta A HA n ltac:(lia) o rho t h H0 Ho Ht Hh Hu) as (v & Ev & Hv). exists v. split; [exact Ev|].
    eapply Rle_trans; [apply (Cmod_tri3 v (inner n rho (op_act o rho)))|]. rewrite Rplus_comm. apply Rplus_le_compat.
    - eapply Rle_trans; [now apply expectation_close|]. rewrite (Rmult_comm 3), Rmult_assoc. apply Rmult_le_compat_l; [apply coef_weight_nonneg|apply run_product].
    - eapply Rle_trans; [exact Hv|]. unfold expect_error. apply Rplus_le_compat_r, Rmult_le_compat_l; [pose proof (acc_u _ _ _ HA); pose proof (pos_INR h); apply Rmult_le_pos; lra|].
      apply Rmult_le_compat_l; [apply coef_weight_nonneg|apply run_norms].
  Qed.
  Lemma run_sampling k chunks count rounds l : chunks_ok (2 ^ n) k chunks -> 3 / 2 * INR (length chunks + 2 * k) * u <= 1 -> rounds_ok A rounds ->
    f_sampling A n chunks rho count rounds = Some l -> length l = N.to_nat count /\
    forall b, In b l -> (b < 2 ^ n)%N /\ exists draw i, In draw rounds /\ selects_about (3 * e + draw_error u eta n (length chunks) k 4) phi (draw i) b.
  Proof.
    intros Hk Hu Hr Hl. destruct (sampling_about u eta A HA rho n k chunks count rounds l Hk Hu Hr Hl) as [E H]. split; [exact E|]. intros b Hb. destruct (H b Hb) as (Hlt & draw & i & Hd & [Ha Hz]).
    split; [exact Hlt|]. exists draw, i. split; [exact Hd|].
    assert (Hm : draw_error u eta n (length chunks) k (sqnorm n rho) <= draw_error u eta n (length chunks) k 4).
    { unfold draw_error. do 2 apply Rplus_le_compat_r. apply sum_error_mono; [lra|apply run_norms]. }
    pose proof run_product as Hp. assert (Hc1 : Rabs (cumulative rho b - cumulative phi b) <= 3 * e) by (eapply Rle_trans; [apply (cumulative_close n); lia|exact Hp]).
    assert (Hc2 : Rabs (cumulative rho (b + 1) - cumulative phi (b + 1)) <= 3 * e) by (eapply Rle_trans; [apply (cumulative_close n); lia|exact Hp]).
    pose proof (Rle_abs (cumulative rho b - cumulative phi b)). pose proof (Rle_abs (- (cumulative rho b - cumulative phi b))). pose proof (Rle_abs (cumulative rho (b + 1) - cumulative phi (b + 1))).
    pose proof (Rle_abs (- (cumulative rho (b + 1) - cumulative phi (b + 1)))). rewrite Rabs_Ropp in *. unfold selects_about. lra.
  Qed.
End Simulation.
