(** A simulation in double precision. *)
From Verif Require Export FloatProofs19.
From Verif Require Import FloatProofs6.
From Coq Require Import Lia Lra ZifyN ZifyNat.
Open Scope R_scope.

Lemma double_run n ks : (n < 64)%N -> run_error (unit_of 53) (tiny_of (-1074)) n ks <= total_weight ks / (3 * 10 ^ 15).
Proof.
  intros Hn. unfold run_error. rewrite (Rmult_comm 3), Rmult_assoc. unfold Rdiv. apply Rmult_le_compat_l; [apply total_nonneg|].
  pose proof (double_unit n Hn) as HU. eapply Rle_trans; [apply Rmult_le_compat_l; [lra|exact HU]|]. apply Req_le. field.
Qed.
Lemma tiny_size n : (n <= 40)%N -> 0 <= tiny_of (-1074) * 2 ^ N.to_nat n <= / 1000000000000000000.
Proof.
  intros Hn. pose proof tiny_1074 as Ht. assert (Hp : 0 <= 2 ^ N.to_nat n) by (apply pow_le; lra). assert (Hq : 2 ^ N.to_nat n <= 2 ^ 40) by (apply Rle_pow; [lra|lia]).
  split; [apply Rmult_le_pos; lra|].
  assert (H : tiny_of (-1074) * 2 ^ N.to_nat n <= / 2 ^ 100 * 2 ^ 40) by (apply Rmult_le_compat; lra).
  assert (E : / 2 ^ 100 * 2 ^ 40 = / 2 ^ 60). { replace (2 ^ 100) with (2 ^ 60 * 2 ^ 40) by (rewrite <- pow_add; reflexivity). field. }
  assert (E2 : 2 ^ 60 = 1152921504606846976) by (rewrite pow_IZR; apply f_equal; reflexivity). rewrite E, E2 in H. lra.
Qed.
Lemma double_sum n h : (n <= 40)%N -> sum_error (unit_of 53) (tiny_of (-1074)) n h 9 4 <= (3 * INR h + 5) / 10 ^ 15.
Proof.
  intros Hn. unfold sum_error. rewrite unit_53, ten15. pose proof (tiny_size n Hn). pose proof (pos_INR h). lra.
Qed.
Lemma double_expect n h w terms : (n <= 40)%N -> 0 <= w ->
  expect_error (unit_of 53) (tiny_of (-1074)) n h w terms 4 <= (w * (3 * INR h + 20) + INR terms) / 10 ^ 15.
Proof.
  intros Hn Hw. unfold expect_error. rewrite unit_53, ten15. pose proof (tiny_size n Hn) as Ht. set (t := tiny_of (-1074) * 2 ^ N.to_nat n) in *. pose proof (pos_INR h). pose proof (pos_INR terms).
  replace (103 * tiny_of (-1074) * 2 ^ N.to_nat n * (w + INR terms)) with (103 * t * w + 103 * t * INR terms) by (unfold t; ring).
  assert (103 * t * w <= 103 * / 1000000000000000000 * w) by (apply Rmult_le_compat_r; lra).
  assert (103 * t * INR terms <= 103 * / 1000000000000000000 * INR terms) by (apply Rmult_le_compat_r; lra).
  assert (0 <= INR h * w) by now apply Rmult_le_pos. 
  assert ((5 * INR h + 43) * / 9007199254740992 * (w * 4) <= (w * (3 * INR h + 39 / 2)) / 1000000000000000); lra.
Qed.

Section Double.
  Variables (A : arith) (n L : N) (ks : list call) (gs : list egate) (psi : state).
  Hypothesis HA : binary 53 (-1074) A.
  Hypothesis HL : sizes_ok n 1 L.
  Hypothesis Hc : Forall2 (call_ok (unit_of 53) A n) ks gs.
  Hypothesis H1 : sqnorm n psi = 1.
  Hypothesis Hw : total_weight ks <= 3 * 10 ^ 15.
  Hypothesis Hn : (n <= 40)%N.
  Let phi := exact_after ks psi.
  Let acc : accurate (unit_of 53) (tiny_of (-1074)) A. Proof. now apply binary_accurate; [lia|lia|]. Qed.
  Let e := run_error (unit_of 53) (tiny_of (-1074)) n ks.
  Let He' : e <= total_weight ks / (3 * 10 ^ 15). Proof. apply double_run. lia. Qed.
  Let He : e <= 1. Proof. rewrite ten15 in *. lra. Qed.
  Let He3 : 3 * e <= total_weight ks / 10 ^ 15. Proof. rewrite ten15 in *. lra. Qed.

  Lemma double_probability rho h q w : f_run A n 1 L gs psi rho -> (N.to_nat n < h <= 10 ^ 6)%nat -> (q < n)%N -> w_amp w = rho ->
    returns_about (f_get_zero_probability A (shallow h) n q) w (prob n (fun x => negb (N.testbit x q)) phi) ((total_weight ks + 3 * INR h + 5) / 10 ^ 15).
  Proof.
    intros Hr Hh Hq Hw'. assert (Hok : height_ok (unit_of 53) n h).
    { split; [lia|]. rewrite unit_53. assert (INR h <= 1000000); [|lra]. rewrite INR_IZR_INZ. apply IZR_le. change (10 ^ 6)%nat with (Nat.pow 10 6) in Hh. destruct Hh as [_ Hh]. apply inj_le in Hh. rewrite Nat2Z.inj_pow in Hh. exact Hh. }
    pose proof (run_zero_probability _ _ A n L ks gs psi acc HL Hc H1 He rho Hr h q w Hok Hq Hw') as H.
    eapply returns_about_near; [exact H|rewrite Rminus_eq_0, Rabs_R0; apply Rle_refl|]. pose proof (double_sum n h Hn). fold e. unfold Rdiv in *. lra.
  Qed.
  Lemma double_marginal rho h vs w : f_run A n 1 L gs psi rho -> (N.to_nat n < h <= 10 ^ 6)%nat -> N.of_nat (length vs) = n -> Forall (fun v => (v <= 2)%N) vs -> w_amp w = rho ->
    returns_about (f_get_marginal_probability A (shallow h) n vs) w (prob n (shows vs) phi) ((total_weight ks + 3 * INR h + 5) / 10 ^ 15).
  Proof.
    intros Hr Hh Hl Hv Hw'. assert (Hok : height_ok (unit_of 53) n h).
    { split; [lia|]. rewrite unit_53. assert (INR h <= 1000000); [|lra]. rewrite INR_IZR_INZ. apply IZR_le. change (10 ^ 6)%nat with (Nat.pow 10 6) in Hh. destruct Hh as [_ Hh]. apply inj_le in Hh. rewrite Nat2Z.inj_pow in Hh. exact Hh. }
    pose proof (run_marginal _ _ A n L ks gs psi acc HL Hc H1 He rho Hr h vs w Hok Hl Hv Hw') as H.
    eapply returns_about_near; [exact H|rewrite Rminus_eq_0, Rabs_R0; apply Rle_refl|]. pose proof (double_sum n h Hn). fold e. unfold Rdiv in *. lra.
  Qed.
  Lemma double_expectation rho o t h : f_run A n 1 L gs psi rho -> (0 < n)%N -> op_fits n o -> reduction_of (op_iters o (2 ^ n)) t -> (tree_height t <= h <= 10 ^ 6)%nat ->
    exists v, f_op_expectation A (2 ^ n) o rho t = Some v /\
    Cmod (v - inner n phi (op_act o phi))%C <= (coef_weight (o_terms o) * (total_weight ks + 3 * INR h + 20) + INR (length (o_terms o))) / 10 ^ 15.
  Proof.
    intros Hr H0 Ho Ht Hh. assert (Hok : 3 / 2 * INR h * unit_of 53 <= 1).
    { rewrite unit_53. assert (INR h <= 1000000); [|lra]. rewrite INR_IZR_INZ. apply IZR_le. change (10 ^ 6)%nat with (Nat.pow 10 6) in Hh. destruct Hh as [_ Hh]. apply inj_le in Hh. rewrite Nat2Z.inj_pow in Hh. exact Hh. }
    destruct (run_expectation _ _ A n L ks gs psi acc HL Hc H1 He rho Hr o t h H0 Ho Ht (proj1 Hh) Hok) as (v & Ev & Hv). exists v. split; [exact Ev|]. fold e in Hv. fold phi in Hv.
    pose proof (coef_weight_nonneg (o_terms o)) as Hp. set (w := coef_weight (o_terms o)) in *. pose proof (double_expect n h w (length (o_terms o)) Hn Hp) as Hx.
    assert (w * (3 * e) <= w * (total_weight ks / 10 ^ 15)) by now apply Rmult_le_compat_l.
    replace ((w * (total_weight ks + 3 * INR h + 20) + INR (length (o_terms o))) / 10 ^ 15) with (w * (total_weight ks / 10 ^ 15) + (w * (3 * INR h + 20) + INR (length (o_terms o))) / 10 ^ 15) by field. lra.
  Qed.
  Lemma double_sampling rho k chunks count rounds l : f_run A n 1 L gs psi rho -> chunks_ok (2 ^ n) k chunks -> 3 / 2 * INR (length chunks + 2 * k) * unit_of 53 <= 1 ->
    (forall draw i, In draw rounds -> unit_draw (draw i)) -> f_sampling A n chunks rho count rounds = Some l ->
    length l = N.to_nat count /\
    forall b, In b l -> (b < 2 ^ n)%N /\ exists draw i, In draw rounds /\ selects_about ((total_weight ks + 3 * INR (length chunks + 2 * k) + 6) / 10 ^ 15) phi (draw i) b.
  Proof.
    intros Hr Hk Hu Hd Hl. pose proof (binary_rounds 53 (-1074) A rounds ltac:(lia) HA Hd) as Hro.
    destruct (run_sampling _ _ A n L ks gs psi acc HL Hc H1 He rho Hr k chunks count rounds l Hk Hu Hro Hl) as [E H]. split; [exact E|]. intros b Hb. destruct (H b Hb) as (Hlt & draw & i & Hin & Ha & Hz).
    split; [exact Hlt|]. exists draw, i. split; [exact Hin|]. fold e in Ha, Hz. fold phi in Ha, Hz. unfold draw_error in *. pose proof (double_sum n (length chunks + 2 * k) Hn). rewrite unit_53 in *. pose proof tiny_1074 as Ht.
    assert (/ 2 ^ 100 <= / 2 ^ 68) by (apply Rinv_le_contravar; [apply pow_lt; lra|apply Rle_pow; [lra|lia]]). rewrite two68 in *. rewrite ten15 in *. unfold selects_about. unfold Rdiv in *. lra.
  Qed.
End Double.

Lemma simulation_exists u eta A n L ks gs psi : simulation_ok u eta A n L ks gs psi -> exists rho, f_run A n 1 L gs psi rho.
Proof. intros (H1 & H2 & H3 & H4 & H5). now apply (run_exists u eta A n L ks gs psi). Qed.
Lemma double_simulation A n L ks gs psi : double_ok A n L ks gs psi -> simulation_ok (unit_of 53) (tiny_of (-1074)) A n L ks gs psi.
Proof.
  intros (H1 & H2 & H3 & H4 & H5 & H6). unfold simulation_ok. split; [apply binary_accurate; [lia|lia|assumption]|]. split; [assumption|]. split; [assumption|]. split; [assumption|].
  pose proof (double_run n ks ltac:(lia)). rewrite ten15 in *. lra.
Qed.
Lemma simulation_example : exists gs, double_ok (correctly_rounded 53 (-1074)) 3 4 example_calls gs (basis 5).
Proof.
  destruct FloatProofs8.circuit_example as (gs & Hc & HB & Hw). destruct HB as [Hn HB]. destruct HB as [_ HL]. exists gs. split; [exact double_example|]. split; [split; [exact Hn|split; [vm_compute; discriminate|exact HL]]|].
  split; [exact Hc|]. split; [vm_compute; ring|]. split; [rewrite ten15; lra|lia].
Qed.
