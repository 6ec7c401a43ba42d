(** Rounded norms, probabilities and inner products. *)
From Verif Require Export FloatStateSpec FloatProofs12.
From Verif Require Import StateProofs GroundProofs4 GroundProofs9 FloatProofs10.
From Coq Require Import Permutation Lra ZifyBool ZifyN ZifyNat.
Open Scope R_scope.

Lemma runs_done_mono {T} (p : host world T) w (P Q : T -> world -> Prop) : runs p w (done P) -> (forall v w', P v w' -> Q v w') -> runs p w (done Q).
Proof. intros H K. eapply runs_weaken; [exact H|]. intros [v w'|w'|]; cbn; auto. Qed.
Lemma two_pow n : 2 ^ N.to_nat n = INR (N.to_nat (2 ^ n)).
Proof. rewrite N2Nat.inj_pow. rewrite pow_INR. reflexivity. Qed.

Section Numbers.
  Variables (u eta : R) (A : arith).
  Hypothesis HA : accurate u eta A.
  Let Hu := u_range u eta A HA.
  Let He := eta_range u eta A HA.
  Variables (n : N) (h : nat).
  Hypothesis Hh : height_ok u n h.

  Lemma norm2_number z : a_rnd A (f_norm2 A z) = f_norm2 A z.
  Proof. unfold f_norm2, two_products. destruct (a_fuse A _ _ _ _ _); apply (acc_idem _ _ _ HA). Qed.
  Lemma norm2_err z : Rabs (f_norm2 A z - Cnorm2 z) <= 3 * u * Cnorm2 z + 4 * eta.
  Proof.
    eapply Rle_trans; [apply (two_products_err u eta A HA Rplus); [apply plus_lip|apply Rabs_triang]|].
    right. unfold Cnorm2. rewrite <- !Rabs_mult. rewrite !Rabs_right by nra. ring.
  Qed.
  (** hsum with values near [y] *)
  Lemma fsum_about iters f (x y : N -> R) e w : (iters <= 2 ^ n)%N ->
    (forall i, a_rnd A (x i) = x i) ->
    (forall i, (i < iters)%N -> rrun (fun a => a <? 2 ^ n)%N (w_amp w) (f i) = Some (x i) /\ Rabs (x i - y i) <= e i) ->
    runs (f_sum_R A (shallow h) (2 ^ n) iters f) w (done (fun v w' => w' = w /\ a_rnd A v = v /\
      Rabs (v - Rsuml y (seqN iters)) <= 3 * Rsuml e (seqN iters) + 9 / 2 * INR h * u * Rsuml (fun i => Rabs (y i)) (seqN iters) + 6 * eta * 2 ^ N.to_nat n)).
  Proof.
    intros Hi Hx Hf. destruct Hh as [Hh1 Hh2].
    assert (K : forall t, reduction_of (seqN iters) t -> shallow h t -> exists v,
      reduce 0 (f_plus A) (fun i => rrun (fun a => a <? 2 ^ n)%N (w_amp w) (f i)) t = Some v /\ a_rnd A v = v /\
      Rabs (v - Rsuml y (seqN iters)) <= 3 * Rsuml e (seqN iters) + 9 / 2 * INR h * u * Rsuml (fun i => Rabs (y i)) (seqN iters) + 6 * eta * 2 ^ N.to_nat n).
    { intros t Ht Hs. destruct (rsum_close u eta A HA (fun i => rrun (fun a => a <? 2 ^ n)%N (w_amp w) (f i)) x y e (seqN iters) t h Ht Hs Hh2 Hx) as (v & Ev & Nv & Bv).
      - intros i Hin. apply Hf. now apply in_seqN.
      - exists v. split; [exact Ev|]. split; [exact Nv|]. eapply Rle_trans; [exact Bv|]. rewrite length_seqN.
        assert (6 * eta * INR (N.to_nat iters) <= 6 * eta * 2 ^ N.to_nat n); [|lra]. apply Rmult_le_compat_l; [lra|].
        rewrite two_pow. apply le_INR. lia. }
    split.
    - intros o (t & Ht & Hs & ->). destruct (K t Ht Hs) as (v & -> & Nv & Bv). cbn. auto.
    - destruct (balanced_reduction n iters h Hi Hh1) as (t & Ht & Hs). eexists. exists t. split; [exact Ht|]. split; [exact Hs|]. reflexivity.
  Qed.
  Lemma norms_about iters (g : N -> N) w : (iters <= 2 ^ n)%N -> (forall i, (i < iters)%N -> (g i < 2 ^ n)%N) ->
    runs (f_sum_R A (shallow h) (2 ^ n) iters (fun i => f_read_norm A (g i))) w (done (fun v w' => w' = w /\ a_rnd A v = v /\
      Rabs (v - Rsuml (fun i => Cnorm2 (w_amp w (g i))) (seqN iters)) <= sum_error u eta n h 9 (Rsuml (fun i => Cnorm2 (w_amp w (g i))) (seqN iters)))).
  Proof.
    intros Hi Hg. eapply runs_done_mono; [apply (fsum_about iters _ (fun i => f_norm2 A (w_amp w (g i))) (fun i => Cnorm2 (w_amp w (g i)))
      (fun i => 3 * u * Cnorm2 (w_amp w (g i)) + 4 * eta)); [exact Hi| |]|].
    - intros. apply norm2_number.
    - intros i Hx. split; [|apply norm2_err]. unfold f_read_norm. cbn [rrun]. specialize (Hg i Hx). apply N.ltb_lt in Hg. now rewrite Hg.
    - intros v w' (-> & Nv & Bv). split; [reflexivity|]. split; [exact Nv|]. eapply Rle_trans; [exact Bv|].
      set (T := Rsuml (fun i => Cnorm2 (w_amp w (g i))) (seqN iters)) in *.
      assert (HT : 0 <= T) by (apply Rsuml_pos; intros; apply Cnorm2_nonneg).
      replace (Rsuml (fun i => Rabs (Cnorm2 (w_amp w (g i)))) (seqN iters)) with T.
      2:{ apply Rsuml_ext. intros. rewrite Rabs_right; [reflexivity|apply Rle_ge, Cnorm2_nonneg]. }
      replace (Rsuml (fun i => 3 * u * Cnorm2 (w_amp w (g i)) + 4 * eta) (seqN iters)) with (3 * u * T + 4 * eta * INR (N.to_nat iters)).
      2:{ unfold T. rewrite <- (length_seqN iters). generalize (seqN iters). induction l as [|a l IH]; [cbn; ring|]. cbn [Rsuml fold_right length]. rewrite S_INR.
          unfold Rsuml in *. cbn. rewrite <- IH. ring. }
      assert (INR (N.to_nat iters) <= 2 ^ N.to_nat n) by (rewrite two_pow; apply le_INR; lia). unfold sum_error.
      pose proof (pos_INR h). assert (0 <= u * T) by nra. assert (0 <= INR h * (u * T)) by nra. assert (eta * INR (N.to_nat iters) <= eta * 2 ^ N.to_nat n) by (apply Rmult_le_compat_l; lra).
      assert (0 <= eta * 2 ^ N.to_nat n) by (apply Rmult_le_pos; [lra|apply pow_le; lra]). lra.
  Qed.

  Lemma squared_norm_about w : returns_about (f_get_squared_norm A (shallow h) n) w (sqnorm n (w_amp w)) (sum_error u eta n h 9 (sqnorm n (w_amp w))).
  Proof. eapply runs_done_mono; [apply (norms_about (2 ^ n) (fun i => i)); [lia|auto]|]. cbn. intuition. Qed.
  Lemma zero_probability_about q w : (n < 64)%N -> (q < n)%N ->
    let x := prob n (fun x => negb (N.testbit x q)) (w_amp w) in
    returns_about (f_get_zero_probability A (shallow h) n q) w x (sum_error u eta n h 9 x).
  Proof.
    intros Hn Hq. cbv zeta. unfold f_get_zero_probability. destruct (N.leb_spec n q); [lia|].
    pose proof (enumeration_one_exact n q ltac:(lia) Hq) as HP. rewrite <- (prob_perm n _ _ _ HP). rewrite Rsuml_map.
    eapply runs_done_mono; [apply norms_about|].
    - rewrite N.shiftr_div_pow2. apply N.div_le_upper_bound; [cbn; lia|]. cbn. lia.
    - intros i Hi. assert (Hin : In (insert_zero_to_basis_index i q) (filter (fun i => negb (N.testbit i q)) (seqN (2 ^ n)))).
      { eapply Permutation_in; [exact HP|]. apply in_map_iff. exists i. split; [reflexivity|now apply in_seqN]. }
      apply filter_In in Hin as [Hin _]. now apply in_seqN.
    - cbn. intuition.
  Qed.
  Lemma marginal_about vs w : (n < 64)%N -> N.of_nat (length vs) = n -> Forall (fun v => (v <= 2)%N) vs ->
    let x := prob n (shows vs) (w_amp w) in
    returns_about (f_get_marginal_probability A (shallow h) n vs) w x (sum_error u eta n h 9 x).
  Proof.
    intros Hn Hl Hf. cbv zeta. unfold f_get_marginal_probability. rewrite Hl, N.eqb_refl. cbn [negb].
    destruct (shows_targets vs Hf) as (ts & -> & Hle & Hr & HP); [lia|]. rewrite Hl in *.
    eapply returns_bind; [now apply runs_ret|]. rewrite <- (prob_perm n _ _ _ HP), Rsuml_map.
    eapply runs_done_mono; [apply norms_about|].
    - rewrite N.shiftr_div_pow2. apply N.div_le_upper_bound; [apply N.pow_nonzero; lia|]. 
      rewrite <- (N.mul_1_l (2 ^ n)) at 1. apply N.mul_le_mono_r. pose proof (N.pow_nonzero 2 (N.of_nat (length ts))). lia.
    - intros i Hi. now apply Hr.
    - cbn. intuition.
  Qed.
End Numbers.
