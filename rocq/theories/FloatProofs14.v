(** Rounded inner products and normalize(). *)
From Verif Require Export FloatProofs13.
From Verif Require Import StateProofs GroundProofs4 GroundProofs9 FloatProofs10 RotationProofs.
From Coq Require Import Permutation Lra ZifyBool ZifyN ZifyNat.
Open Scope R_scope.

Lemma Rabs_between x e : Rabs x <= e -> - e <= x <= e.
Proof. unfold Rabs. destruct (Rcase_abs x); lra. Qed.
Lemma products_le n a b : Rsuml (fun x => Cmod (a x) * Cmod (b x)) (seqN (2 ^ n)) <= vnorm n a * vnorm n b.
Proof.
  rewrite <- (vnorm_mods n a), <- (vnorm_mods n b). eapply Rle_trans; [|apply re_inner_le]. eapply Rle_trans; [|apply Rle_abs]. right.
  unfold inner, Csum. rewrite (Csuml_ext _ (fun x => RtoC (Cmod (a x) * Cmod (b x)))).
  - rewrite <- RtoC_Rsuml. reflexivity.
  - intros x _. c_eq; cbn; ring.
Qed.

Section Numbers.
  Variables (u eta : R) (A : arith).
  Hypothesis HA : accurate u eta A.
  Let Hu := u_range u eta A HA.
  Let He := eta_range u eta A HA.
  Variables (n : N) (h : nat).
  Hypothesis Hh : height_ok u n h.

  Lemma Cmod_conj z : Cmod (Cconj z) = Cmod z.
  Proof. unfold Cmod, Cnorm2. f_equal. cbn. ring. Qed.
  Lemma inner_product_about other w :
    returns_aboutC (f_inner_product A (shallow h) n n other) w (inner n (w_amp w) other) (sum_error u eta n h 15 (vnorm n (w_amp w) * vnorm n other)).
  Proof.
    unfold f_inner_product. rewrite N.eqb_refl. cbn [negb]. destruct Hh as [Hh1 Hh2]. set (psi := w_amp w).
    assert (K : forall t, reduction_of (seqN (2 ^ n)) t -> shallow h t -> exists v,
      reduce C0 (f_add A) (fun i => rrun (fun a => a <? 2 ^ n)%N (w_amp w) (RRd i (fun a => RVal (f_mul A 0 (Cconj a) (other i))))) t = Some v /\
      Cmod (v - inner n psi other)%C <= sum_error u eta n h 15 (vnorm n psi * vnorm n other)).
    { intros t Ht Hs. destruct (csum_close u eta A HA (fun i => rrun (fun a => a <? 2 ^ n)%N (w_amp w) (RRd i (fun a => RVal (f_mul A 0 (Cconj a) (other i)))))
        (fun i => f_mul A 0 (Cconj (psi i)) (other i)) (fun i => Cconj (psi i) * other i)%C (fun i => 5 * u * (Cmod (psi i) * Cmod (other i)) + 6 * eta) (seqN (2 ^ n)) t h Ht Hs Hh2) as (v & Ev & Nv & Bv).
      - intros i. apply (mul_number u eta A HA).
      - intros i Hi. apply in_seqN in Hi. cbn [rrun]. apply N.ltb_lt in Hi. rewrite Hi. split; [reflexivity|].
        eapply Rle_trans; [apply (f_mul_err u eta A HA)|]. rewrite Cmod_conj. apply Rle_refl.
      - exists v. split; [exact Ev|]. eapply Rle_trans; [exact Bv|]. pose proof (products_le n psi other) as HT.
        rewrite (Rsuml_ext (fun i => Cmod (Cconj (psi i) * other i)) (fun i => Cmod (psi i) * Cmod (other i))) by (intros; now rewrite Cmod_mul, Cmod_conj).
        set (T := Rsuml (fun i => Cmod (psi i) * Cmod (other i)) (seqN (2 ^ n))) in *.
        assert (HT0 : 0 <= T) by (apply Rsuml_pos; intros; apply Rmult_le_pos; apply Cmod_nonneg).
        replace (Rsuml (fun i => 5 * u * (Cmod (psi i) * Cmod (other i)) + 6 * eta) (seqN (2 ^ n))) with (5 * u * T + 6 * eta * INR (length (seqN (2 ^ n)))).
        2:{ unfold T. generalize (seqN (2 ^ n)). induction l as [|a l IH]; [cbn; ring|]. cbn [Rsuml fold_right length]. rewrite S_INR.
            unfold Rsuml in *. cbn. rewrite <- IH. ring. }
        rewrite length_seqN, INR_pow2. unfold sum_error. set (V := vnorm n psi * vnorm n other) in *. pose proof (pos_INR h).
        assert (0 <= eta * 2 ^ N.to_nat n) by (apply Rmult_le_pos; [lra|apply pow_le; lra]).
        assert (H1 : (5 * INR h + 15) * u * T <= (5 * INR h + 15) * u * V) by (apply Rmult_le_compat_l; [apply Rmult_le_pos; lra|assumption]).
        assert (0 <= INR h * (u * T)) by (apply Rmult_le_pos; [lra|apply Rmult_le_pos; lra]). lra. }
    split.
    - intros o (t & Ht & Hs & ->). destruct (K t Ht Hs) as (v & -> & Bv). cbn. split; [reflexivity|exact Bv].
    - destruct (balanced_reduction n (2 ^ n) h (N.le_refl _) Hh1) as (t & Ht & Hs). eexists. exists t. split; [exact Ht|]. split; [exact Hs|]. reflexivity.
  Qed.

  Lemma sqrt_near S v d : 0 < S -> 0 <= d <= / 4 -> Rabs (v - S) <= d * S -> 0 < v /\ Rabs (sqrt v - sqrt S) <= d * sqrt S.
  Proof.
    intros HS Hd Hv. assert (Hv0 : 0 < v). { apply Rabs_between in Hv. assert (d * S <= / 4 * S) by (apply Rmult_le_compat_r; lra). lra. }
    split; [exact Hv0|]. pose proof (sqrt_lt_R0 S HS) as H1. pose proof (sqrt_lt_R0 v Hv0) as H2.
    set (a := sqrt v) in *. set (b := sqrt S) in *. assert (Ev : v = a * a) by (unfold a; rewrite sqrt_sqrt; lra). assert (ES : S = b * b) by (unfold b; rewrite sqrt_sqrt; lra).
    rewrite Ev, ES in Hv. replace (a * a - b * b) with ((a - b) * (a + b)) in Hv by ring. rewrite Rabs_mult, (Rabs_right (a + b)) in Hv by lra.
    pose proof (Rabs_pos (a - b)). assert (Rabs (a - b) * b <= d * b * b) by nra. apply Rmult_le_reg_r with b; lra.
  Qed.
  Lemma vnorm_affine (a : state) c b (f : state) : 0 <= c -> 0 <= b -> (forall x, (x < 2 ^ n)%N -> Cmod (f x) <= c * Cmod (a x) + b) ->
    vnorm n f <= c * vnorm n a + b * sqrt (2 ^ N.to_nat n).
  Proof.
    intros Hc Hb H. apply Rle_trans with (vnorm n (fun x => RtoC c * RtoC (Cmod (a x)) + RtoC b)%C).
    - apply vnorm_mono. intros x Hx. eapply Rle_trans; [now apply H|]. rewrite <- RtoC_mul, <- RtoC_add, Cmod_real. apply Rle_abs.
    - eapply Rle_trans; [apply vnorm_add|]. rewrite vnorm_const by lra. rewrite vnorm_real, Rabs_right by lra. rewrite vnorm_mods. lra.
  Qed.
  Lemma normalize_about w : 0 < sqnorm n (w_amp w) -> sum_error u eta n h 9 (sqnorm n (w_amp w)) <= sqnorm n (w_amp w) / 4 ->
    leaves_about n (f_normalize A (shallow h) n) w (fun x => Cscale (/ vnorm n (w_amp w)) (w_amp w x)) (normalize_error u eta n h (sqnorm n (w_amp w))).
  Proof.
    intros HS Hsmall. unfold leaves_about, f_normalize. set (S := sqnorm n (w_amp w)) in *. set (d := sum_error u eta n h 9 S / S).
    assert (Hp1 : 1 <= 2 ^ N.to_nat n) by (apply pow_R1_Rle; lra).
    assert (Hd0 : 24 * eta <= d * S).
    { unfold d, Rdiv. rewrite Rmult_assoc, Rinv_l, Rmult_1_r by lra. unfold sum_error. pose proof (pos_INR h).
      assert (0 <= (5 * INR h + 9) * u * S) by (repeat apply Rmult_le_pos; lra).
      assert (24 * eta * 1 <= 24 * eta * 2 ^ N.to_nat n) by (apply Rmult_le_compat_l; lra). lra. }
    assert (Hd : 0 <= d <= / 4).
    { split; [|unfold d; apply Rmult_le_reg_r with S; [assumption|]; unfold Rdiv; rewrite Rmult_assoc, Rinv_l; lra].
      apply Rmult_le_reg_r with S; [assumption|]. lra. }
    eapply runs_bind_done; [apply (norms_about u eta A HA n h Hh (2 ^ n) (fun i => i)); [lia|auto]|]. cbv beta.
    intros v w1 (-> & Nv & Bv). change (Rsuml (fun i => Cnorm2 (w_amp w i)) (seqN (2 ^ n))) with S in Bv. rewrite Nv.
    assert (Bv' : Rabs (v - S) <= d * S). { unfold d, Rdiv. rewrite Rmult_assoc, Rinv_l, Rmult_1_r by lra. exact Bv. }
    destruct (sqrt_near S v d HS Hd Bv') as [Hv Hs]. pose proof (sqrt_lt_R0 S HS) as Hb. set (b := sqrt S) in *.
    change (vnorm n (w_amp w)) with b. pose proof (acc_rnd _ _ _ HA (sqrt v)) as Hr. set (s := a_rnd A (sqrt v)) in *.
    assert (Hsv : sqrt v <= (1 + d) * b) by (apply Rabs_between in Hs; lra). rewrite (Rabs_right (sqrt v)) in Hr by (apply Rle_ge, sqrt_pos).
    assert (Heta : eta <= (d / 24 + u) * b).
    { destruct (Rle_lt_dec b 1) as [H1|H1].
      - assert (S <= b). { replace S with (b * b) by (unfold b; apply sqrt_sqrt; lra). nra. }
        assert (d * S <= d * b) by (apply Rmult_le_compat_l; lra). nra.
      - assert (u * 1 <= u * b) by (apply Rmult_le_compat_l; lra). assert (0 <= d / 24 * b) by (apply Rmult_le_pos; lra). lra. }
    assert (Hsb : Rabs (s - b) <= (25 / 24 * d + 9 / 4 * u) * b).
    { replace (s - b) with ((s - sqrt v) + (sqrt v - b)) by ring. eapply Rle_trans; [apply Rabs_triang|].
      assert (u * sqrt v <= u * ((1 + d) * b)) by (apply Rmult_le_compat_l; lra). assert (u * d <= u * / 4) by (apply Rmult_le_compat_l; lra).
      assert (u * d * b <= u * / 4 * b) by (apply Rmult_le_compat_r; lra). lra. }
    set (rho := 25 / 24 * d + 9 / 4 * u) in *. assert (Hrho : 0 <= rho <= 3 / 10) by (unfold rho; lra).
    assert (Hs7 : 7 / 10 * b <= s). { apply Rabs_between in Hsb. assert (rho * b <= 3 / 10 * b) by (apply Rmult_le_compat_r; lra). lra. }
    assert (Hs0 : 0 < s) by lra. destruct (Req_EM_T s 0) as [E|_]; [lra|].
    eapply runs_done_mono.
    { apply (one_kernel_sets (2 ^ n) _ (fun i v => (a_rnd A (fst v / s), a_rnd A (snd v / s))) w (fun x => (a_rnd A (fst (w_amp w x) / s), a_rnd A (snd (w_amp w x) / s)))); kernel_tac. }
    cbv beta. intros _ w' (Hw & H1 & H2 & H3). split; [assumption|]. split; [assumption|]. split; [assumption|].
    assert (His : / s <= 10 / 7 * / b). { replace (10 / 7 * / b) with (/ (7 / 10 * b)) by (field; lra). apply Rinv_le_contravar; lra. }
    assert (Hib : 0 < / b) by now apply Rinv_0_lt_compat. assert (His0 : 0 < / s) by now apply Rinv_0_lt_compat.
    assert (Hdiff : Rabs (/ s - / b) <= 10 / 7 * rho * / b).
    { replace (/ s - / b) with (- (s - b) * / s * / b) by (field; lra). rewrite !Rabs_mult, Rabs_Ropp, (Rabs_right (/ s)), (Rabs_right (/ b)) by lra.
      apply Rmult_le_compat_r; [lra|]. apply Rle_trans with (rho * b * (10 / 7 * / b)); [apply Rmult_le_compat; try lra; apply Rabs_pos|]. right. field. lra. }
    eapply Rle_trans; [apply (vnorm_affine (w_amp w) (10 / 7 * rho * / b + 3 / 2 * u * (10 / 7 * / b)) (3 / 2 * eta))|].
    - assert (0 <= u * / b) by (apply Rmult_le_pos; lra). assert (0 <= rho * / b) by (apply Rmult_le_pos; lra). lra.
    - lra.
    - intros x Hx. rewrite Hw by assumption. set (z := w_amp w x). pose proof (Cmod_nonneg z) as Hz.
      set (zs := (fst z / s, snd z / s)). assert (Ezs : Cmod zs = Cmod z * / s).
      { replace zs with (RtoC (/ s) * z)%C by (unfold zs, Rdiv; c_eq; cbn; ring). rewrite Cmod_mul, Cmod_real, Rabs_right by lra. ring. }
      eapply Rle_trans; [apply (Cmod_tri3 _ zs)|]. apply Rle_trans with (3 / 2 * (u * Cmod zs + eta) + 10 / 7 * rho * / b * Cmod z).
      + apply Rplus_le_compat.
        * assert (0 <= u * Cmod zs) by (apply Rmult_le_pos; [lra|apply Cmod_nonneg]). apply Cmod_box; [lra| |]; cbn.
          -- eapply Rle_trans; [apply (acc_rnd _ _ _ HA)|]. pose proof (Cmod_fst zs) as F. cbn in F. assert (u * Rabs (fst z / s) <= u * Cmod zs) by (apply Rmult_le_compat_l; lra). lra.
          -- eapply Rle_trans; [apply (acc_rnd _ _ _ HA)|]. pose proof (Cmod_snd zs) as F. cbn in F. assert (u * Rabs (snd z / s) <= u * Cmod zs) by (apply Rmult_le_compat_l; lra). lra.
        * replace (zs - Cscale (/ b) z)%C with (RtoC (/ s - / b) * z)%C by (unfold zs, Rdiv; c_eq; cbn; ring).
          rewrite Cmod_mul, Cmod_real. apply Rmult_le_compat_r; lra.
      + rewrite Ezs. assert (Cmod z * / s <= Cmod z * (10 / 7 * / b)) by (apply Rmult_le_compat_l; lra).
        assert (u * (Cmod z * / s) <= u * (Cmod z * (10 / 7 * / b))) by (apply Rmult_le_compat_l; lra). lra.
    - change (vnorm n (w_amp w)) with b. unfold normalize_error. fold d. replace ((10 / 7 * rho * / b + 3 / 2 * u * (10 / 7 * / b)) * b) with (10 / 7 * rho + 15 / 7 * u) by (field; lra).
      pose proof (sqrt_pos (2 ^ N.to_nat n)). assert (0 <= eta * sqrt (2 ^ N.to_nat n)) by (apply Rmult_le_pos; lra). unfold rho. lra.
  Qed.
End Numbers.
