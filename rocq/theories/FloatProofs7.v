(** Binary floating point numbers are such a number type. *)
From Flocq Require Import Core Relative.
From Verif Require Import FloatProofs6.
From Coq Require Import Lra Lia.
Open Scope R_scope.

Lemma bpow_powerRZ e : bpow radix2 e = powerRZ 2 e.
Proof. rewrite bpow_powerRZ. reflexivity. Qed.
Lemma unit_bpow prec : unit_of prec = / 2 * bpow radix2 (- prec + 1).
Proof.
  unfold unit_of. rewrite bpow_plus, bpow_opp, bpow_powerRZ. replace (bpow radix2 1) with 2 by (cbn; lra). field. apply powerRZ_NOR. lra.
Qed.
Lemma tiny_bpow emin : tiny_of emin = / 2 * bpow radix2 emin.
Proof.
  unfold tiny_of. rewrite bpow_powerRZ. unfold Z.sub. rewrite powerRZ_add by lra. change (powerRZ 2 (- (1))) with (/ 2 ^ Pos.to_nat 1). rewrite Pos2Nat.inj_1, pow_1. ring.
Qed.

Section Binary.
  Variables prec emin : Z.
  Hypothesis Hp : (8 <= prec)%Z.
  Hypothesis He : (emin <= - prec)%Z.
  Notation u := (unit_of prec).
  Notation eta := (tiny_of emin).
  Notation r := (nearest prec emin).
  Let Hp0 : (0 < prec)%Z. Proof. lia. Qed.
  Local Instance Hprec : Prec_gt_0 prec. Proof. exact Hp0. Qed.

  Lemma unit_range : 0 <= u <= / 256.
  Proof.
    unfold unit_of. rewrite <- bpow_powerRZ. split; [left; apply Rinv_0_lt_compat, bpow_gt_0|].
    apply Rinv_le_contravar; [lra|]. replace 256 with (bpow radix2 8) by (cbn; lra). now apply bpow_le.
  Qed.
  Lemma tiny_range : 0 <= eta <= u.
  Proof.
    rewrite tiny_bpow, unit_bpow. pose proof (bpow_gt_0 radix2 emin). split; [lra|]. apply Rmult_le_compat_l; [lra|]. apply bpow_le. lia.
  Qed.
  Lemma nearest_err x : Rabs (r x - x) <= u * Rabs x + eta.
  Proof.
    destruct (error_N_FLT radix2 emin prec Hp0 (fun x => negb (Z.even x)) x) as (eps & h & H1 & H2 & _ & E). unfold nearest. rewrite E.
    replace (x * (1 + eps) + h - x) with (eps * x + h) by ring. eapply Rle_trans; [apply Rabs_triang|]. rewrite Rabs_mult.
    rewrite unit_bpow, tiny_bpow. apply Rplus_le_compat; [|exact H2]. apply Rmult_le_compat_r; [apply Rabs_pos|exact H1].
  Qed.
  Lemma nearest_idem x : r (r x) = r x.
  Proof. unfold nearest. apply round_generic; [apply valid_rnd_N|]. apply generic_format_round; [apply FLT_exp_valid; exact Hp0|apply valid_rnd_N]. Qed.
  Lemma nearest_0 : r 0 = 0. Proof. apply round_0, valid_rnd_N. Qed.
  Lemma nearest_half x : r x = x -> Rabs (r (x / 2) - x / 2) <= eta.
  Proof.
    intros Hx. assert (Hf : FLT_format radix2 emin prec x).
    { apply FLT_format_generic; [exact Hp0|]. rewrite <- Hx. apply generic_format_round; [apply FLT_exp_valid; exact Hp0|apply valid_rnd_N]. }
    destruct Hf as [[m e] E1 E2 E3]. cbn [Fnum Fexp] in *. destruct (Z.eq_dec e emin) as [->|Hne].
    - rewrite tiny_bpow. unfold nearest. rewrite <- (ulp_FLT_small radix2 emin prec (x / 2)).
      + apply error_le_half_ulp. apply FLT_exp_valid. exact Hp0.
      + rewrite E1. unfold F2R. cbn [Fnum Fexp]. unfold Rdiv. rewrite !Rabs_mult, <- abs_IZR.
        rewrite (Rabs_right (bpow radix2 emin)) by (left; apply bpow_gt_0). rewrite (Rabs_right (/ 2)) by lra.
        rewrite Z.add_comm, bpow_plus. rewrite <- (IZR_Zpower radix2 prec) by lia. apply IZR_lt in E2.
        pose proof (bpow_gt_0 radix2 emin) as Hb. assert (0 <= IZR (Z.abs m)) by (apply IZR_le; lia).
        change (IZR (radix2 ^ prec)) with (IZR (radix_val radix2 ^ prec)) in *. nra.
    - assert (Hg : generic_format radix2 (FLT_exp emin prec) (x / 2)).
      { apply generic_format_FLT. apply (FLT_spec radix2 emin prec (x / 2) (Float radix2 m (e - 1))); cbn [Fnum Fexp]; [|exact E2|lia].
        rewrite E1. unfold F2R. cbn [Fnum Fexp]. unfold Z.sub. rewrite bpow_plus. cbn. field. }
      unfold nearest. rewrite (round_generic _ _ _ _ Hg). unfold Rminus. rewrite Rplus_opp_r, Rabs_R0. apply tiny_range.
  Qed.

  Theorem binary_accurate A : binary prec emin A -> accurate u eta A.
  Proof.
    intros [Hr HL]. split; rewrite ?Hr.
    - apply unit_range.
    - apply tiny_range.
    - apply nearest_err.
    - apply nearest_0.
    - apply nearest_idem.
    - intros x. apply nearest_half.
    - apply (lib_cos _ _ HL).
    - apply (lib_sin _ _ HL).
    - apply (lib_cosh _ _ HL).
    - apply (lib_sinh _ _ HL).
    - apply (lib_tree _ _ HL).
    - apply (lib_exp0 _ _ HL).
    - apply (lib_isq2 _ _ HL).
    - rewrite <- Hr. apply (lib_pi2 _ _ HL).
  Qed.
  Theorem correctly_rounded_binary : binary prec emin (correctly_rounded prec emin).
  Proof.
    pose proof unit_range as Hu. pose proof tiny_range as Ht. split; [reflexivity|]. cbn.
    assert (K : forall x, Rabs x <= 1 -> Rabs (r x - x) <= 2 * u).
    { intros x Hx. eapply Rle_trans; [apply nearest_err|]. assert (u * Rabs x <= u * 1) by (apply Rmult_le_compat_l; lra). lra. }
    split; cbn.
    - intros x. apply K. apply Rabs_le. apply COS_bound.
    - intros x. apply K. apply Rabs_le. apply SIN_bound.
    - rewrite cosh_0. apply K. rewrite Rabs_R1. lra.
    - rewrite sinh_0, nearest_0, Rabs_R0. lra.
    - intros es vs. apply Permutation.Permutation_refl.
    - apply K. rewrite Rabs_R1. lra.
    - apply K. rewrite inv_sqrt2. apply isq2_abs.
    - split; [apply nearest_idem|]. eapply Rle_trans; [apply nearest_err|].
      pose proof PI_4. pose proof PI_RGT_0. rewrite Rabs_right by lra. assert (u * (PI / 2) <= u * 2) by (apply Rmult_le_compat_l; lra). lra.
  Qed.
End Binary.
