(** Rounded sampling. *)
From Verif Require Export FloatProofs15.
From Verif Require Import StateProofs StateProofs2 GroundProofs4 GroundProofs9 FloatProofs10.
From Coq Require Import Permutation Lra ZifyBool ZifyN ZifyNat.
Open Scope R_scope.

Lemma firstn_seqN k D : (k <= D)%N -> firstn (N.to_nat k) (seqN D) = seqN k.
Proof.
  intros H. unfold seqN. rewrite firstn_map. f_equal. generalize 0%nat. assert (H' : (N.to_nat k <= N.to_nat D)%nat) by lia. revert H'.
  generalize (N.to_nat k) (N.to_nat D). induction n as [|a IH]; intros [|b] Hab s; cbn; try reflexivity; try lia. f_equal. apply IH. lia.
Qed.

Section Scan.
  Variables (u eta : R) (A : arith).
  Hypothesis HA : accurate u eta A.
  Let Hu := u_range u eta A HA.
  Let He := eta_range u eta A HA.
  Variable psi : state.
  Let x := fun i : N => RtoC (f_norm2 A (psi i)).
  Let sum := st_sum A x.

  Lemma running_tree l : forall s off, sum s = RtoC off -> forall j, (j < length l)%nat ->
    exists t, sum t = RtoC (nth j (running A psi off l) 0) /\ st_leaves t = (st_leaves s ++ firstn (S j) l)%list /\ (st_height t <= st_height s + length l)%nat.
  Proof.
    induction l as [|i l IH]; intros s off Hs j Hj; [cbn in Hj; lia|]. cbn [running]. set (off' := f_plus A off (f_norm2 A (psi i))).
    assert (Hs' : sum (STwo s (SOne i)) = RtoC off'). { unfold sum. cbn [st_sum]. fold sum. rewrite Hs. unfold x. apply (plus_RtoC u eta A HA). }
    destruct j as [|j].
    - exists (STwo s (SOne i)). split; [exact Hs'|]. split; [reflexivity|]. cbn. lia.
    - destruct (IH _ _ Hs' j ltac:(cbn in Hj; lia)) as (t & H1 & H2 & H3). exists t. split; [exact H1|]. split.
      + rewrite H2. cbn [st_leaves]. rewrite <- app_assoc. reflexivity.
      + cbn [st_height length] in *. lia.
  Qed.
  Lemma running_length l : forall off, length (running A psi off l) = length l.
  Proof. induction l as [|i l IH]; intros off; [reflexivity|]. cbn. now rewrite IH. Qed.
  Lemma chunk_total_tree l : sum (st_fold SNone l) = RtoC (chunk_total A psi l).
  Proof.
    unfold sum. rewrite st_fold_sum. cbn [st_sum]. unfold chunk_total. change C0 with (RtoC 0). generalize 0.
    induction l as [|i l IH]; intros z; [reflexivity|]. cbn [fold_left]. change (x i) with (RtoC (f_norm2 A (psi i))). rewrite (plus_RtoC u eta A HA). apply IH.
  Qed.
  Lemma scan_tree k chunks : Forall (fun c => (length c <= k)%nat) chunks -> forall s off, sum s = RtoC off ->
    forall j, (j < length (concat chunks))%nat ->
    exists t, sum t = RtoC (nth j (f_scan A psi off chunks) 0) /\ st_leaves t = (st_leaves s ++ firstn (S j) (concat chunks))%list /\
      (st_height t <= Nat.max (st_height s) k + length chunks + k)%nat.
  Proof.
    induction 1 as [|c chunks Hc _ IH]; intros s off Hs j Hj; [cbn in Hj; lia|]. cbn [f_scan concat] in *. rewrite app_length in Hj.
    destruct (Nat.lt_ge_cases j (length c)) as [Hlt|Hge].
    - rewrite app_nth1 by now rewrite running_length. destruct (running_tree c s off Hs j Hlt) as (t & H1 & H2 & H3). exists t. split; [exact H1|].
      split; [|cbn [length]; lia]. rewrite H2. f_equal. rewrite firstn_app. replace (S j - length c)%nat with 0%nat by lia. now rewrite firstn_O, app_nil_r.
    - rewrite app_nth2 by now rewrite running_length. rewrite running_length.
      assert (Hs' : sum (STwo s (st_fold SNone c)) = RtoC (f_plus A off (chunk_total A psi c))).
      { unfold sum. cbn [st_sum]. fold sum. rewrite Hs, chunk_total_tree. apply (plus_RtoC u eta A HA). }
      destruct (IH _ _ Hs' (j - length c)%nat ltac:(lia)) as (t & H1 & H2 & H3). exists t. split; [exact H1|]. split.
      + rewrite H2. cbn [st_leaves]. rewrite st_fold_leaves. cbn [st_leaves app]. rewrite <- app_assoc. f_equal.
        rewrite firstn_app, (firstn_all2 c) by lia. replace (S (j - length c)) with (S j - length c)%nat by lia. reflexivity.
      + cbn [st_height length] in *. rewrite st_fold_height in H3. cbn [st_height] in H3. lia.
  Qed.
  Lemma stacked_about n k chunks i : chunks_ok (2 ^ n) k chunks -> 3 / 2 * INR (length chunks + 2 * k) * u <= 1 -> (i <= 2 ^ n)%N ->
    Rabs (f_stacked A chunks psi i - cumulative psi i) <= sum_error u eta n (length chunks + 2 * k) 9 (sqnorm n psi).
  Proof.
    intros [Hcat Hk] Hb Hi. assert (HS : 0 <= sqnorm n psi) by apply sqnorm_nonneg. set (h := (length chunks + 2 * k)%nat) in *.
    assert (HM : 1 <= 2 ^ N.to_nat n) by (apply pow_R1_Rle; lra). pose proof (pos_INR h) as Hh0.
    assert (HuS : 0 <= u * sqnorm n psi) by (apply Rmult_le_pos; lra).
    assert (H0 : 0 <= INR h * (u * sqnorm n psi)) by (apply Rmult_le_pos; lra). assert (H1 : 0 <= eta * 2 ^ N.to_nat n) by (apply Rmult_le_pos; lra).
    destruct (N.eq_dec i 0) as [->|Hi0].
    { change (f_stacked A chunks psi 0) with 0. rewrite cumulative_0, Rminus_0_r, Rabs_R0. unfold sum_error. lra. }
    unfold f_stacked. destruct (N.to_nat i) as [|j] eqn:Ej; [lia|]. cbn [nth].
    assert (Hj : (j < length (concat chunks))%nat) by (rewrite Hcat, length_seqN; lia).
    destruct (scan_tree k chunks Hk SNone 0 eq_refl j Hj) as (t & E1 & E2 & E3). cbn [st_leaves st_height app Nat.max] in *.
    assert (El : st_leaves t = seqN i). { rewrite E2, Hcat, <- Ej. now apply firstn_seqN. }
    assert (Hnum : forall a, f_entry A (x a) = x a).
    { intros a. unfold x, f_entry, RtoC. cbn [fst snd]. now rewrite (norm2_number u eta A HA), (acc_zero _ _ _ HA). }
    set (y := fun a => RtoC (Cnorm2 (psi a))). set (e := fun a => 3 * u * Cnorm2 (psi a) + 4 * eta).
    pose proof (st_err u eta A x y e HA Hnum t) as Err. rewrite El in Err.
    assert (Hne : seqN i <> []). { intros Hn. apply (f_equal (@length N)) in Hn. rewrite length_seqN in Hn. cbn in Hn. lia. }
    specialize (Err ltac:(intros a _; unfold x, y; rewrite RtoC_inj_mod; apply (norm2_err u eta A HA)) Hne).
    fold sum in Err. rewrite E1 in Err. unfold y in Err. rewrite <- RtoC_Rsuml, RtoC_inj_mod in Err. fold (cumulative psi i) in Err.
    assert (Ey : Rsuml (fun a => Cmod (RtoC (Cnorm2 (psi a)))) (seqN i) = cumulative psi i).
    { unfold cumulative. apply Rsuml_ext. intros a _. rewrite Cmod_real, Rabs_right; [reflexivity|apply Rle_ge, Cnorm2_nonneg]. }
    rewrite Ey in Err. set (T := cumulative psi i) in *.
    assert (HT : 0 <= T <= sqnorm n psi).
    { split; [unfold T; rewrite <- (cumulative_0 psi); apply cumulative_mono; lia|]. apply cumulative_mono. exact Hi. }
    assert (EE : Rsuml e (seqN i) = 3 * u * T + 4 * eta * INR (N.to_nat i)). { unfold e. rewrite Rsuml_affine, length_seqN. reflexivity. }
    assert (HE0 : 0 <= Rsuml e (seqN i)). { rewrite EE. pose proof (pos_INR (N.to_nat i)). assert (0 <= u * T) by (apply Rmult_le_pos; lra). assert (0 <= eta * INR (N.to_nat i)) by (apply Rmult_le_pos; lra). lra. }
    eapply Rle_trans; [exact Err|]. eapply Rle_trans; [apply (st_bound_mono u eta A HA _ h); [unfold h; lia|exact HE0|lra]|].
    eapply Rle_trans; [apply (st_bound_est u eta A HA); [exact HE0|lra|exact Hb]|]. rewrite EE, length_seqN. unfold sum_error.
    assert (INR (N.to_nat i) <= 2 ^ N.to_nat n) by (rewrite two_pow; apply le_INR; lia). assert (eta * INR (N.to_nat i) <= eta * 2 ^ N.to_nat n) by (apply Rmult_le_compat_l; lra).
    assert (u * T <= u * sqnorm n psi) by (apply Rmult_le_compat_l; lra). assert (INR h * (u * T) <= INR h * (u * sqnorm n psi)) by (apply Rmult_le_compat_l; lra). lra.
  Qed.

  Lemma f_choose_spec n chunks r : 0 <= a_rnd A r ->
    (f_choose A n chunks psi r < 2 ^ n)%N /\ f_stacked A chunks psi (f_choose A n chunks psi r) <= a_rnd A r < f_stacked A chunks psi (f_choose A n chunks psi r + 1) \/
    f_choose A n chunks psi r = (2 ^ n)%N /\ f_stacked A chunks psi (2 ^ n) <= a_rnd A r.
  Proof.
    intros Hr. unfold f_choose. pose proof (pow2_pos n).
    destruct (bsearch_spec (f_stacked A chunks psi) (a_rnd A r) (2 ^ n + 1) (N.to_nat (2 ^ n + 1)) 0 (2 ^ n + 1)) as (H1 & H2 & H3 & H4); try lia.
    - exact Hr.
    - set (b := bsearch _ _ _ _ _) in *. destruct (N.eq_dec b (2 ^ n)) as [E|E]; [right; rewrite E in *; auto|]. left. split; [lia|]. destruct H4 as [H4|H4]; [lia|auto].
  Qed.
  Lemma draw_near r : unit_draw r -> Rabs (a_rnd A r - r) <= u + eta.
  Proof.
    intros [H0 H1]. eapply Rle_trans; [apply (acc_rnd _ _ _ HA)|]. rewrite Rabs_right by lra. assert (u * r <= u * 1) by (apply Rmult_le_compat_l; lra). lra.
  Qed.
  Lemma f_choose_about n k chunks r : chunks_ok (2 ^ n) k chunks -> 3 / 2 * INR (length chunks + 2 * k) * u <= 1 -> unit_draw r -> 0 <= a_rnd A r ->
    (f_choose A n chunks psi r < 2 ^ n)%N /\ selects_about (draw_error u eta n (length chunks) k (sqnorm n psi)) psi r (f_choose A n chunks psi r) \/
    f_choose A n chunks psi r = (2 ^ n)%N /\ sqnorm n psi - draw_error u eta n (length chunks) k (sqnorm n psi) <= r.
  Proof.
    intros Hc Hb Hr H0. pose proof (draw_near r Hr) as Hd. apply Rabs_between in Hd. unfold draw_error.
    destruct (f_choose_spec n chunks r H0) as [(H1 & H2 & H3)|(H1 & H2)].
    - left. split; [assumption|]. set (b := f_choose A n chunks psi r) in *.
      pose proof (stacked_about n k chunks b Hc Hb ltac:(lia)) as S1. pose proof (stacked_about n k chunks (b + 1) Hc Hb ltac:(lia)) as S2.
      apply Rabs_between in S1, S2. unfold selects_about. lra.
    - right. split; [assumption|]. pose proof (stacked_about n k chunks (2 ^ n) Hc Hb ltac:(lia)) as S1. apply Rabs_between in S1.
      change (sqnorm n psi) with (cumulative psi (2 ^ n)) at 1. lra.
  Qed.
  Lemma sampling_about n k chunks count rounds l : chunks_ok (2 ^ n) k chunks -> 3 / 2 * INR (length chunks + 2 * k) * u <= 1 -> rounds_ok A rounds ->
    f_sampling A n chunks psi count rounds = Some l ->
    length l = N.to_nat count /\ forall b, In b l -> (b < 2 ^ n)%N /\ exists draw i, In draw rounds /\ selects_about (draw_error u eta n (length chunks) k (sqnorm n psi)) psi (draw i) b.
  Proof.
    intros Hc Hb Hr E. unfold f_sampling in E.
    destruct (sampling_loop n N.eqb (fun _ => f_choose A n chunks psi) rounds (seqN count) (fun _ => 0%N)) as [r|] eqn:El; [|discriminate].
    injection E as <-. split; [now rewrite map_length, length_seqN|].
    destruct (sampling_loop_spec N.eqb neqb_spec _ _ _ _ _ _ (NoDup_seqN count) El) as [_ H].
    intros b Hx. apply in_map_iff in Hx as (s & <- & Hs). destruct (H s Hs) as (draw & i & Hd & Hne & ->). destruct (Hr draw i Hd) as [U1 U2].
    destruct (f_choose_about n k chunks (draw i) Hc Hb U1 U2) as [[H1 H2]|[H1 H2]]; [|contradiction].
    split; [assumption|]. exists draw, i. auto.
  Qed.
  Lemma sampling_ends n k chunks count draw rest : chunks_ok (2 ^ n) k chunks -> 3 / 2 * INR (length chunks + 2 * k) * u <= 1 -> rounds_ok A [draw] ->
    (forall i, (i < count)%N -> draw i < sqnorm n psi - draw_error u eta n (length chunks) k (sqnorm n psi)) ->
    exists l, f_sampling A n chunks psi count (draw :: rest) = Some l /\ length l = N.to_nat count /\
      forall i, (i < count)%N -> (nth (N.to_nat i) l 0 < 2 ^ n)%N /\ selects_about (draw_error u eta n (length chunks) k (sqnorm n psi)) psi (draw i) (nth (N.to_nat i) l 0%N).
  Proof.
    intros Hc Hb Hr Hsm.
    assert (K : forall i, (i < count)%N -> (f_choose A n chunks psi (draw i) < 2 ^ n)%N /\ selects_about (draw_error u eta n (length chunks) k (sqnorm n psi)) psi (draw i) (f_choose A n chunks psi (draw i))).
    { intros i Hi. destruct (Hr draw i (or_introl eq_refl)) as [U1 U2]. destruct (f_choose_about n k chunks (draw i) Hc Hb U1 U2) as [H|[_ H]]; [assumption|]. specialize (Hsm i Hi). lra. }
    unfold f_sampling. destruct (sampling_loop_one N.eqb neqb_spec n (fun _ => f_choose A n chunks psi) draw rest (seqN count) (fun _ => 0%N) (NoDup_seqN count)) as (r & Er & Hr').
    { intros j s Hs. destruct (StateProofs2.nth_error_seqN _ _ _ Hs) as [E1 E2]. cbn. destruct (K (N.of_nat j) ltac:(lia)). lia. }
    rewrite Er. eexists. split; [reflexivity|]. split; [now rewrite map_length, length_seqN|]. intros i Hi.
    rewrite (nth_indep _ 0%N (r 0%N)) by (rewrite map_length, length_seqN; lia). rewrite map_nth. rewrite nth_seqN by lia. rewrite N2Nat.id.
    assert (Hn' : nth_error (seqN count) (N.to_nat i) = Some i). { rewrite (nth_error_nth' _ 0%N) by (rewrite length_seqN; lia). rewrite nth_seqN by lia. now rewrite N2Nat.id. }
    rewrite (Hr' _ _ Hn'). rewrite N2Nat.id. now apply K.
  Qed.

  (** a single chunk *)
  Lemma running_succ l : forall off j, (S j < length l)%nat -> nth (S j) (running A psi off l) 0 = f_plus A (nth j (running A psi off l) 0) (f_norm2 A (psi (nth (S j) l 0%N))).
  Proof.
    induction l as [|a l IH]; intros off j Hj; [cbn in Hj; lia|]. destruct j as [|j].
    - destruct l as [|b l]; [cbn in Hj; lia|]. reflexivity.
    - cbn [running nth]. apply IH. cbn in Hj. lia.
  Qed.
  Lemma stacked_one D i : (i < D)%N -> f_stacked A [seqN D] psi (i + 1) = f_plus A (f_stacked A [seqN D] psi i) (f_norm2 A (psi i)).
  Proof.
    intros Hi. unfold f_stacked. cbn [f_scan]. rewrite app_nil_r. replace (N.to_nat (i + 1)) with (S (N.to_nat i)) by lia. cbn [nth].
    destruct (N.to_nat i) as [|j] eqn:Ej.
    - assert (i = 0%N) by lia. subst i. assert (E : exists l, seqN D = 0%N :: l). { unfold seqN. destruct (N.to_nat D) as [|d] eqn:Ed; [lia|]. eexists. reflexivity. }
      destruct E as [l ->]. reflexivity.
    - rewrite running_succ by (rewrite length_seqN; lia). rewrite nth_seqN by lia. cbn [nth]. do 3 f_equal. lia.
  Qed.
  Lemma stacked_number D i : a_rnd A (f_stacked A [seqN D] psi i) = f_stacked A [seqN D] psi i.
  Proof.
    assert (G : forall l j off, a_rnd A (nth j (running A psi off l) 0) = nth j (running A psi off l) 0).
    { induction l as [|a l IH]; intros j off; [destruct j; apply (acc_zero _ _ _ HA)|]. destruct j as [|j]; cbn [running nth]; [apply (acc_idem _ _ _ HA)|]. apply IH. }
    unfold f_stacked. destruct (N.to_nat i) as [|j]; [apply (acc_zero _ _ _ HA)|]. cbn [nth f_scan]. rewrite app_nil_r. apply G.
  Qed.
  Lemma norm2_zero : f_norm2 A C0 = 0.
  Proof.
    unfold f_norm2, two_products, C0. cbn [fst snd]. rewrite !Rmult_0_l. destruct (a_fuse A _ _ _ _ _); rewrite ?(acc_zero _ _ _ HA), Rplus_0_r, ?(acc_zero _ _ _ HA); reflexivity.
  Qed.
  Lemma choose_one_nonzero n r : 0 <= a_rnd A r -> (f_choose A n [seqN (2 ^ n)] psi r < 2 ^ n)%N -> psi (f_choose A n [seqN (2 ^ n)] psi r) <> C0.
  Proof.
    intros H0 Hlt E. destruct (f_choose_spec n [seqN (2 ^ n)] r H0) as [(_ & H2 & H3)|(H1 & _)]; [|lia].
    rewrite stacked_one, E, norm2_zero in H3 by assumption. unfold f_plus in H3. rewrite Rplus_0_r, stacked_number in H3. lra.
  Qed.
  Lemma sampling_one_nonzero n count rounds l : rounds_ok A rounds -> f_sampling A n [seqN (2 ^ n)] psi count rounds = Some l -> forall b, In b l -> (b < 2 ^ n)%N /\ psi b <> C0.
  Proof.
    intros Hr E. unfold f_sampling in E.
    destruct (sampling_loop n N.eqb (fun _ => f_choose A n [seqN (2 ^ n)] psi) rounds (seqN count) (fun _ => 0%N)) as [r|] eqn:El; [|discriminate].
    injection E as <-. destruct (sampling_loop_spec N.eqb neqb_spec _ _ _ _ _ _ (NoDup_seqN count) El) as [_ H].
    intros b Hx. apply in_map_iff in Hx as (s & <- & Hs). destruct (H s Hs) as (draw & i & Hd & Hne & ->). destruct (Hr draw i Hd) as [_ U2].
    assert (Hlt : (f_choose A n [seqN (2 ^ n)] psi (draw i) < 2 ^ n)%N) by (destruct (f_choose_spec n [seqN (2 ^ n)] (draw i) U2) as [[H1 _]|[H1 _]]; [assumption|contradiction]).
    split; [assumption|]. now apply choose_one_nonzero.
  Qed.
End Scan.
