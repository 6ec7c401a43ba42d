(** Measuring a qubit that certainly shows 0, in rounded arithmetic (C65). *)
From Flocq Require Import Core Relative.
From Verif Require Export FloatProofs23.
From Verif Require Import FloatProofs FloatProofs7 FloatProofs17 FloatProofs18 FloatMeasureSpec.
From Coq Require Import Lia Lra ZifyBool ZifyN ZifyNat Permutation.
Open Scope R_scope.

(** ** Rounding numbers between powers of two *)
Section Near.
  Variables prec emin : Z.
  Lemma nearest_near x m e : (emin <= e)%Z -> bpow radix2 (e + prec - 1) <= x < bpow radix2 (e + prec) -> Rabs (x * bpow radix2 (- e) - IZR m) < / 2 ->
    nearest prec emin x = IZR m * bpow radix2 e.
  Proof.
    intros He Hx Hm. unfold nearest, round, scaled_mantissa. assert (Ec : cexp radix2 (FLT_exp emin prec) x = e).
    { unfold cexp. rewrite (mag_unique radix2 x (e + prec)); [|rewrite Rabs_right; [exact Hx|apply Rle_ge; eapply Rle_trans; [apply bpow_ge_0|apply Hx]]]. unfold FLT_exp. lia. }
    rewrite Ec. unfold F2R. cbn [Fnum Fexp]. f_equal. f_equal. now apply Znearest_imp.
  Qed.
End Near.
Lemma bp e : bpow radix2 e = powerRZ 2 e. Proof. apply bpow_powerRZ. Qed.
Lemma isq2_bounds a b : 0 <= a -> 0 <= b -> 2 * (a * a) < 1 -> 1 < 2 * (b * b) -> a < / sqrt 2 < b.
Proof.
  intros Ha Hb H1 H2. pose proof (sqrt_lt_R0 2 ltac:(lra)) as Hs. pose proof (sqrt_sqrt 2 ltac:(lra)) as Hq. assert (Hi : / sqrt 2 * / sqrt 2 = / 2) by (rewrite <- Rinv_mult; f_equal; exact Hq).
  pose proof (Rinv_0_lt_compat _ Hs) as Hp. set (y := / sqrt 2) in *. split; apply Rnot_le_lt; intros H.
  - assert (y * y <= a * a) by (apply Rmult_le_compat; lra). lra.
  - assert (b * b <= y * y) by (apply Rmult_le_compat; lra). lra.
Qed.
Lemma double_isq2 : nearest 53 (-1074) (/ sqrt 2) = 6369051672525773 * bpow radix2 (-53).
Proof.
  assert (E : bpow radix2 (-53) = / 9007199254740992) by reflexivity. assert (E' : bpow radix2 53 = 9007199254740992) by reflexivity.
  assert (B : 12738103345051545 / 18014398509481984 < / sqrt 2 < 12738103345051547 / 18014398509481984) by (apply isq2_bounds; lra).
  apply (nearest_near 53 (-1074)); [lia| |].
  - change (-53 + 53 - 1)%Z with (-1)%Z. change (-53 + 53)%Z with 0%Z. change (bpow radix2 (-1)) with (/ 2). change (bpow radix2 0) with 1. lra.
  - change (- -53)%Z with 53%Z. rewrite E'. apply Rabs_def1; lra.
Qed.
Lemma double_square : nearest 53 (-1074) (6369051672525773 * bpow radix2 (-53) * (6369051672525773 * bpow radix2 (-53))) = 4503599627370497 * bpow radix2 (-53).
Proof.
  assert (E : bpow radix2 (-53) = / 9007199254740992) by reflexivity. assert (E' : bpow radix2 53 = 9007199254740992) by reflexivity.
  apply (nearest_near 53 (-1074)); [lia| |].
  - change (-53 + 53 - 1)%Z with (-1)%Z. change (-53 + 53)%Z with 0%Z. change (bpow radix2 (-1)) with (/ 2). change (bpow radix2 0) with 1. rewrite E. lra.
  - change (- -53)%Z with 53%Z. rewrite E, E'. apply Rabs_def1; lra.
Qed.
Lemma double_sum : nearest 53 (-1074) (4503599627370497 * bpow radix2 (-53) + 4503599627370497 * bpow radix2 (-53)) = 1 + / 4503599627370496.
Proof.
  replace (4503599627370497 * bpow radix2 (-53) + 4503599627370497 * bpow radix2 (-53)) with (IZR 4503599627370497 * bpow radix2 (-52)).
  2: { change (-52)%Z with (1 + -53)%Z. rewrite bpow_plus. change (bpow radix2 1) with 2. ring. }
  rewrite (nearest_exact 53 (-1074)) by lia. change (bpow radix2 (-52)) with (/ 4503599627370496). lra.
Qed.
Lemma single_isq2 : nearest 24 (-149) (/ sqrt 2) = 11863283 * bpow radix2 (-24).
Proof.
  assert (E' : bpow radix2 24 = 16777216) by reflexivity.
  assert (B : 23726565 / 33554432 < / sqrt 2 < 23726567 / 33554432) by (apply isq2_bounds; lra).
  apply (nearest_near 24 (-149)); [lia| |].
  - change (-24 + 24 - 1)%Z with (-1)%Z. change (-24 + 24)%Z with 0%Z. change (bpow radix2 (-1)) with (/ 2). change (bpow radix2 0) with 1. lra.
  - change (- -24)%Z with 24%Z. rewrite E'. apply Rabs_def1; lra.
Qed.
Lemma single_square : nearest 24 (-149) (11863283 * bpow radix2 (-24) * (11863283 * bpow radix2 (-24))) = 16777215 * bpow radix2 (-25).
Proof.
  assert (E : bpow radix2 (-24) = / 16777216) by reflexivity. assert (E' : bpow radix2 25 = 33554432) by reflexivity.
  apply (nearest_near 24 (-149)); [lia| |].
  - change (-25 + 24 - 1)%Z with (-2)%Z. change (-25 + 24)%Z with (-1)%Z. change (bpow radix2 (-1)) with (/ 2). change (bpow radix2 (-2)) with (/ 4). rewrite E. lra.
  - change (- -25)%Z with 25%Z. rewrite E, E'. apply Rabs_def1; lra.
Qed.
Lemma single_sum : nearest 24 (-149) (16777215 * bpow radix2 (-25) + 16777215 * bpow radix2 (-25)) = 1 - / 16777216.
Proof.
  replace (16777215 * bpow radix2 (-25) + 16777215 * bpow radix2 (-25)) with (IZR 16777215 * bpow radix2 (-24)).
  2: { change (-24)%Z with (1 + -25)%Z. rewrite bpow_plus. change (bpow radix2 1) with 2. ring. }
  rewrite (nearest_exact 24 (-149)) by lia. change (bpow radix2 (-24)) with (/ 16777216). lra.
Qed.

(** ** H on qubit 0 of |00>, then qubit 1 is measured *)
Ltac ev e := let r := eval vm_compute in e in change e with r.
Ltac numerals := repeat match goal with
  | |- context [N.lor (N.ldiff ?a (2 ^ ?q)) (2 ^ ?q)] => ev (N.lor (N.ldiff a (2 ^ q)) (2 ^ q))
  | |- context [N.ldiff ?a (2 ^ ?q)] => ev (N.ldiff a (2 ^ q))
  | |- context [N.testbit ?a ?q] => ev (N.testbit a q)
  | |- context [(?a <? 4)%N] => ev (a <? 4)%N
  | |- context [(?a =? 0)%N] => ev (a =? 0)%N
  | |- context [(?a =? 1)%N] => ev (a =? 1)%N
  | |- context [(?a <? 2)%N] => ev (a <? 2)%N
  | |- context [N.land ?a 0] => ev (N.land a 0)
  end.
Section Certain.
  Variables (u eta : R) (A : arith) (L : N) (s v : R).
  Hypothesis HA : accurate u eta A.
  Hypothesis HL : lanes_ok L.
  Let x := a_isq2 A.
  Hypothesis Hx : a_rnd A x = x.
  Hypothesis H1 : a_rnd A 1 = 1.
  Hypothesis Hs : a_rnd A (x * x) = s.
  Hypothesis Hv : a_rnd A (s + s) = v.
  Definition half_state (i : N) : C := if (i <? 2)%N then RtoC x else C0.

  Lemma mul_x (mul : N -> C -> C -> C) : mul = f_mul A \/ mul = f_simd_mul A -> forall i y, a_rnd A y = y -> mul i (RtoC y) C1 = RtoC y /\ mul i (RtoC y) C0 = C0.
  Proof.
    intros Hm i y Hy. pose proof (acc_zero _ _ _ HA) as Hz. destruct Hm as [-> | ->]; unfold f_mul, f_simd_mul, two_products, C1, C0, RtoC; cbn [fst snd]; split; f_equal; destruct (a_fuse _ _ _ _ _ _);
      rewrite ?Ropp_0, ?Rmult_0_l, ?Rmult_1_r, ?Rmult_0_r, ?Hy, ?Hz, ?Rminus_0_r, ?Rplus_0_r, ?Hy, ?Hz; reflexivity.
  Qed.
  Lemma half_updates w : (forall i, (i < 4)%N -> w_amp w i = all_zero i) ->
    updates_to (2 ^ 2) (InPlace [f_std1_kernel A 2 (2 ^ 2) L GH 1 0 0]) (w_amp w) half_state.
  Proof.
    intros Hw. destruct (one_out A 2 L ltac:(lia) HL 0 (f_HADAMARD A) (w_amp w) ltac:(lia)) as (mul & Hm & Hk). eapply updates_inplace1; [exact Hk|].
    pose proof (fun i => mul_x mul Hm i x Hx) as Hmx. pose proof (held_0 u eta A HA) as V0. destruct (add_zero A C0 V0) as [E00 _].
    assert (Hxh : held_number A (RtoC x)) by (split; cbn; [exact Hx|apply (acc_zero _ _ _ HA)]). destruct (add_zero A _ Hxh) as [Ex0 _].
    assert (Hneg : forall i, mul i (- RtoC x)%C C0 = C0).
    { intros i. pose proof (acc_zero _ _ _ HA) as Hz. destruct Hm as [-> | ->]; unfold f_mul, f_simd_mul, two_products, C0, RtoC, Copp; cbn [fst snd]; f_equal; destruct (a_fuse _ _ _ _ _ _);
        rewrite ?Ropp_0, ?Rmult_0_l, ?Rmult_0_r, ?Hz, ?Rminus_0_r, ?Rplus_0_r, ?Hz; reflexivity. }
    intros a Ha. change (2 ^ 2)%N with 4%N in Ha. assert (Hc : (a = 0 \/ a = 1 \/ a = 2 \/ a = 3)%N) by lia.
    unfold out, pair_of, f_HADAMARD, mat2. change (1 * 2 ^ 2)%N with 4%N.
    destruct Hc as [->|[->|[->| ->]]]; numerals; rewrite !Hw by reflexivity; unfold all_zero, half_state; numerals; fold x; cbn [andb N.eqb]; numerals; cbn [andb]; rewrite ?(fun i => proj1 (Hmx i)), ?(fun i => proj2 (Hmx i)), ?Hneg, ?Ex0, ?E00; reflexivity.
  Qed.
  Lemma half_zero w : (forall i, (i < 4)%N -> w_amp w i = half_state i) -> a_rnd A s = s -> returns (f_get_zero_probability A in_order 2 1) w v.
  Proof.
    intros Hw Hss. unfold f_get_zero_probability. cbn [N.leb]. change (2 <=? 1)%N with false. cbv iota. change (N.shiftr (2 ^ 2) 1) with 2%N.
    assert (K : reduce 0 (f_plus A) (fun i => rrun (fun a => a <? 2 ^ 2)%N (w_amp w) (f_read_norm A (insert_zero_to_basis_index i 1))) (RLeaf (seqN 2)) = Some v).
    { change (seqN 2) with [0; 1]%N. cbn [reduce fold_left]. change (insert_zero_to_basis_index 0 1) with 0%N. change (insert_zero_to_basis_index 1 1) with 1%N.
      unfold f_read_norm. cbn [rrun]. change (0 <? 2 ^ 2)%N with true. change (1 <? 2 ^ 2)%N with true. cbv iota. rewrite !Hw by lia. cbn [half_state]. change (half_state 0) with (RtoC x). change (half_state 1) with (RtoC x).
      rewrite (norm2_real A x (acc_zero _ _ _ HA) (acc_idem _ _ _ HA)), Hs. cbn [oadd]. unfold f_plus. rewrite Rplus_0_l, Hss, Hv. reflexivity. }
    split.
    - intros o (t & Ht & (k & ->) & ->). unfold reduction_of in Ht. cbn [leaves] in Ht.
      assert (k = 2)%N. { apply Permutation_length in Ht. rewrite !length_seqN in Ht. lia. } subst k. now rewrite K.
    - eexists. exists (RLeaf (seqN 2)). split; [apply reduction_exists|]. split; [now exists 2%N|reflexivity].
  Qed.
  Lemma certain_fails rnd64 ps c w : untouched_measured c -> (forall i, (i < 4)%N -> w_amp w i = all_zero i) -> (0 < length (w_reg w))%nat -> a_rnd A s = s ->
    1 < v \/ 0 <= v <= 1 /\ v <= w_rand w 0%nat ->
    runs (f_circuit_update A in_order rnd64 2 L ps c) w (fun o => o = HUndefined).
  Proof.
    intros (vf & t & g & m & Hg & Hm & ->) Hw Hr Hss Hcase. apply measurement_mask in Hm. destruct Hm as [_ ->].
    assert (Eg : g = EStd GH (GBase 1 0 0)). { assert (E : make vf (Call1 GH 0 [] []) = Ok (EStd GH (GBase 1 0 0))) by (destruct vf; reflexivity). rewrite E in Hg. now injection Hg. } subst g.
    unfold f_circuit_update. cbn [build fold_left build1 add_gate c_new c_gates c_conds app]. replace (required_n_qubits _ <=? 2)%N with true by reflexivity. cbn [hcheck].
    eapply returns_bind; [apply runs_ret; reflexivity|]. cbn [keys c_gates flat_map app forallb hcheck]. eapply returns_bind; [apply runs_ret; reflexivity|]. cbn [f_run_items checked_cond]. eapply returns_bind; [apply runs_ret; reflexivity|].
    unfold f_guarded_update at 1. cbn [item_mask hcheck]. replace (N.land 0 _ =? 0)%N with true by reflexivity. cbn [hcheck].
    eapply runs_bind_done.
    { eapply returns_bind; [apply runs_ret; reflexivity|]. cbn [f_item_update f_cgate_update]. unfold f_elem_update. cbn [f_update_plan g_base g_t g_c g_cv]. replace (within_bounds 2 _) with true by reflexivity. cbn [hlift].
      eapply runs_bind_done; [eapply returns_bind; [apply runs_ret; reflexivity|]; apply (plan_runs _ _ _ _ (half_updates w Hw))|].
      intros ? w1 Hp. apply runs_ret. instantiate (1 := fun m w1 => m = 0%N /\ _ w1). cbn. split; [reflexivity|exact Hp]. }
    cbn beta. intros m w1 (-> & Ha1 & Hr1 & Hd1 & _). eapply returns_bind; [apply runs_ret; reflexivity|].
    assert (Hrun : runs (f_guarded_update A in_order rnd64 2 L ps (IGate (CMeas (2 ^ 1) 0 false)) 0) w1 (fun o => o = HUndefined)).
    { unfold f_guarded_update. cbn [item_mask hcheck]. replace (N.land 0 _ =? 0)%N with true by reflexivity. cbn [hcheck]. eapply returns_bind; [apply runs_ret; reflexivity|].
      eapply (runs_bind _ _ w1 (fun o => o = HUndefined)); [|intros ? ? [=]|intros ? [=]|reflexivity].
      cbn [f_item_update f_cgate_update]. unfold f_measurement_update. replace (within_bounds 2 _) with true by reflexivity. cbn [hcheck].
      eapply returns_bind; [apply runs_ret; reflexivity|]. eapply returns_bind; [apply runs_get; reflexivity|]. rewrite Hr1. destruct (N.leb_spec (N.of_nat (length (w_reg w))) 0); [lia|]. cbn [negb hcheck].
      eapply returns_bind; [apply runs_ret; reflexivity|]. eapply (runs_bind _ _ w1 (fun o => o = HUndefined)); [|intros ? ? [=]|intros ? [=]|reflexivity].
      unfold f_apply_measurement_update. change (ctz (2 ^ 1)) with 1%N. eapply returns_bind; [apply (half_zero w1 Ha1 Hss)|].
      assert (Hu : runs (@hundefined world bool) w1 (fun o => o = HUndefined)) by (split; [intros o ->; reflexivity|eexists; reflexivity]).
      destruct Hcase as [Hc|[Hc Hd]].
      - eapply (runs_bind _ _ w1 (fun o => o = HUndefined)); [|intros ? ? [=]|intros ? [=]|reflexivity]. unfold hbernoulli. destruct (Rle_dec 0 v); [|exact Hu]. destruct (Rle_dec v 1); [lra|exact Hu].
      - eapply runs_bind_done; [apply bernoulli_runs; exact Hc|]. intros z w2 (Ez & Ew2). rewrite Hd1 in Ez. destruct (Rlt_dec _ _); [lra|]. subst z.
        assert (Hheld : held A (2 ^ 2) (w_amp w2)).
        { intros i Hi. rewrite Ew2. cbn. rewrite Ha1 by assumption. unfold half_state. destruct (i <? 2)%N; [split; cbn; [exact Hx|apply (acc_zero _ _ _ HA)]|apply (held_0 u eta A HA)]. }
        eapply runs_bind_done; [apply (project_exact u eta A HA 2 L ltac:(lia) HL 1 true w2 ltac:(lia) Hheld)|].
        intros _ w3 (Ha3 & _). assert (Z3 : forall i, (i < 2 ^ 2)%N -> w_amp w3 i = C0).
        { intros i Hi. rewrite Ha3 by assumption. unfold kept, shows_bit. rewrite Ew2. cbn [w_amp]. assert (Hc4 : (i = 0 \/ i = 1 \/ i = 2 \/ i = 3)%N) by (change (2 ^ 2)%N with 4%N in Hi; lia).
          destruct Hc4 as [->|[->|[->| ->]]]; cbn; try reflexivity; rewrite Ha1 by reflexivity; reflexivity. }
        eapply (runs_bind _ _ w3 (fun o => o = HUndefined)); [|intros ? ? [=]|intros ? [=]|reflexivity].
        unfold f_normalize. eapply runs_bind_done.
        { instantiate (1 := fun a w' => a = 0 /\ w' = w3). unfold f_get_squared_norm, f_sum_R. split.
          - intros o (tr & Ht & _ & ->). rewrite (reduce_pure 0 (f_plus A) (fun i => 0)).
            + cbn. split; [|reflexivity]. clear Ht. assert (E0 : f_plus A 0 0 = 0) by (unfold f_plus; rewrite Rplus_0_r; apply (acc_zero _ _ _ HA)).
              induction tr as [l|a IHa b IHb]; cbn [tsum]; [induction l as [|i l IH]; cbn; [reflexivity|rewrite E0; exact IH]|rewrite IHa, IHb; exact E0].
            + intros i Hi. assert (Hlt : (i < 2 ^ 2)%N). { apply in_seqN. unfold reduction_of in Ht. eapply Permutation_in; [exact Ht|exact Hi]. }
              unfold f_read_norm. cbn [rrun]. rewrite (proj2 (N.ltb_lt _ _) Hlt), Z3 by assumption. f_equal. change C0 with (RtoC 0). rewrite (norm2_real A 0 (acc_zero _ _ _ HA) (acc_idem _ _ _ HA)), Rmult_0_l. apply (acc_zero _ _ _ HA).
          - eexists. exists (RLeaf (seqN (2 ^ 2))). split; [apply reduction_exists|]. split; [now exists (2 ^ 2)%N|reflexivity]. }
        intros a w4 (-> & ->). rewrite (acc_zero _ _ _ HA), sqrt_0, (acc_zero _ _ _ HA). destruct (Req_EM_T 0 0) as [_|]; [|contradiction]. split; [intros o ->; reflexivity|eexists; reflexivity]. }
    eapply (runs_bind _ _ w1 (fun o => o = HUndefined)); [exact Hrun|intros ? ? [=]|intros ? [=]|reflexivity].
  Qed.
End Certain.
