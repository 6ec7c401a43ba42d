(** Proofs about Pauli operators and sums of them. *)
From Verif Require Export OperatorSpec.
From Verif Require Import BitsProofs IndexProofs PauliProofs GatesProofs GatesProofs2 GatesProofs6.
From Coq Require Import Permutation ZifyBool ZifyN ZifyNat.

(** ** Action of a Pauli operator in terms of masks *)
Lemma pauli_act_eq p psi x : pauli_act p psi x = (p_coef p * pauli_phase (p_bf p) (p_pf p) x * psi (N.lxor x (p_bf p)))%C.
Proof. unfold pauli_act. rewrite apply_mat_pauli by apply covers_bits. reflexivity. Qed.

(** ** Multiplication *)
Definition zpc (x : N) : Z := Z.of_N (popcount x).
Lemma zpc_div2 x : zpc x = (Z.b2z (N.odd x) + zpc (N.div2 x))%Z.
Proof. unfold zpc. rewrite popcount_div2, N2Z.inj_add. f_equal. now destruct (N.odd x). Qed.
Lemma div2_ldiff a b : N.div2 (N.ldiff a b) = N.ldiff (N.div2 a) (N.div2 b).
Proof. apply N.bits_inj. intros i. rewrite !N.div2_spec, !N.shiftr_spec', !N.ldiff_spec, !N.shiftr_spec'. reflexivity. Qed.
Lemma odd_ldiff a b : N.odd (N.ldiff a b) = N.odd a && negb (N.odd b).
Proof. rewrite <- !N.bit0_odd. apply N.ldiff_spec. Qed.
Lemma land_not64 a b : a < two64 -> N.land a (not64 b) = N.ldiff a b.
Proof.
  intros Ha. apply N.bits_inj. intros i. rewrite N.land_spec, N.ldiff_spec, not64_testbit.
  destruct (N.ltb_spec i 64); [now rewrite xorb_true_r|]. rewrite (lt_two64_tb a) by assumption. reflexivity.
Qed.
(** The quarter turns collected by operator* *)
Definition mul_cnt (b1 z1 b2 z2 : N) : Z :=
  let x1 := N.ldiff b1 z1 in let y1 := N.land b1 z1 in let w1 := N.ldiff z1 b1 in
  let x2 := N.ldiff b2 z2 in let y2 := N.land b2 z2 in let w2 := N.ldiff z2 b2 in
  (zpc (N.land x1 y2) + zpc (N.land y1 w2) + zpc (N.land w1 x2)
   - zpc (N.land x1 w2) - zpc (N.land y1 x2) - zpc (N.land w1 y2))%Z.
Lemma mul_cnt_ok (k : nat) : forall b1 z1 b2 z2, b1 < 2 ^ N.of_nat k -> z1 < 2 ^ N.of_nat k -> b2 < 2 ^ N.of_nat k -> z2 < 2 ^ N.of_nat k ->
  exists q, (zpc (N.land b1 z1) + zpc (N.land b2 z2) + 2 * zpc (N.land b1 z2) + mul_cnt b1 z1 b2 z2
             - zpc (N.land (N.lxor b1 b2) (N.lxor z1 z2)))%Z = (4 * q)%Z.
Proof.
  induction k as [|k IH]; intros b1 z1 b2 z2 H1 H2 H3 H4.
  - change (2 ^ N.of_nat 0) with 1 in *. assert (b1 = 0) by lia. assert (z1 = 0) by lia. assert (b2 = 0) by lia. assert (z2 = 0) by lia.
    subst. exists 0%Z. reflexivity.
  - rewrite Nat2N.inj_succ, N.pow_succ_r' in *.
    assert (Hd : forall x, x < 2 * 2 ^ N.of_nat k -> N.div2 x < 2 ^ N.of_nat k).
    { intros x Hx. rewrite N.div2_div. apply N.div_lt_upper_bound; lia. }
    destruct (IH (N.div2 b1) (N.div2 z1) (N.div2 b2) (N.div2 z2)) as [q Hq]; auto. clear IH.
    unfold mul_cnt in *. cbv zeta in *.
    rewrite !(zpc_div2 (N.land _ _)).
    repeat first [rewrite div2_land | rewrite odd_land | rewrite div2_ldiff | rewrite odd_ldiff | rewrite div2_lxor | rewrite odd_lxor].
    repeat match goal with |- context [zpc ?e] => generalize dependent (zpc e); intros end.
    destruct (N.odd b1), (N.odd z1), (N.odd b2), (N.odd z2); cbn [Z.b2z andb negb xorb] in *;
      first [exists q; lia | exists (q + 1)%Z; lia | exists (q - 1)%Z; lia].
Qed.
Lemma rot_90_m90 (c : Z) k : (exists q, (Z.of_N k + c = 4 * q)%Z) ->
  let r := Z.rem c 4 in let r := if (r <? 0)%Z then (r + 4)%Z else r in
  PHASE_90ROT (Z.to_N r) = mi_pow k.
Proof.
  intros [q Hq] r1 r.
  assert (Hr : r = (c mod 4)%Z).
  { unfold r, r1. pose proof (Z.quot_rem c 4 ltac:(lia)) as E. pose proof (Z.rem_bound_abs c 4 ltac:(lia)) as Hb.
    destruct (Z.ltb_spec (Z.rem c 4) 0); [apply (Z.mod_unique _ _ (Z.quot c 4 - 1)); lia|].
    apply (Z.mod_unique _ _ (Z.quot c 4)); lia. }
  rewrite Hr. unfold mi_pow.
  assert (Hk : Z.of_N (k mod 4) = ((- c) mod 4)%Z).
  { rewrite N2Z.inj_mod. replace (Z.of_N k) with (- c + q * 4)%Z by lia. now rewrite Z.mod_add. }
  assert (Hc : (c mod 4 = 0 \/ c mod 4 = 1 \/ c mod 4 = 2 \/ c mod 4 = 3)%Z) by (pose proof (Z.mod_pos_bound c 4); lia).
  pose proof (Z.mod_pos_bound c 4 ltac:(lia)). pose proof (Z.div_mod c 4 ltac:(lia)) as Ed.
  assert (Hm : k mod 4 = match (c mod 4)%Z with 0%Z => 0 | 1%Z => 3 | 2%Z => 2 | _ => 1 end).
  { destruct Hc as [E|[E|[E|E]]]; rewrite E in *; pose proof (Z.div_mod (-c) 4 ltac:(lia)); pose proof (Z.mod_pos_bound (-c) 4 ltac:(lia)); lia. }
  rewrite Hm. destruct Hc as [E|[E|[E|E]]]; rewrite E; reflexivity.
Qed.

Lemma pauli_mul_act a b psi x : pauli_u64 a -> pauli_u64 b ->
  pauli_act (pauli_mul a b) psi x = pauli_act a (pauli_act b psi) x.
Proof.
  intros [Ha1 Ha2] [Hb1 Hb2]. rewrite !pauli_act_eq. unfold pauli_mul. cbn [p_coef p_bf p_pf].
  rewrite !land_not64 by assumption.
  pose proof (mul_cnt_ok 64 (p_bf a) (p_pf a) (p_bf b) (p_pf b)) as Hc. change (N.of_nat 64) with 64 in Hc.
  destruct (Hc Ha1 Ha2 Hb1 Hb2) as [q Hq]. clear Hc.
  set (n1 := popcount (N.land (p_bf a) (p_pf a))) in *. set (n2 := popcount (N.land (p_bf b) (p_pf b))) in *.
  set (w := popcount (N.land (p_bf a) (p_pf b))) in *.
  set (n3 := popcount (N.land (N.lxor (p_bf a) (p_bf b)) (N.lxor (p_pf a) (p_pf b)))) in *.
  change ((Z.of_N n1 + Z.of_N n2 + 2 * Z.of_N w + mul_cnt (p_bf a) (p_pf a) (p_bf b) (p_pf b) - Z.of_N n3)%Z = (4 * q)%Z) in Hq.
  change (Z.of_N (popcount (N.land (N.ldiff (p_bf a) (p_pf a)) (N.land (p_bf b) (p_pf b)))) + _ + _ - _ - _ - _)%Z
    with (mul_cnt (p_bf a) (p_pf a) (p_bf b) (p_pf b)).
  (* (-i)^(n1 + n2 + 2 w) = PHASE_90ROT cnt * (-i)^n3 *)
  assert (E : (mi_pow n1 * mi_pow n2 * mi_pow (2 * w))%C =
              (PHASE_90ROT (Z.to_N (let r := Z.rem (mul_cnt (p_bf a) (p_pf a) (p_bf b) (p_pf b)) 4 in if (r <? 0)%Z then (r + 4)%Z else r)) * mi_pow n3)%C).
  { rewrite (rot_90_m90 _ (n1 + n2 + 2 * w + 3 * n3)).
    - rewrite !mi_pow_add. transitivity (mi_pow n1 * mi_pow n2 * mi_pow (2 * w) * (mi_pow (4 * n3)))%C.
      + assert (E4 : mi_pow (4 * n3) = C1) by (unfold mi_pow; rewrite N.mul_comm, N.mod_mul by lia; reflexivity). rewrite E4. ring.
      + replace (4 * n3) with (3 * n3 + n3) by lia. rewrite mi_pow_add. ring.
    - exists (q + Z.of_N n3)%Z. lia. }
  unfold pauli_phase. fold n1 n2 n3. rewrite land_lxor_distr, pauli_sign_mul.
  rewrite (N.land_comm x (N.lxor _ _)), land_lxor_distr, pauli_sign_mul, !(N.land_comm _ x).
  rewrite mi_pow_double in E. assert (Ew : pauli_sign (N.land (p_bf a) (p_pf b)) = if N.odd w then (- C1)%C else C1) by reflexivity.
  rewrite Ew. rewrite N.lxor_assoc. cbv zeta in E. cbv zeta.
  set (P := PHASE_90ROT _) in *. clearbody P. set (W := if N.odd w then (- C1)%C else C1) in *. clearbody W. ring [E].
Qed.
Lemma lxor_lt_pow2 a b n : a < 2 ^ n -> b < 2 ^ n -> N.lxor a b < 2 ^ n.
Proof.
  intros Ha Hb. apply lt_pow2_testbit. intros i Hi. rewrite N.lxor_spec, (testbit_high a n), (testbit_high b n) by assumption. reflexivity.
Qed.
Lemma pauli_mul_u64 a b : pauli_u64 a -> pauli_u64 b -> pauli_u64 (pauli_mul a b).
Proof. unfold pauli_u64, two64. intros [? ?] [? ?]. split; apply lxor_lt_pow2; assumption. Qed.
Lemma pauli_mul_fits n a b : pauli_fits n a -> pauli_fits n b -> pauli_fits n (pauli_mul a b).
Proof. intros [? ?] [? ?]. split; apply lxor_lt_pow2; assumption. Qed.
Lemma pauli_act_ext p psi phi x : (forall y, psi y = phi y) -> pauli_act p psi x = pauli_act p phi x.
Proof. intros H. now rewrite !pauli_act_eq, H. Qed.
(** The action determines the coefficient. *)
Lemma pauli_act_inj a b : p_bf a = p_bf b -> p_pf a = p_pf b -> (forall psi x, pauli_act a psi x = pauli_act b psi x) -> a = b.
Proof.
  intros H1 H2 H. specialize (H (fun _ => C1) 0). rewrite !pauli_act_eq, H1, H2 in H.
  pose proof (pauli_phase_unit (p_bf b) (p_pf b) 0) as Hu. destruct a as [ca ba za], b as [cb bb zb]. cbn [p_bf p_pf p_coef] in *. subst. f_equal.
  assert (E : (ca * pauli_phase bb zb 0 = cb * pauli_phase bb zb 0)%C) by (rewrite !Cmul_1_r in H; exact H).
  transitivity (ca * (Cconj (pauli_phase bb zb 0) * pauli_phase bb zb 0))%C; [rewrite Hu; ring|].
  transitivity (Cconj (pauli_phase bb zb 0) * (ca * pauli_phase bb zb 0))%C; [ring|]. rewrite E.
  transitivity (cb * (Cconj (pauli_phase bb zb 0) * pauli_phase bb zb 0))%C; [ring|]. rewrite Hu. ring.
Qed.
Lemma pauli_mul_assoc a b c : pauli_u64 a -> pauli_u64 b -> pauli_u64 c ->
  pauli_mul (pauli_mul a b) c = pauli_mul a (pauli_mul b c).
Proof.
  intros Ha Hb Hc. apply pauli_act_inj; [apply N.lxor_assoc|apply N.lxor_assoc|]. intros psi x.
  rewrite !pauli_mul_act by auto using pauli_mul_u64. apply pauli_act_ext. intros y. now rewrite pauli_mul_act by auto.
Qed.
Definition pauli_one : pauli := Pauli C1 0 0.
Lemma pauli_one_u64 : pauli_u64 pauli_one. Proof. split; reflexivity. Qed.
Lemma pauli_one_act psi x : pauli_act pauli_one psi x = psi x.
Proof.
  rewrite pauli_act_eq. cbn [pauli_one p_bf p_pf p_coef]. unfold pauli_phase. rewrite !N.land_0_r, N.lxor_0_r.
  change (popcount 0) with 0. rewrite mi_pow_0. unfold pauli_sign. change (parity 0) with false. cbv iota. ring.
Qed.
Lemma pauli_mul_1_l a : pauli_u64 a -> pauli_mul pauli_one a = a.
Proof.
  intros Ha. apply pauli_act_inj; [apply N.lxor_0_l|apply N.lxor_0_l|]. intros psi x.
  rewrite pauli_mul_act by auto using pauli_one_u64. apply pauli_one_act.
Qed.
Lemma pauli_mul_1_r a : pauli_u64 a -> pauli_mul a pauli_one = a.
Proof.
  intros Ha. apply pauli_act_inj; [apply N.lxor_0_r|apply N.lxor_0_r|]. intros psi x.
  rewrite pauli_mul_act by auto using pauli_one_u64. apply pauli_act_ext. intros y. apply pauli_one_act.
Qed.
Lemma pauli_scale_act p c psi x : pauli_act (pauli_scale p c) psi x = (c * pauli_act p psi x)%C.
Proof. rewrite !pauli_act_eq. unfold pauli_scale. cbn [p_coef p_bf p_pf]. ring. Qed.

(** ** Adjoint *)
Lemma fits_ops n p : pauli_fits n p -> wf_ops n (bits (N.lor (p_bf p) (p_pf p))) [].
Proof.
  intros [H1 H2]. split; rewrite app_nil_r; [apply bits_NoDup|]. apply bits_lt. apply lt_pow2_testbit. intros i Hi.
  rewrite N.lor_spec, (testbit_high _ n), (testbit_high _ n) by assumption. reflexivity.
Qed.
Lemma pauli_dagger_adjoint n p phi psi : pauli_fits n p ->
  inner n (pauli_act (pauli_dagger p) phi) psi = inner n phi (pauli_act p psi).
Proof.
  intros Hf. unfold pauli_act at 1. cbn [pauli_dagger p_bf p_pf p_coef]. rewrite apply_mat_adjoint by now apply fits_ops.
  apply Csum_ext. intros x _. f_equal. unfold pauli_act. apply apply_mat_ext_mat. intros i j Hi Hj.
  unfold mat_adj. rewrite Cconj_mul, Cconj_invol. f_equal. rewrite bits_length in *.
  apply (pauli_hermitian (p_bf p) (p_pf p) i j Hi Hj).
Qed.

(** ** Sums over pairs of basis states *)
Lemma pair_sum n bf f : n <= 63 -> bf <> 0 -> bf < 2 ^ n ->
  let b0 i := insert_zero_to_basis_index i (bit_width bf - 1) in
  Csum (2 ^ n) f = Csum (N.shiftr (2 ^ n) 1) (fun i => (f (b0 i) + f (N.lxor (b0 i) bf))%C).
Proof.
  intros Hn Hb Hlt b0. destruct (pivot_spec bf Hb) as [Hq Hlog]. set (q := bit_width bf - 1) in *.
  assert (Hqn : q < n) by (rewrite Hlog; apply N.log2_lt_pow2; lia).
  pose proof (enumeration_one_exact n q Hn Hqn) as HP.
  unfold Csum at 2. rewrite <- (Csuml_map b0 (fun a => (f a + f (N.lxor a bf))%C)). unfold b0.
  rewrite (Csuml_perm _ _ _ HP), Csuml_add. unfold Csum.
  transitivity (Csuml f (filter (fun i => negb (N.testbit i q)) (seqN (2 ^ n))) + Csuml f (filter (fun i => N.testbit i q) (seqN (2 ^ n))))%C.
  - rewrite <- !Csuml_filter, <- Csuml_add. apply Csuml_ext. intros x _. destruct (N.testbit x q); simpl; ring.
  - f_equal. rewrite <- (Csuml_map (fun a => N.lxor a bf) f). apply Csuml_perm.
    assert (Hinv : forall a, N.lxor (N.lxor a bf) bf = a) by (intros a; now rewrite N.lxor_assoc, N.lxor_nilpotent, N.lxor_0_r).
    apply NoDup_Permutation.
    + apply NoDup_filter, NoDup_seqN.
    + apply NoDup_map_inj; [|apply NoDup_filter, NoDup_seqN]. intros x y _ _ E. rewrite <- (Hinv x), E. apply Hinv.
    + intros a. rewrite in_map_iff. setoid_rewrite filter_In. setoid_rewrite in_seqN. split.
      * intros [Ha Ht]. exists (N.lxor a bf). split; [apply Hinv|]. split; [now apply lxor_lt_pow2|].
        rewrite N.lxor_spec, Ht, Hq. reflexivity.
      * intros (x & <- & Hx & Ht). split; [now apply lxor_lt_pow2|]. rewrite N.lxor_spec, Hq. now destruct (N.testbit x q).
Qed.
Lemma even_sum n f : 0 < n -> n <= 63 ->
  Csum (2 ^ n) f = Csum (N.shiftr (2 ^ n) 1) (fun i => (f (shl64 i 1) + f (N.lor (shl64 i 1) 1))%C).
Proof.
  intros Hn Hn'.
  assert (Ep : N.shiftr (2 ^ n) 1 = 2 ^ (n - 1)) by (rewrite N.shiftr_div_pow2; replace n with (n - 1 + 1) at 1 by lia; rewrite N.pow_add_r, N.div_mul; [reflexivity|discriminate]).
  rewrite Ep.
  assert (Hs : forall i, i < 2 ^ (n - 1) -> shl64 i 1 = 2 * i).
  { intros i Hi. unfold shl64. rewrite N.shiftl_mul_pow2. change (2 ^ 1) with 2. rewrite wrap_small; [lia|].
    assert (2 ^ (n - 1) <= 2 ^ 62) by (apply N.pow_le_mono_r; lia). change (2 ^ 62) with (2 ^ 61 * 2) in *. unfold two64. change (2 ^ 64) with (2 ^ 61 * 8). lia. }
  rewrite (Csum_ext (2 ^ (n - 1)) _ (fun i => (f (2 * i)%N + f (2 * i + 1)%N)%C)).
  2:{ intros i Hi. rewrite Hs by assumption. f_equal. f_equal. apply N.bits_inj. intros k.
      rewrite N.lor_spec, one_tb. destruct (N.eqb_spec k 0) as [E|E].
      - subst. rewrite orb_true_r. symmetry. apply N.testbit_odd_0.
      - rewrite orb_false_r. replace k with (N.succ (k - 1)) by lia. now rewrite N.testbit_even_succ, N.testbit_odd_succ by lia. }
  replace (2 ^ n) with (2 * 2 ^ (n - 1)) by (replace n with (1 + (n - 1)) at 2 by lia; rewrite N.pow_add_r; reflexivity).
  generalize (2 ^ (n - 1)). intros m. induction m as [|m IH] using N.peano_ind; [reflexivity|].
  rewrite Csum_succ, <- IH. replace (2 * N.succ m) with (N.succ (N.succ (2 * m))) by lia. rewrite !Csum_succ.
  replace (N.succ (2 * m)) with (2 * m + 1) by lia. ring.
Qed.

(** ** Phases *)
Lemma flipC_sign x v : flipC x v = (pauli_sign x * v)%C.
Proof. unfold flipC, pauli_sign. destruct (parity x); ring. Qed.
Lemma flipR_sign x r : RtoC (flipR x r) = (pauli_sign x * RtoC r)%C.
Proof. unfold flipR, pauli_sign. destruct (parity x); [rewrite RtoC_opp|]; ring. Qed.
Lemma RtoC_Re2 z : RtoC (Re (Cscale 2 z)) = (z + Cconj z)%C.
Proof. Csolve. Qed.
Lemma RtoC_Re_norm v : RtoC (Re (Cconj v * v)%C) = (Cconj v * v)%C.
Proof. Csolve. Qed.
Lemma phase90_conj bf pf : Cconj (phase90 bf pf) = mi_pow (popcount (N.land bf pf)).
Proof.
  unfold phase90, mi_pow. destruct (mod4_cases (popcount (N.land bf pf))) as [E|[E|[E|E]]]; rewrite E; cbn; Csolve.
Qed.
Lemma odd_mod4 k : N.odd (k mod 4) = N.odd k.
Proof.
  rewrite (N.div_mod' k 4) at 2. replace (4 * (k / 4) + k mod 4) with (k mod 4 + 2 * (2 * (k / 4))) by lia. now rewrite N.odd_add_mul_2.
Qed.
Lemma phase90_eq bf pf : phase90 bf pf = (mi_pow (popcount (N.land bf pf)) * pauli_sign (N.land bf pf))%C.
Proof.
  unfold phase90, mi_pow, pauli_sign, parity. rewrite <- odd_mod4.
  destruct (mod4_cases (popcount (N.land bf pf))) as [E|[E|[E|E]]]; rewrite E; cbn; Csolve.
Qed.
Lemma pauli_sign_sq x : (pauli_sign x * pauli_sign x)%C = C1.
Proof. unfold pauli_sign. destruct (parity x); ring. Qed.
Lemma pauli_sign_conj x : Cconj (pauli_sign x) = pauli_sign x.
Proof. unfold pauli_sign. destruct (parity x); Csolve. Qed.
Lemma phase_low bf pf b : pauli_phase bf pf b = (phase90 bf pf * pauli_sign (N.land (N.lxor b bf) pf))%C.
Proof.
  unfold pauli_phase. rewrite phase90_eq, land_lxor_distr, pauli_sign_mul. ring [(pauli_sign_sq (N.land bf pf))].
Qed.
Lemma phase_high bf pf b : pauli_phase bf pf (N.lxor b bf) = (phase90 bf pf * pauli_sign (N.land b pf))%C.
Proof.
  unfold pauli_phase. rewrite phase90_eq, land_lxor_distr, pauli_sign_mul. ring.
Qed.
Lemma phase_diag pf b : pauli_phase 0 pf b = pauli_sign (N.land b pf).
Proof. unfold pauli_phase. rewrite N.land_0_l. change (popcount 0) with 0. rewrite mi_pow_0. ring. Qed.

(** ** Bounds of the indices used by the loops over pairs *)
Lemma pair_idx_lt n bf i : n <= 63 -> bf <> 0 -> bf < 2 ^ n -> i < N.shiftr (2 ^ n) 1 ->
  let b0 := insert_zero_to_basis_index i (bit_width bf - 1) in b0 < 2 ^ n /\ N.lxor b0 bf < 2 ^ n.
Proof.
  intros Hn Hb Hlt Hi b0. destruct (pivot_spec bf Hb) as [Hq Hlog].
  assert (Hqn : bit_width bf - 1 < n) by (rewrite Hlog; apply N.log2_lt_pow2; lia).
  pose proof (enumeration_one_exact n _ Hn Hqn) as HP.
  assert (H : b0 < 2 ^ n).
  { assert (Hin : In b0 (map (fun it => insert_zero_to_basis_index it (bit_width bf - 1)) (seqN (N.shiftr (2 ^ n) 1)))).
    { apply in_map_iff. exists i. split; [reflexivity|]. now apply in_seqN. }
    apply (Permutation_in _ HP) in Hin. apply filter_In in Hin. now apply in_seqN. }
  split; [assumption|]. now apply lxor_lt_pow2.
Qed.
Lemma even_idx_lt n i : 0 < n -> n <= 63 -> i < N.shiftr (2 ^ n) 1 -> shl64 i 1 < 2 ^ n /\ N.lor (shl64 i 1) 1 < 2 ^ n.
Proof.
  intros Hn Hn' Hi.
  assert (Hi' : 2 * i + 1 < 2 ^ n).
  { assert (E : 2 ^ n = 2 * 2 ^ (n - 1)) by (replace n with (1 + (n - 1)) at 1 by lia; rewrite N.pow_add_r; reflexivity).
    rewrite E in *. rewrite N.shiftr_div_pow2 in Hi. change (2 ^ 1) with 2 in Hi. rewrite N.mul_comm, N.div_mul in Hi by discriminate. lia. }
  assert (Hs : shl64 i 1 = 2 * i).
  { unfold shl64. rewrite N.shiftl_mul_pow2. change (2 ^ 1) with 2. rewrite wrap_small; [lia|].
    assert (2 ^ n <= two64) by (unfold two64; apply N.pow_le_mono_r; lia). lia. }
  rewrite Hs. split; [lia|]. apply lt_pow2_testbit. intros k Hk.
  rewrite N.lor_spec, (testbit_high (2 * i) n), one_tb by lia. destruct (N.eqb_spec k 0); [lia|reflexivity].
Qed.
Lemma ltb_true a b : a < b -> (a <? b) = true. Proof. lia. Qed.

(** ** Expectation value and transition amplitude of one Pauli operator *)
Section PauliObs.
  Variables (p : pauli) (n : N).
  Hypothesis Hn : n <= 63.
  Hypothesis Hfit : pauli_fits n p.

  Lemma pauli_expectation_correct psi t : reduction_of (expect_iters p (2 ^ n)) t ->
    pauli_expectation p (2 ^ n) psi t = Some (inner n psi (pauli_act p psi)).
  Proof.
    intros Ht. unfold pauli_expectation, expect_iters in *. destruct Hfit as [Hb Hp].
    assert (E : exists v, rreduce (fun i => rrun (fun a => a <? 2 ^ n) psi (if p_bf p =? 0 then expect_diag p i else expect_pair p i)) t = Some v /\
      RtoC v = Csum (2 ^ n) (fun x => (Cconj (psi x) * pauli_phase (p_bf p) (p_pf p) x * psi (N.lxor x (p_bf p)))%C)).
    { destruct (N.eqb_spec (p_bf p) 0) as [E|E].
      - destruct (rreduce_correct (fun i => rrun (fun a => a <? 2 ^ n) psi (expect_diag p i))
          (fun i => flipR (N.land i (p_pf p)) (Re (Cconj (psi i) * psi i)%C)) _ t Ht) as (v & Hv & Ev).
        { intros i Hi. apply in_seqN in Hi. simpl. now rewrite ltb_true. }
        exists v. split; [exact Hv|]. rewrite Ev. apply Csum_ext. intros x Hx.
        rewrite flipR_sign, RtoC_Re_norm, E, phase_diag, N.lxor_0_r. ring.
      - destruct (rreduce_correct (fun i => rrun (fun a => a <? 2 ^ n) psi (expect_pair p i))
          (fun i => let b0 := insert_zero_to_basis_index i (bit_width (p_bf p) - 1) in
            flipR (N.land b0 (p_pf p)) (Re (Cscale 2 (psi b0 * Cconj (psi (N.lxor b0 (p_bf p))) * phase90 (p_bf p) (p_pf p))%C))) _ t Ht) as (v & Hv & Ev).
        { intros i Hi. apply in_seqN in Hi. destruct (pair_idx_lt n (p_bf p) i Hn E Hb Hi) as [H1 H2]. simpl. now rewrite !ltb_true. }
        exists v. split; [exact Hv|]. rewrite Ev, (pair_sum n (p_bf p)) by assumption. apply Csum_ext. intros i Hi. cbv zeta.
        rewrite flipR_sign, RtoC_Re2. set (b0 := insert_zero_to_basis_index _ _).
        rewrite !Cconj_mul, Cconj_invol, phase90_conj, phase_high.
        rewrite N.lxor_assoc, N.lxor_nilpotent, N.lxor_0_r. unfold pauli_phase at 1. ring. }
    destruct E as (v & Hv & Ev). rewrite Hv. cbn [option_map]. f_equal. rewrite Ev, <- Csum_mul_l.
    apply Csum_ext. intros x _. rewrite pauli_act_eq. ring.
  Qed.

  Lemma pauli_transition_correct bra ket t : reduction_of (expect_iters p (2 ^ n)) t ->
    pauli_transition p (2 ^ n) (2 ^ n) bra ket t = Some (inner n bra (pauli_act p ket)).
  Proof.
    intros Ht. unfold pauli_transition, expect_iters in *. destruct Hfit as [Hb Hp].
    destruct (N.eqb_spec (p_bf p) 0) as [E|E].
    - rewrite (creduce_correct _ (fun i => flipC (N.land i (p_pf p)) (Cconj (bra i) * ket i)%C) _ t Ht).
      + cbn [option_map]. f_equal. fold (Csum (2 ^ n) (fun i => flipC (N.land i (p_pf p)) (Cconj (bra i) * ket i)%C)).
        rewrite <- Csum_mul_l. apply Csum_ext. intros x _. rewrite flipC_sign, pauli_act_eq, E, phase_diag, N.lxor_0_r. ring.
      + intros i Hi. apply in_seqN in Hi. simpl. now rewrite ltb_true.
    - rewrite (creduce_correct _ (fun i => let b0 := insert_zero_to_basis_index i (bit_width (p_bf p) - 1) in
          let b1 := N.lxor b0 (p_bf p) in
          (flipC (N.land b0 (p_pf p)) (Cconj (bra b1) * ket b0 * phase90 (p_bf p) (p_pf p))%C
           + flipC (N.land b1 (p_pf p)) (Cconj (bra b0) * ket b1 * phase90 (p_bf p) (p_pf p))%C)%C) _ t Ht).
      + cbn [option_map]. f_equal. unfold inner. rewrite (pair_sum n (p_bf p)) by assumption. unfold Csum. rewrite <- Csuml_mul_l.
        apply Csuml_ext. intros i _. cbv zeta. rewrite !flipC_sign, !pauli_act_eq.
        set (b0 := insert_zero_to_basis_index _ _). rewrite phase_high, (phase_low _ _ b0).
        rewrite N.lxor_assoc, N.lxor_nilpotent, N.lxor_0_r. ring.
      + intros i Hi. apply in_seqN in Hi. destruct (pair_idx_lt n (p_bf p) i Hn E Hb Hi) as [H1 H2]. simpl. now rewrite !ltb_true.
  Qed.
End PauliObs.

(** ** apply_to_state *)
Lemma pauli_kernel_act p n psi : n <= 63 -> pauli_fits n p ->
  kcomputes N.eqb (fun a => a <? 2 ^ n) (apply_pauli (2 ^ n) 0 0 (p_bf p) (p_pf p) (p_coef p)) psi
    (fun a => if a <? 2 ^ n then pauli_act p psi a else psi a).
Proof.
  intros Hn [Hb Hp]. pose proof (apply_pauli_computes n 1 (p_bf p) (p_pf p) 0 0) as H.
  replace (1 * 2 ^ n) with (2 ^ n) in H by lia.
  unfold kcomputes. eapply par_computes_ext; [|apply H]; try assumption; try lia.
  - intros a. cbv beta. destruct (a <? 2 ^ n); [|reflexivity]. rewrite N.land_0_r. cbn [N.eqb]. symmetry. apply pauli_act_eq.
  - unfold two64. apply N.pow_le_mono_r; lia.
  - apply N.land_0_r.
  - apply N.land_0_l.
Qed.

Lemma Csuml_terms (f : pauli -> C) (l : list pauli) d :
  Csuml (fun i => f (nth (N.to_nat i) l d)) (seqN (N.of_nat (length l))) = Csuml f l.
Proof.
  unfold seqN. rewrite Csuml_map, Nnat.Nat2N.id. 
  rewrite (Csuml_ext _ (fun k => f (nth k l d))) by (intros; now rewrite Nnat.Nat2N.id).
  induction l as [|a l IH]; [reflexivity|]. cbn [length seq].
  change (Csuml (fun k => f (nth k (a :: l) d)) (0%nat :: seq 1 (length l))) with (f a + Csuml (fun k => f (nth k (a :: l) d)) (seq 1 (length l)))%C.
  rewrite <- seq_shift, Csuml_map. cbn [nth]. rewrite IH. reflexivity.
Qed.
Lemma term_in o i : i < N.of_nat (length (o_terms o)) -> In (term o i) (o_terms o).
Proof. intros H. apply nth_In. lia. Qed.
Lemma existsb_false {T} (f : T -> bool) l : (forall x, In x l -> f x = false) -> existsb f l = false.
Proof. induction l as [|a l IH]; intros H; simpl; [reflexivity|]. rewrite H by now left. apply IH. intros; apply H; now right. Qed.

Section OpObs.
  Variables (o : operator) (n : N).
  Hypothesis Hn : n <= 63.
  Hypothesis Hfit : op_fits n o.
  Lemma term_fits i : i < N.of_nat (length (o_terms o)) -> pauli_fits n (term o i).
  Proof. intros H. unfold op_fits in Hfit. rewrite Forall_forall in Hfit. now apply Hfit, term_in. Qed.

  Definition trees_ok (trees : N -> rtree N) : Prop :=
    forall i, reduction_of (seqN (N.of_nat (length (o_terms o)))) (trees i).

  Lemma op_apply_to_state_safe psi scheds trees : trees_ok trees ->
    match op_apply_to_state o (2 ^ n) psi scheds trees with
    | Finished r => forall i, i < 2 ^ n -> r i = Some (op_act o psi i)
    | Unfinished => True
    | OutOfBounds | DataRace => False
    end.
  Proof.
    intros Ht. unfold op_apply_to_state. cbv zeta.
    set (run := fun b => run_kernels N.eqb (fun a => a <? 2 ^ n) [apply_pauli (2 ^ n) 0 0 (p_bf (term o b)) (p_pf (term o b)) (p_coef (term o b))] [scheds b] psi).
    assert (Hrun : forall b, b < N.of_nat (length (o_terms o)) ->
      match run b with Finished r => forall a, r a = if a <? 2 ^ n then pauli_act (term o b) psi a else psi a | Unfinished => True | _ => False end).
    { intros b Hb. destruct (pauli_kernel_act (term o b) n psi Hn (term_fits b Hb)) as [H _].
      unfold run. simpl. specialize (H (scheds b)). destruct (parallel_for _ _ _ _ _ _); auto. }
    rewrite existsb_false.
    2:{ intros b Hb. apply in_seqN in Hb. specialize (Hrun b Hb). fold (run b). destruct (run b); tauto. }
    rewrite existsb_false.
    2:{ intros b Hb. apply in_seqN in Hb. specialize (Hrun b Hb). fold (run b). destruct (run b); tauto. }
    destruct (existsb _ _) eqn:E; [exact I|]. intros i Hi.
    rewrite (creduce_correct _ (fun b => pauli_act (term o b) psi i) _ (trees i) (Ht i)).
    - f_equal. apply (Csuml_terms (fun p => pauli_act p psi i)).
    - intros b Hb. apply in_seqN in Hb as Hb'. specialize (Hrun b Hb'). fold (run b).
      destruct (run b) eqn:E'.
      + rewrite Hrun, ltb_true by assumption. reflexivity.
      + rewrite <- not_true_iff_false in E. exfalso. apply E. apply existsb_exists. exists b. split; [assumption|]. fold (run b). now rewrite E'.
      + contradiction.
      + contradiction.
  Qed.
  Lemma op_apply_to_state_live psi trees : exists scheds r, op_apply_to_state o (2 ^ n) psi scheds trees = Finished r.
  Proof.
    assert (H : forall b, exists s, b < N.of_nat (length (o_terms o)) -> exists r,
      run_kernels N.eqb (fun a => a <? 2 ^ n) [apply_pauli (2 ^ n) 0 0 (p_bf (term o b)) (p_pf (term o b)) (p_coef (term o b))] [s] psi = Finished r).
    { intros b. destruct (N.lt_ge_cases b (N.of_nat (length (o_terms o)))) as [Hb|Hb]; [|exists []; lia].
      destruct (pauli_kernel_act (term o b) n psi Hn (term_fits b Hb)) as [_ (s & r & H)].
      exists s. intros _. exists r. simpl. rewrite H. reflexivity. }
    assert (H' : exists scheds : N -> list N, forall b, b < N.of_nat (length (o_terms o)) -> exists r,
      run_kernels N.eqb (fun a => a <? 2 ^ n) [apply_pauli (2 ^ n) 0 0 (p_bf (term o b)) (p_pf (term o b)) (p_coef (term o b))] [scheds b] psi = Finished r).
    { clear trees. generalize (N.of_nat (length (o_terms o))) as k, H. clear H. intros k H.
      assert (G : forall m, exists scheds : N -> list N, forall b, b < m -> b < k -> exists r,
        run_kernels N.eqb (fun a => a <? 2 ^ n) [apply_pauli (2 ^ n) 0 0 (p_bf (term o b)) (p_pf (term o b)) (p_coef (term o b))] [scheds b] psi = Finished r).
      { induction m as [|m [f IH]] using N.peano_ind.
        - exists (fun _ => []). lia.
        - destruct (H m) as [s Hs]. exists (fun b => if b =? m then s else f b). intros b Hb Hk.
          destruct (b =? m) eqn:E; [apply N.eqb_eq in E; subst; auto|]. apply IH; lia. }
      destruct (G k) as [f Hf]. exists f. auto. }
    destruct H' as [scheds Hs]. exists scheds. unfold op_apply_to_state. cbv zeta.
    rewrite !existsb_false; [eexists; reflexivity| | |];
      intros b Hb; apply in_seqN in Hb; destruct (Hs b Hb) as [r Hr]; rewrite Hr; reflexivity.
  Qed.

  (** the summand of the loops over (term, pair) *)
  Lemma op_expect_pairs psi p : 0 < n -> pauli_fits n p -> exists g,
    (forall i, i < N.shiftr (2 ^ n) 1 -> forall b, term o b = p -> rrun (fun a => a <? 2 ^ n) psi (op_expect_body o (b, i)) = Some (g i)) /\
    Csum (N.shiftr (2 ^ n) 1) g = inner n psi (pauli_act p psi).
  Proof.
    intros Hn0 [Hb Hp]. destruct (N.eq_dec (p_bf p) 0) as [E|E].
    - exists (fun i => (p_coef p * (pauli_sign (N.land (shl64 i 1) (p_pf p)) * (Cconj (psi (shl64 i 1)) * psi (shl64 i 1))
        + pauli_sign (N.land (N.lor (shl64 i 1) 1) (p_pf p)) * (Cconj (psi (N.lor (shl64 i 1) 1)) * psi (N.lor (shl64 i 1) 1))))%C).
      split.
      + intros i Hi b Eb. destruct (even_idx_lt n i Hn0 Hn Hi) as [H1 H2].
        unfold op_expect_body. cbn [fst snd]. rewrite Eb, E. change (0 =? 0) with true. cbv iota zeta. cbn [rrun]. rewrite !ltb_true by assumption.
        f_equal. f_equal. rewrite RtoC_add, !flipR_sign, !RtoC_Re_norm. reflexivity.
      + unfold inner. rewrite (even_sum n) by assumption. apply Csum_ext. intros i _. cbv beta.
        rewrite !pauli_act_eq, E, !phase_diag, !N.lxor_0_r. ring.
    - exists (fun i => let b0 := insert_zero_to_basis_index i (bit_width (p_bf p) - 1) in
         (p_coef p * RtoC (flipR (N.land b0 (p_pf p)) (Re (Cscale 2 (psi b0 * Cconj (psi (N.lxor b0 (p_bf p))) * phase90 (p_bf p) (p_pf p))%C))))%C).
      split.
      + intros i Hi b Eb. destruct (pair_idx_lt n (p_bf p) i Hn E Hb Hi) as [H1 H2].
        unfold op_expect_body. cbn [fst snd]. rewrite Eb. destruct (N.eqb_spec (p_bf p) 0); [contradiction|]. cbv zeta.
        cbn [rrun]. now rewrite !ltb_true.
      + unfold inner. rewrite (pair_sum n (p_bf p)) by assumption. apply Csum_ext. intros i _. cbv zeta.
        rewrite flipR_sign, RtoC_Re2, !pauli_act_eq. set (b0 := insert_zero_to_basis_index _ _).
        rewrite !Cconj_mul, Cconj_invol, phase90_conj, phase_high.
        rewrite N.lxor_assoc, N.lxor_nilpotent, N.lxor_0_r. unfold pauli_phase. ring.
  Qed.
  Lemma op_trans_pairs bra ket p : 0 < n -> pauli_fits n p -> exists g,
    (forall i, i < N.shiftr (2 ^ n) 1 -> forall b, term o b = p -> rrun (fun a : addr2 => snd a <? 2 ^ n) (bra_ket bra ket) (op_trans_body o (b, i)) = Some (g i)) /\
    Csum (N.shiftr (2 ^ n) 1) g = inner n bra (pauli_act p ket).
  Proof.
    intros Hn0 [Hb Hp]. destruct (N.eq_dec (p_bf p) 0) as [E|E].
    - exists (fun i => (p_coef p * (pauli_sign (N.land (shl64 i 1) (p_pf p)) * (Cconj (bra (shl64 i 1)) * ket (shl64 i 1))
        + pauli_sign (N.land (N.lor (shl64 i 1) 1) (p_pf p)) * (Cconj (bra (N.lor (shl64 i 1) 1)) * ket (N.lor (shl64 i 1) 1))))%C).
      split.
      + intros i Hi b Eb. destruct (even_idx_lt n i Hn0 Hn Hi) as [H1 H2].
        unfold op_trans_body. cbn [fst snd]. rewrite Eb, E. change (0 =? 0) with true. cbv iota zeta. cbn [rrun snd fst]. rewrite !ltb_true by assumption.
        rewrite !flipC_sign. reflexivity.
      + unfold inner. rewrite (even_sum n) by assumption. apply Csum_ext. intros i _. cbv beta.
        rewrite !pauli_act_eq, E, !phase_diag, !N.lxor_0_r. ring.
    - exists (fun i => let b0 := insert_zero_to_basis_index i (bit_width (p_bf p) - 1) in let b1 := N.lxor b0 (p_bf p) in
         (p_coef p * (flipC (N.land b0 (p_pf p)) (Cconj (bra b1) * ket b0 * phase90 (p_bf p) (p_pf p))%C
           + flipC (N.land b1 (p_pf p)) (Cconj (bra b0) * ket b1 * phase90 (p_bf p) (p_pf p))%C))%C).
      split.
      + intros i Hi b Eb. destruct (pair_idx_lt n (p_bf p) i Hn E Hb Hi) as [H1 H2].
        unfold op_trans_body. cbn [fst snd]. rewrite Eb. destruct (N.eqb_spec (p_bf p) 0); [contradiction|]. cbv zeta.
        cbn [rrun snd fst]. now rewrite !ltb_true.
      + unfold inner. rewrite (pair_sum n (p_bf p)) by assumption. apply Csum_ext. intros i _. cbv zeta.
        rewrite !flipC_sign, !pauli_act_eq. set (b0 := insert_zero_to_basis_index _ _). rewrite phase_high, (phase_low _ _ b0).
        rewrite N.lxor_assoc, N.lxor_nilpotent, N.lxor_0_r. ring.
  Qed.

  Lemma inner_terms l bra ket : inner n bra (terms_act l ket) = Csuml (fun p => inner n bra (pauli_act p ket)) l.
  Proof.
    unfold inner, terms_act, Csum. rewrite Csuml_swap. apply Csuml_ext. intros x _. now rewrite <- Csuml_mul_l.
  Qed.
  Lemma dep_choice {T} (P : N -> (T -> C) -> Prop) k : (forall b, b < k -> exists g, P b g) -> exists g, forall b, b < k -> P b (g b).
  Proof.
    induction k as [|k IH] using N.peano_ind; intros H; [exists (fun _ _ => C0); lia|].
    destruct IH as [g Hg]; [intros; apply H; lia|]. destruct (H k) as [g' Hg']; [lia|].
    exists (fun b => if b =? k then g' else g b). intros b Hb. destruct (b =? k) eqn:E; [apply N.eqb_eq in E; now subst|]. apply Hg. lia.
  Qed.
  Lemma op_expectation_correct psi t : 0 < n -> reduction_of (op_iters o (2 ^ n)) t ->
    op_expectation o (2 ^ n) psi t = Some (inner n psi (op_act o psi)).
  Proof.
    intros Hn0 Ht.
    destruct (dep_choice (fun b g => (forall i, i < N.shiftr (2 ^ n) 1 -> rrun (fun a => a <? 2 ^ n) psi (op_expect_body o (b, i)) = Some (g i)) /\
       Csum (N.shiftr (2 ^ n) 1) g = inner n psi (pauli_act (term o b) psi)) (N.of_nat (length (o_terms o)))) as [g Hg].
    { intros b Hb. destruct (op_expect_pairs psi (term o b) Hn0 (term_fits b Hb)) as (g & H1 & H2). exists g. split; auto. }
    unfold op_expectation. rewrite (creduce_correct _ (fun it => g (fst it) (snd it)) _ t Ht).
    - f_equal. unfold op_iters. rewrite Csuml_list_prod. unfold op_act. rewrite inner_terms.
      rewrite <- (Csuml_terms (fun p => inner n psi (pauli_act p psi)) (o_terms o) no_pauli).
      apply Csuml_ext. intros b Hb. apply in_seqN in Hb. apply (Hg b Hb).
    - intros [b i] Hi. unfold op_iters in Hi. apply in_prod_iff in Hi as [H1 H2]. apply in_seqN in H1, H2. now apply Hg.
  Qed.
  Lemma op_transition_correct bra ket t : 0 < n -> reduction_of (op_iters o (2 ^ n)) t ->
    op_transition o (2 ^ n) bra ket t = Some (inner n bra (op_act o ket)).
  Proof.
    intros Hn0 Ht.
    destruct (dep_choice (fun b g => (forall i, i < N.shiftr (2 ^ n) 1 -> rrun (fun a : addr2 => snd a <? 2 ^ n) (bra_ket bra ket) (op_trans_body o (b, i)) = Some (g i)) /\
       Csum (N.shiftr (2 ^ n) 1) g = inner n bra (pauli_act (term o b) ket)) (N.of_nat (length (o_terms o)))) as [g Hg].
    { intros b Hb. destruct (op_trans_pairs bra ket (term o b) Hn0 (term_fits b Hb)) as (g & H1 & H2). exists g. split; auto. }
    unfold op_transition. rewrite (creduce_correct _ (fun it => g (fst it) (snd it)) _ t Ht).
    - f_equal. unfold op_iters. rewrite Csuml_list_prod. unfold op_act. rewrite inner_terms.
      rewrite <- (Csuml_terms (fun p => inner n bra (pauli_act p ket)) (o_terms o) no_pauli).
      apply Csuml_ext. intros b Hb. apply in_seqN in Hb. apply (Hg b Hb).
    - intros [b i] Hi. unfold op_iters in Hi. apply in_prod_iff in Hi as [H1 H2]. apply in_seqN in H1, H2. now apply Hg.
  Qed.
  Lemma op_expectations_correct b psi t : 0 < n -> n <= 31 -> b < N.of_nat (length (o_terms o)) ->
    reduction_of (op_expectations_iters (2 ^ n)) t ->
    op_expectations o (2 ^ n) b psi t = Some (inner n psi (pauli_act (term o b) psi)).
  Proof.
    intros Hn0 Hn31 Hb Ht. destruct (op_expect_pairs psi (term o b) Hn0 (term_fits b Hb)) as (g & H1 & H2).
    assert (E : Z.to_N (cast_int (N.shiftr (2 ^ n) 1)) = N.shiftr (2 ^ n) 1).
    { rewrite N.shiftr_div_pow2. change (2 ^ 1) with 2.
      assert (Hd : 2 ^ n = 2 * 2 ^ (n - 1)) by (replace n with (1 + (n - 1)) at 1 by lia; rewrite N.pow_add_r; reflexivity).
      rewrite Hd, N.mul_comm, N.div_mul by discriminate.
      assert (Hs : 2 ^ (n - 1) <= 2 ^ 30) by (apply N.pow_le_mono_r; lia).
      unfold cast_int. cbv zeta. rewrite N.mod_small by (eapply N.le_lt_trans; [exact Hs|reflexivity]).
      destruct (Z.ltb_spec (Z.of_N (2 ^ (n - 1))) (2 ^ 31)) as [H|H]; [lia|].
      exfalso. apply N2Z.inj_le in Hs. change (Z.of_N (2 ^ 30)) with (2 ^ 30)%Z in Hs. lia. }
    unfold op_expectations. unfold op_expectations_iters in Ht. rewrite E in Ht.
    rewrite (creduce_correct _ g _ t Ht).
    - f_equal. exact H2.
    - intros i Hi. apply in_seqN in Hi. now apply H1.
  Qed.
End OpObs.
