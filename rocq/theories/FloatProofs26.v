(** Rotations by rounded angles, and choices by rounded sums of probabilities (C65). *)
From Verif Require Export FloatProofs22 CircuitProofs4 CircuitProofs5 GradientProofs4.
From Verif Require Import FloatProofs6 FloatProofs8.
From Coq Require Import Lra Lia.
Open Scope R_scope.

(** ** Rotations by angles that are close *)
(** the rotation by the angle [a] *)
Definition unit_turn (k : pcall) : pcall :=
  match k with PCallRot k t _ cs vs => PCallRot k t 1 cs vs | PCallPauliRotation p _ cs vs => PCallPauliRotation p 1 cs vs end.
Definition turn_by (k : pcall) (a : R) : call := pcall_at (unit_turn k) a.
Definition free_turn (k : pcall) : pcall :=
  match k with PCallRot k t _ _ _ => PCallRot k t 1 [] [] | PCallPauliRotation p _ _ _ => PCallPauliRotation p 1 [] [] end.
Definition turn_size (k : pcall) : R := match k with PCallPauliRotation p _ _ _ => Rabs (fst (p_coef p)) | _ => 1 end.
Lemma turn_size_nonneg k : 0 <= turn_size k.
Proof. destruct k; cbn; [lra|apply Rabs_pos]. Qed.
Lemma pcall_turn k v : pcall_at k v = turn_by k (pcall_factor k * v).
Proof. unfold turn_by. destruct k; cbn [unit_turn pcall_at pcall_factor]; now rewrite Rmult_1_l. Qed.
Lemma turn_by_ops k a b : call_operands (turn_by k a) = call_operands (turn_by k b) /\ call_controls (turn_by k a) = call_controls (turn_by k b).
Proof. destruct k; split; reflexivity. Qed.
Lemma turn_controlled k a psi x : call_act (turn_by k a) psi x = if ctrl_ok (call_controls (turn_by k 0)) x then call_act (pcall_at (free_turn k) a) psi x else psi x.
Proof. unfold turn_by. destruct k as [k t pc cs vs|p pc cs vs]; cbn [unit_turn free_turn pcall_at]; unfold call_act, apply_mat; cbn [call_targets call_controls call_matrix]; destruct (ctrl_ok (with_values cs vs) x); reflexivity. Qed.
Lemma gen_norm n k psi : (p_bf (generator k) < 2 ^ n)%N -> vnorm n (gen k psi) = vnorm n psi.
Proof.
  intros H. rewrite <- (vnorm_xor n (p_bf (generator k)) psi H). rewrite <- vnorm_mods. rewrite <- (vnorm_mods n (fun x => psi (N.lxor x (p_bf (generator k))))). apply vnorm_ext. intros x _. f_equal. rewrite gen_eq, Cmod_mul.
  assert (E1 : Cmod (pauli_phase (p_bf (generator k)) (p_pf (generator k)) x) = 1).
  { unfold Cmod. assert (E : Cnorm2 (pauli_phase (p_bf (generator k)) (p_pf (generator k)) x) = 1) by (pose proof (pauli_phase_unit (p_bf (generator k)) (p_pf (generator k)) x) as Hu; revert Hu; destruct (pauli_phase (p_bf (generator k)) (p_pf (generator k)) x) as [a b]; intros Hu; injection Hu as Hu _; cbn in Hu; unfold Cnorm2; cbn; lra). rewrite E. apply sqrt_1. }
  rewrite E1. ring.
Qed.
Lemma turn_apart n k a b phi : Forall (fun q => q < n)%N (call_operands (turn_by k 0)) -> match k with PCallPauliRotation p _ _ _ => snd (p_coef p) = 0 | _ => True end ->
  distance n (call_act (turn_by k a) phi) (call_act (turn_by k b) phi) <= turn_size k * Rabs (a - b) * vnorm n phi.
Proof.
  intros HF Hre. set (k0 := free_turn k). assert (Hp : plain_turn k0) by (unfold k0; destruct k; cbn; auto).
  assert (Hb : (p_bf (generator k0) < 2 ^ n)%N).
  { replace (generator k0) with (generator (unit_turn k)) by (unfold k0; destruct k as [[]|]; reflexivity). apply generator_fits. exact HF. }
  assert (Es : Rabs (turn_scale k0) = turn_size k) by (unfold k0; destruct k; cbn [free_turn turn_scale turn_size]; rewrite ?Rabs_R1, ?Rmult_1_l; reflexivity).
  set (e := turn_size k * Rabs (a - b) / 2).
  assert (He : Rabs (turn_scale k0 * a / 2 - turn_scale k0 * b / 2) = e).
  { replace (turn_scale k0 * a / 2 - turn_scale k0 * b / 2) with (turn_scale k0 * (a - b) * / 2) by field. rewrite !Rabs_mult, Es, (Rabs_right (/ 2)) by lra. reflexivity. }
  pose proof (lip_cos (turn_scale k0 * a / 2) (turn_scale k0 * b / 2)) as Hc. pose proof (lip_sin (turn_scale k0 * a / 2) (turn_scale k0 * b / 2)) as Hs. rewrite He in Hc, Hs.
  assert (H0 : 0 <= e) by (rewrite <- He; apply Rabs_pos).
  unfold distance. apply Rle_trans with (vnorm n (fun x => RtoC e * RtoC (Cmod (phi x)) + RtoC e * RtoC (Cmod (gen k0 phi x)))%C).
  - apply vnorm_mono. intros x Hx. rewrite !turn_controlled. fold k0.
    assert (Er : (RtoC e * RtoC (Cmod (phi x)) + RtoC e * RtoC (Cmod (gen k0 phi x)))%C = RtoC (e * Cmod (phi x) + e * Cmod (gen k0 phi x))) by (unfold RtoC; c_eq; cbn; ring).
    rewrite Er, Cmod_real. pose proof (Cmod_nonneg (phi x)) as P1. pose proof (Cmod_nonneg (gen k0 phi x)) as P2. pose proof (Rmult_le_pos _ _ H0 P1). pose proof (Rmult_le_pos _ _ H0 P2). rewrite (Rabs_right (_ + _)) by lra.
    destruct (ctrl_ok _ x).
    + rewrite !turn_eq by assumption.
      set (ca := cos (turn_scale k0 * a / 2)) in *. set (cb := cos (turn_scale k0 * b / 2)) in *. set (sa := sin (turn_scale k0 * a / 2)) in *. set (sb := sin (turn_scale k0 * b / 2)) in *.
      replace (RtoC ca * phi x - Ci * RtoC sa * gen k0 phi x - (RtoC cb * phi x - Ci * RtoC sb * gen k0 phi x))%C with (RtoC (ca - cb) * phi x + - (Ci * (RtoC (sa - sb) * gen k0 phi x)))%C by (unfold RtoC; c_eq; cbn; ring).
      eapply Rle_trans; [apply Cmod_tri|]. rewrite Cmod_opp, !Cmod_mul, !Cmod_real, Cmod_i, Rmult_1_l. apply Rplus_le_compat; apply Rmult_le_compat_r; assumption.
    + replace (phi x - phi x)%C with C0 by ring. rewrite Cmod_0. lra.
  - eapply Rle_trans; [apply vnorm_add|]. rewrite !vnorm_real, !vnorm_mods, gen_norm, (Rabs_right e) by (assumption || lra). unfold e. lra.
Qed.

(** ** The rounded angle *)
Section Angle.
  Variables (u eta : R) (A : arith).
  Hypothesis HA : accurate u eta A.
  Lemma angle_error pc v : Rabs (f_angle A pc v - pc * v) <= 3 * u * Rabs (pc * v) + 2 * Rabs pc * eta + eta.
  Proof.
    pose proof (acc_u _ _ _ HA) as Hu. pose proof (acc_eta _ _ _ HA) as Ht. unfold f_angle. pose proof (acc_rnd _ _ _ HA v) as H1. pose proof (acc_rnd _ _ _ HA (pc * a_rnd A v)) as H2.
    set (e1 := a_rnd A v - v) in *. replace (a_rnd A v) with (v + e1) in * by (unfold e1; ring). set (y := a_rnd A (pc * (v + e1))) in *.
    assert (H3 : Rabs (pc * e1) <= u * Rabs (pc * v) + Rabs pc * eta). { rewrite !Rabs_mult. replace (u * (Rabs pc * Rabs v) + Rabs pc * eta) with (Rabs pc * (u * Rabs v + eta)) by ring. apply Rmult_le_compat_l; [apply Rabs_pos|exact H1]. }
    assert (H4 : Rabs (pc * (v + e1)) <= Rabs (pc * v) + Rabs (pc * e1)) by (rewrite Rmult_plus_distr_l; apply Rabs_triang).
    assert (H5 : Rabs (y - pc * v) <= Rabs (y - pc * (v + e1)) + Rabs (pc * e1)) by (replace (y - pc * v) with (y - pc * (v + e1) + pc * e1) by ring; apply Rabs_triang).
    pose proof (Rabs_pos (pc * v)) as P1. pose proof (Rabs_pos pc) as P2. set (X := Rabs (pc * v)) in *. set (P := Rabs pc) in *. set (Y := Rabs (pc * e1)) in *.
    assert (P3 : 0 <= u * X) by (apply Rmult_le_pos; lra). assert (P4 : 0 <= P * eta) by (apply Rmult_le_pos; lra).
    assert (H6 : u * Rabs (pc * (v + e1)) <= u * (X + Y)) by (apply Rmult_le_compat_l; lra).
    assert (H7 : u * Y <= u * X + P * eta). { apply Rle_trans with (1 * Y); [apply Rmult_le_compat_r; [apply Rabs_pos|lra]|lra]. }
    lra.
  Qed.
  Lemma angle_idem pc v : a_rnd A (f_angle A pc v) = f_angle A pc v.
  Proof. apply (acc_idem _ _ _ HA). Qed.
  (** all errors of a rotation by a parameter *)
  Lemma turn_total n k v : weight (turn_by k (f_angle A (pcall_factor k) v)) * unit_error u eta n 2 +
      turn_size k * Rabs (f_angle A (pcall_factor k) v - pcall_factor k * v) * 1 <= turn_weight k v * unit_error u eta n 2.
  Proof.
    pose proof (angle_error (pcall_factor k) v) as H. pose proof (acc_u _ _ _ HA) as Hu. pose proof (acc_eta _ _ _ HA) as Ht. set (a := f_angle A (pcall_factor k) v) in *. set (pc := pcall_factor k) in *.
    pose proof (turn_size_nonneg k) as Hc. set (U := unit_error u eta n 2).
    assert (HU : 2 * u <= U /\ eta + u <= U).
    { unfold U, unit_error. assert (Hs : 1 <= sqrt (2 ^ N.to_nat n)) by (rewrite <- sqrt_1; apply sqrt_le_1_alt, pow_R1_Rle; lra). assert (eta * 1 <= eta * sqrt (2 ^ N.to_nat n)) by (apply Rmult_le_compat_l; lra). lra. }
    pose proof (Rabs_pos (pc * v)) as P1. pose proof (Rabs_pos pc) as P2. set (X := Rabs (pc * v)) in *. set (P := Rabs pc) in *.
    assert (HU' : U = 2 * u + eta * sqrt (2 ^ N.to_nat n)) by (unfold U, unit_error; ring).
    assert (Hd : Rabs (a - pc * v) <= (2 * X + 2 * P + 1) * U).
    { assert (u * X * 3 <= 2 * X * U). { replace (2 * X * U) with (X * (2 * U)) by ring. replace (u * X * 3) with (X * (3 * u)) by ring. apply Rmult_le_compat_l; lra. }
      assert (P * eta <= P * U) by (apply Rmult_le_compat_l; lra). lra. }
    assert (Ha : Rabs a <= 2 * X + P + 1).
    { assert (Rabs a <= Rabs (a - pc * v) + X) by (replace a with (a - pc * v + pc * v) at 1 by ring; apply Rabs_triang).
      assert (3 * u * X <= 1 * X) by (apply Rmult_le_compat_r; lra). assert (2 * P * eta <= P * 1) by (rewrite <- (Rmult_1_l (2 * P * eta)); replace (1 * (2 * P * eta)) with (P * (2 * eta)) by ring; apply Rmult_le_compat_l; lra). lra. }
    assert (Hw : weight (turn_by k a) <= 300 + turn_size k * (4 * X + 2 * P + 2)).
    { destruct k as [k t pc' cs vs|p pc' cs vs]; cbn [turn_by unit_turn pcall_at weight turn_size].
      - lra.
      - rewrite Rmult_1_l, Rabs_mult. assert (Rabs a * Rabs (fst (p_coef p)) <= (2 * X + P + 1) * Rabs (fst (p_coef p))) by (apply Rmult_le_compat_r; [apply Rabs_pos|exact Ha]). lra. }
    assert (Hw' : weight (turn_by k a) * U <= (300 + turn_size k * (4 * X + 2 * P + 2)) * U) by (apply Rmult_le_compat_r; lra).
    assert (Hd' : turn_size k * Rabs (a - pc * v) <= turn_size k * ((2 * X + 2 * P + 1) * U)) by (apply Rmult_le_compat_l; lra).
    replace (turn_weight k v) with (300 + turn_size k * (6 * X + 4 * P + 3)) by (destruct k; reflexivity). lra.
  Qed.
End Angle.
(** ** The gate object *)
Definition turned_gate (g : pgate) (a : R) : egate :=
  match g with PRot _ k b _ => EStd (rot_std k a) b | PPauliRotation _ b p _ => EPauliRotation b p a | PProb _ _ _ => EI end.
Lemma turned_made vf k g a : make_param vf k = Ok g -> make vf (turn_by k a) = Ok (turned_gate g a) /\
  match g with PRot _ _ _ pc | PPauliRotation _ _ _ pc => pc = pcall_factor k | PProb _ _ _ => False end.
Proof.
  intros H. assert (Hu : exists g1, make_param vf (unit_turn k) = Ok g1 /\ pgate_at g1 a = turned_gate g a /\
    match g with PRot _ _ _ pc | PPauliRotation _ _ _ pc => pc = pcall_factor k | PProb _ _ _ => False end).
  { destruct k as [k t pc cs vs|p pc cs vs]; cbn [make_param unit_turn pcall_factor] in *; inv_bind H; inv_bind H; destruct v0 as [[t' c] cv]; inv_bind H; injection H as <-; rewrite E; cbn [bindR]; rewrite E0; cbn [bindR]; rewrite E1; cbn [bindR];
      (eexists; split; [reflexivity|]; split; [|reflexivity]); cbn [pgate_at turned_gate]; now rewrite Rmult_1_l. }
  destruct Hu as (g1 & H1 & H2 & H3). rewrite <- H2. split; [exact (proj1 (make_param_at vf (unit_turn k) g1 a H1))|exact H3].
Qed.

(** ** Choices *)
Lemma upper_bound_at (l : list R) x : forall i, (forall j, (j < i)%nat -> (j < length l)%nat -> nth j l 0 <= x) -> ((i < length l)%nat -> x < nth i l 0) -> (i <= length l)%nat ->
  upper_bound l x = N.of_nat i.
Proof.
  induction l as [|y l IH]; intros i H1 H2 Hi; cbn [upper_bound length] in *.
  - assert (i = 0)%nat by lia. now subst.
  - destruct i as [|i].
    + specialize (H2 ltac:(lia)). cbn in H2. destruct (Rlt_dec x y); [reflexivity|lra].
    + pose proof (H1 0%nat ltac:(lia) ltac:(lia)) as H0. cbn in H0. destruct (Rlt_dec x y); [lra|]. rewrite (IH i); [lia| | |lia].
      * intros j Hj Hl. exact (H1 (S j) ltac:(lia) ltac:(lia)).
      * intros Hl. exact (H2 ltac:(lia)).
Qed.
Section Choice.
  Variables (e64 : R) (rnd64 : R -> R).
  Hypothesis H64 : adds_doubles e64 rnd64.
  Notation sums l := (Rsuml (fun p => p) l).
  Lemma sums_cons (p : R) l : sums (p :: l) = p + sums l. Proof. reflexivity. Qed.
  Lemma sums_firstn_le l : Forall (fun p => 0 <= p) l -> forall i j, (i <= j)%nat -> 0 <= sums (firstn i l) <= sums (firstn j l).
  Proof.
    intros H. induction H as [|p l Hp H IH]; intros i j Hij; [destruct i, j; cbn; lra|]. destruct i as [|i]; destruct j as [|j]; try lia.
    - cbn; lra.
    - cbn [firstn]. rewrite sums_cons. change (sums []) with 0. specialize (IH 0%nat j ltac:(lia)). change (sums (firstn 0 l)) with 0 in IH. lra.
    - cbn [firstn]. rewrite !sums_cons. specialize (IH i j ltac:(lia)). lra.
  Qed.
  Lemma e64_nonneg : 0 <= e64.
  Proof. pose proof (H64 0 ltac:(rewrite Rabs_R0; lra)) as H. pose proof (Rabs_pos (rnd64 0 - 0)). lra. Qed.
  Lemma sums_from_length l : forall acc, length (f_partial_sums_from rnd64 acc l) = length l.
  Proof. induction l; intros; cbn; auto. Qed.
  Lemma sums_from_error l : Forall (fun p => 0 <= p) l -> forall acc s t, 0 <= s -> 0 <= t -> Rabs (acc - s) <= t -> s + sums l <= 3 / 2 -> t + INR (length l) * e64 <= / 2 ->
    forall j, (j < length l)%nat -> Rabs (nth j (f_partial_sums_from rnd64 acc l) 0 - (s + sums (firstn (S j) l))) <= t + INR (length l) * e64.
  Proof.
    intros HF. induction HF as [|p l Hp HF IH]; intros acc s t Hs Ht Ha Hsum He j Hj; [cbn in Hj; lia|]. pose proof e64_nonneg as H0. pose proof (pos_INR (length l)) as Hn.
    assert (Hln : INR (length (p :: l)) = INR (length l) + 1) by (cbn [length]; rewrite S_INR; ring). rewrite Hln in *. rewrite sums_cons in Hsum. pose proof (Rmult_le_pos _ _ Hn H0) as Hne.
    pose proof (sums_firstn_le l HF 0 (length l) ltac:(lia)) as Hpos. rewrite firstn_all in Hpos. change (sums (firstn 0 l)) with 0 in Hpos.
    assert (Ha' : - t <= acc - s <= t) by (split; [pose proof (Rle_abs (- (acc - s))) as Q; rewrite Rabs_Ropp in Q; lra|pose proof (Rle_abs (acc - s)); lra]).
    assert (Hr : Rabs (rnd64 (acc + p) - (acc + p)) <= e64) by (apply H64, Rabs_le; lra).
    assert (Hr' : Rabs (rnd64 (acc + p) - (s + p)) <= t + e64).
    { replace (rnd64 (acc + p) - (s + p)) with (rnd64 (acc + p) - (acc + p) + (acc - s)) by ring. eapply Rle_trans; [apply Rabs_triang|]. lra. }
    destruct j as [|j]; rewrite firstn_cons; cbn [f_partial_sums_from nth]; rewrite sums_cons.
    - change (sums (firstn 0 l)) with 0. rewrite Rplus_0_r. lra.
    - cbn [length] in Hj. assert (Hp' : 0 <= s + p) by lra. assert (Ht' : 0 <= t + e64) by lra. assert (Hs' : s + p + sums l <= 3 / 2) by lra. assert (He' : t + e64 + INR (length l) * e64 <= / 2) by lra.
      specialize (IH _ _ _ Hp' Ht' Hr' Hs' He' j ltac:(lia)). rewrite <- Rplus_assoc. lra.
  Qed.
  Lemma partial_sums_error l : Forall (fun p => 0 <= p) l -> sums l <= 3 / 2 -> INR (length l) * e64 <= / 2 ->
    length (f_partial_sums rnd64 l) = length l /\ forall j, (j < length l)%nat -> Rabs (nth j (f_partial_sums rnd64 l) 0 - sums (firstn (S j) l)) <= INR (length l) * e64.
  Proof.
    intros HF Hs He. pose proof e64_nonneg as H0. destruct l as [|p l]; [split; [reflexivity|intros j Hj; cbn in Hj; lia]|]. inversion HF; subst. pose proof (pos_INR (length l)) as Hn. pose proof (Rmult_le_pos _ _ Hn H0) as Hne.
    assert (Hln : INR (length (p :: l)) = INR (length l) + 1) by (cbn [length]; rewrite S_INR; ring). rewrite Hln in *. rewrite sums_cons in Hs. split; [cbn; now rewrite sums_from_length|].
    intros [|j] Hj; rewrite firstn_cons; cbn [f_partial_sums nth]; rewrite sums_cons.
    - change (sums (firstn 0 l)) with 0. replace (p - (p + 0)) with 0 by ring. rewrite Rabs_R0. lra.
    - cbn [length] in Hj. pose proof (sums_from_error l ltac:(assumption) p p 0 ltac:(assumption) ltac:(lra) ltac:(replace (p - p) with 0 by ring; rewrite Rabs_R0; lra) Hs ltac:(lra) j ltac:(lia)). lra.
  Qed.
  Lemma select_clear dist i x : 0 <= x -> Forall (fun p => 0 <= p) dist -> sums dist <= 3 / 2 -> INR (length dist) * e64 <= / 2 -> (i < length dist)%nat ->
    (i = 0%nat \/ sums (firstn i dist) + INR (length dist) * e64 <= x) -> (x < sums (firstn (S i) dist) - INR (length dist) * e64 \/ S i = length dist) ->
    N.to_nat (f_select_index rnd64 dist x) = i.
  Proof.
    intros Hx HF Hs He Hi H1 H2. destruct (partial_sums_error dist HF Hs He) as [Hlen Herr]. unfold f_select_index. cbn [upper_bound length]. destruct (Rlt_dec x 0); [lra|]. rewrite Hlen.
    set (F := f_partial_sums rnd64 dist) in *. set (e := INR (length dist) * e64) in *.
    assert (Hlow : forall j, (j < i)%nat -> nth j F 0 <= x).
    { intros j Hj. pose proof (Herr j ltac:(lia)) as Hr. pose proof (Rle_abs (nth j F 0 - sums (firstn (S j) dist))). pose proof (sums_firstn_le dist HF (S j) i ltac:(lia)). destruct H1 as [-> |H1]; [lia|lra]. }
    destruct H2 as [H2|H2].
    - rewrite (upper_bound_at F x i); [lia| |intros _|lia].
      + intros j Hj _. now apply Hlow.
      + pose proof (Herr i Hi) as Hr. pose proof (Rle_abs (- (nth i F 0 - sums (firstn (S i) dist)))) as Q. rewrite Rabs_Ropp in Q. lra.
    - assert (Hub : (N.of_nat i <= upper_bound F x)%N).
      { clear -Hlow Hi Hlen. assert (Hi' : (i <= length F)%nat) by lia. clear Hi Hlen. revert i Hlow Hi'. induction F as [|y F IH]; intros i Hlow Hi'; cbn [upper_bound length] in *; [lia|]. destruct i as [|i]; [lia|].
        pose proof (Hlow 0%nat ltac:(lia)) as Q. cbn in Q. destruct (Rlt_dec x y); [lra|]. specialize (IH i (fun j Hj => Hlow (S j) ltac:(lia)) ltac:(lia)). lia. }
      lia.
  Qed.
End Choice.
Lemma clearly_index {T} e64 rnd64 dist (ds : list dgate) (gs : list T) x d : adds_doubles e64 rnd64 -> distribution_ok dist -> length dist = length ds -> length dist = length gs ->
  0 <= x -> INR (length (combine dist ds)) * e64 <= / 2 -> clearly_picks (INR (length (combine dist ds)) * e64) (combine dist ds) x d ->
  exists i g, N.to_nat (f_select_index rnd64 dist x) = i /\ nth_error ds i = Some d /\ nth_error gs i = Some g.
Proof.
  intros H64 (Hne & HF & Hs) Hl Hl' Hx He (l1 & p & l2 & E & H1 & H2). rewrite combine_length, <- Hl, Nat.min_id in *.
  assert (Hs' : Rsuml (fun p => p) dist <= 3 / 2). { pose proof (Rle_abs (Rsuml (fun p => p) dist - 1)). assert (/ 10 ^ 6 <= / 2) by (apply Rinv_le_contravar; lra). lra. }
  set (i := length l1). assert (Hi : (i < length dist)%nat). { assert (Q : length (combine dist ds) = length (l1 ++ (p, d) :: l2)) by now rewrite E. rewrite combine_length, app_length in Q. cbn [length] in Q. unfold i. lia. }
  assert (Hf1 : Rsuml fst l1 = Rsuml (fun p => p) (firstn i dist)).
  { rewrite <- (firstn_combine dist ds i Hl), E. unfold i. rewrite firstn_app, firstn_all, Nat.sub_diag. cbn [firstn]. rewrite app_nil_r. now rewrite Rsuml_map. }
  assert (Hf2 : Rsuml fst l1 + p = Rsuml (fun p => p) (firstn (S i) dist)).
  { rewrite <- (firstn_combine dist ds (S i) Hl), E. unfold i. rewrite firstn_app, firstn_all2 by lia. replace (S (length l1) - length l1)%nat with 1%nat by lia. cbn [firstn]. rewrite map_app, Rsuml_app. rewrite StateProofs.Rsuml_map. change (Rsuml (fun p0 => p0) (map fst [(p, d)])) with (p + 0). rewrite Rplus_0_r. reflexivity. }
  assert (Hd : nth_error ds i = Some d).
  { assert (Q : nth_error (combine dist ds) i = Some (p, d)) by (rewrite E, nth_error_app2 by (unfold i; lia); unfold i; rewrite Nat.sub_diag; reflexivity).
    clear -Q. revert ds Q. generalize i. clear i. induction dist as [|a dist IH]; intros [|i] [|b ds] Q; cbn in *; try discriminate; [injection Q as _ ->; reflexivity|now apply IH]. }
  destruct (nth_error gs i) as [g|] eqn:Eg; [|apply nth_error_None in Eg; lia].
  exists i, g. split; [|auto]. apply (select_clear e64 rnd64 H64 dist i x Hx HF Hs' He Hi).
  - destruct H1 as [-> |H1]; [now left|right; now rewrite <- Hf1].
  - destruct H2 as [H2| ->]; [left; now rewrite <- Hf2|right]. assert (Q : length (combine dist ds) = length (l1 ++ [(p, d)])) by now rewrite E. rewrite combine_length, app_length in Q. cbn [length] in Q. unfold i. lia.
Qed.
