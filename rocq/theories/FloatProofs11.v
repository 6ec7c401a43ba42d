(** Every gate in rounded arithmetic. *)
From Verif Require Export FloatProofs10.
From Verif Require Import StateProofs GroundProofs4 GroundProofs9 DensityProofs7.
From Coq Require Import FunctionalExtensionality Permutation Lra ZifyBool ZifyN ZifyNat.
Open Scope R_scope.

Definition row_shifts (t : N) : list N := map (fun j => scatter (bits t) j 0) (seqN (2 ^ popcount t)).
Lemma scatter_shift t j a : (j < 2 ^ popcount t)%N ->
  scatter (bits t) j a = N.lxor a (scatter (bits t) (N.lxor j (gather (bits t) a)) 0).
Proof.
  intros Hj. apply N.bits_inj. intros i. rewrite N.lxor_spec. destruct (N.testbit t i) eqn:E.
  - apply in_bits, In_nth_error in E. destruct E as [k Hk]. rewrite !(scatter_in _ _ _ k i (bits_NoDup t) Hk), N.lxor_spec, gather_tb, Hk.
    destruct (N.testbit j (N.of_nat k)), (N.testbit a i); reflexivity.
  - rewrite !scatter_out by (rewrite in_bits, E; discriminate). now rewrite N.bits_0, xorb_false_r.
Qed.
Lemma row_spread t (l : list (C * N)) psi a : NoDup (map snd l) -> (forall p, In p l -> (snd p < 2 ^ popcount t)%N) ->
  Rsuml (fun p => Cmod (psi (scatter (bits t) (snd p) a))) l <= spread (row_shifts t) psi a.
Proof.
  intros Hnd Hl. unfold spread. set (g := fun x => Cmod (psi x)).
  replace (Rsuml (fun p => Cmod (psi (scatter (bits t) (snd p) a))) l) with (Rsuml g (map (fun p => scatter (bits t) (snd p) a) l)) by apply (Rsuml_map (fun p : C * N => scatter (bits t) (snd p) a) g).
  replace (Rsuml (fun s => Cmod (psi (N.lxor a s))) (row_shifts t)) with (Rsuml g (map (fun s => N.lxor a s) (row_shifts t))) by apply (Rsuml_map (fun s => N.lxor a s) g).
  apply Rsuml_incl.
  - intros x. apply Cmod_nonneg.
  - rewrite <- (map_map snd (fun j => scatter (bits t) j a)). apply Prelude.NoDup_map_inj.
    + intros j j' Hj Hj' E. apply in_map_iff in Hj, Hj'. destruct Hj as (p & <- & Hp), Hj' as (p' & <- & Hp').
      apply (scatter_inj (bits t) _ _ a); [apply bits_NoDup|rewrite bits_length; now apply Hl|rewrite bits_length; now apply Hl|exact E].
    + exact Hnd.
  - intros x Hx. apply in_map_iff in Hx. destruct Hx as (p & <- & Hp). apply in_map_iff.
    exists (scatter (bits t) (N.lxor (snd p) (gather (bits t) a)) 0). split; [symmetry; apply scatter_shift; now apply Hl|].
    apply in_map_iff. eexists. split; [reflexivity|]. apply in_seqN. apply lxor_lt_pow2; [now apply Hl|]. rewrite <- bits_length. apply gather_lt.
Qed.
Lemma row_shifts_lt t n : (t < 2 ^ n)%N -> Forall (fun s => (s < 2 ^ n)%N) (row_shifts t).
Proof.
  intros Ht. apply Forall_map, Forall_forall. intros j _. apply lt_pow2_testbit. intros i Hi.
  rewrite scatter_out; [apply N.bits_0|]. rewrite in_bits, (testbit_high t n i Ht Hi). discriminate.
Qed.
Lemma row_shifts_length t : length (row_shifts t) = (2 ^ N.to_nat (popcount t))%nat.
Proof. unfold row_shifts. rewrite map_length, length_seqN. rewrite N2Nat.inj_pow. reflexivity. Qed.

Section Rows.
  Variables (u eta : R) (A : arith) (n B t c cv : N).
  Hypothesis HA : accurate u eta A.
  Hypothesis Hn : (n < 64)%N.
  Hypothesis HB : (B * 2 ^ n <= two64)%N.
  Hypothesis Ht : (t < 2 ^ n)%N.
  Hypothesis Hc : (c < 2 ^ n)%N.
  Hypothesis Hd : N.land t c = 0%N.
  Hypothesis Hcv : N.land cv c = cv.
  Let D := (B * 2 ^ n)%N.
  Let d := (2 ^ popcount t)%N.
  Let N0 := (2 ^ N.to_nat (popcount t))%nat.
  Let Hu := u_range u eta A HA.
  Let He := eta_range u eta A HA.

  Lemma rows_close ent psi exact : 4 * INR N0 * u <= 1 ->
    (forall r, (r < d)%N -> NoDup (map snd (ent r)) /\ forall p, In p (ent r) -> (snd p < d)%N /\ Cmod (fst p) <= 1) ->
    (forall a, (a < D)%N -> exact a = if (N.land a c =? cv)%N then Csuml (fun p => fst p * psi (scatter (bits t) (snd p) a))%C (ent (gather (bits t) a)) else psi a) ->
    exists phi, updates_to D (Buffered [multi_init D c cv; f_rows_update A n B t c cv (fun r => map (fun p => (f_entry A (fst p), snd p)) (ent r))]) psi phi /\
      closeK u eta (67 + 6 * INR N0) (17 * INR N0) (row_shifts t) D psi phi exact.
  Proof.
    intros Hsize Hent Hex. set (ent' := fun r => map (fun p => (f_entry A (fst p), snd p)) (ent r)).
    assert (Hent' : forall r p, (r < d)%N -> In p (ent' r) -> (snd p < d)%N).
    { intros r p Hr Hp. apply in_map_iff in Hp. destruct Hp as (p0 & <- & Hp). cbn. apply (proj2 (Hent r Hr) p0 Hp). }
    exists (fun a => if (N.land a c =? cv)%N then f_row A (ent' (gather (bits t) a)) (map (fun p => psi (scatter (bits t) (snd p) a)) (ent' (gather (bits t) a))) else psi a).
    split.
    - apply updates_buffered. intros junk. eexists. split.
      + simpl. eexists. split; [apply (init_computes n B t c cv Hn HB Ht Hc Hd Hcv)|]. eexists. split; [apply f_rows_computes; assumption|]. intros a. reflexivity.
      + intros a Ha. cbn [fst snd]. unfold gdom. fold D. apply N.ltb_lt in Ha. rewrite Ha. simpl. destruct (N.land a c =? cv)%N; reflexivity.
    - intros a Ha. rewrite Hex by assumption. assert (HN0 : 0 <= INR N0) by apply pos_INR. pose proof (spread_nonneg (row_shifts t) psi a) as Hsp.
      destruct (N.land a c =? cv)%N.
      + set (r := gather (bits t) a). assert (Hr : (r < d)%N) by (unfold r, d; rewrite <- bits_length; apply gather_lt).
        destruct (Hent r Hr) as [Hnd Hl].
        assert (Hlen : (length (ent r) <= N0)%nat).
        { rewrite <- (map_length snd). replace N0 with (length (seqN d)).
          - apply NoDup_incl_length; [exact Hnd|]. intros j Hj. apply in_map_iff in Hj. destruct Hj as (p & <- & Hp). apply in_seqN. apply (proj1 (Hl p Hp)).
          - rewrite length_seqN. unfold d, N0. now rewrite N2Nat.inj_pow. }
        pose proof (f_row_err u eta A HA (ent r) (fun j => psi (scatter (bits t) j a)) N0 (fun p Hp => proj2 (Hl p Hp)) Hlen Hsize) as Hrow.
        unfold ent'. rewrite map_map. cbn [snd]. eapply Rle_trans; [exact Hrow|].
        pose proof (row_spread t (ent r) psi a Hnd (fun p Hp => proj1 (Hl p Hp))) as Hs. apply Rplus_le_compat_r. apply Rmult_le_compat_l; [|exact Hs].
        apply Rmult_le_pos; lra.
      + replace (psi a - psi a)%C with C0 by ring. rewrite Cmod_0. apply Rplus_le_le_0_compat; repeat apply Rmult_le_pos; lra.
  Qed.
End Rows.

Definition gate_weight (g : egate) : R :=
  match g with
  | EPauliRotation _ p angle => 300 + 2 * Rabs (angle * fst (p_coef p))
  | EDense b _ _ => if (popcount (g_t b) <=? 2)%N then 300 else 100 * 4 ^ N.to_nat (popcount (g_t b))
  | ESparse b _ => 100 * 4 ^ N.to_nat (popcount (g_t b))
  | _ => 300
  end.
Definition f_allowed (u : R) (A : arith) (g : egate) : Prop :=
  match g with
  | EStd k _ => angles_in A k
  | EPauli _ p => Cnorm2 (p_coef p) <= 1
  | EPauliRotation _ p angle => f_entry A (p_coef p) = p_coef p /\ snd (p_coef p) = 0
  | EDense b M _ => ((popcount (g_t b) <= 2)%N \/ 4 * 2 ^ N.to_nat (popcount (g_t b)) * u <= 1) /\
      forall i j, (i < m_rows M)%N -> (j < m_cols M)%N -> Cnorm2 (m_at M i j) <= 1
  | ESparse b Sp => 4 * 2 ^ N.to_nat (popcount (g_t b)) * u <= 1 /\ forall i j, (i < csr_rows Sp)%N -> (j < csr_rows Sp)%N -> Cnorm2 (csr_sum Sp i j) <= 1
  | _ => True
  end.
Lemma INR_two m : INR (2 ^ m) = 2 ^ m. Proof. now rewrite pow_INR. Qed.
Lemma csr_entry_sum Sp r e : csr_ok Sp -> (r < csr_rows Sp)%N -> In e (csr_entries Sp r) -> csr_sum Sp r (fst e) = snd e.
Proof.
  intros Hok Hr He. destruct (Hok r Hr) as [Hnd _]. unfold csr_sum. revert Hnd He. generalize (csr_entries Sp r). intros l. 
  induction l as [|e0 l IH]; intros Hnd He; [contradiction|]. cbn [map] in Hnd. inversion Hnd; subst. unfold Csuml. cbn [fold_right]. fold (Csuml (fun e1 : N * C => if (fst e1 =? fst e)%N then snd e1 else C0) l).
  destruct He as [-> |He].
  - rewrite N.eqb_refl, Csuml_zero; [ring|]. intros e1 H1'. destruct (N.eqb_spec (fst e1) (fst e)) as [E|]; [|reflexivity].
    exfalso. apply H1. rewrite <- E. now apply in_map.
  - rewrite IH by assumption. destruct (N.eqb_spec (fst e0) (fst e)) as [E|]; [|ring]. exfalso. apply H1. rewrite E. now apply in_map.
Qed.

Section Gates2.
  Variables (u eta : R) (A : arith) (n B L : N).
  Hypothesis HA : accurate u eta A.
  Hypothesis Hn : (n < 64)%N.
  Hypothesis HB : (B * 2 ^ n <= two64)%N.
  Hypothesis HL : L = 0%N \/ exists l, (l < 64)%N /\ L = (2 ^ l)%N.
  Let D := (B * 2 ^ n)%N.
  Let Hu := u_range u eta A HA.
  Let He := eta_range u eta A HA.

  Theorem f_gate_closeK g psi : gate_wf g -> gate_fits n g -> f_allowed u A g ->
    exists S K H p phi, INR (length S) * K <= gate_weight g /\ H <= gate_weight g /\ 0 <= K /\ 0 <= H /\ Forall (fun s => (s < 2 ^ n)%N) S /\
      f_update_plan A n D L g = Ok p /\ updates_to D p psi phi /\ closeK u eta K H S D psi phi (gate_sem g psi).
  Proof.
    intros Hwf0 Hfit0 Hcov. pose proof Hwf0 as [(Hd & Hcv & Ht64 & Hc64) Hwf]. pose proof Hfit0 as [Ht Hc].
    assert (Hw : within_bounds n (g_base g) = true) by (apply within_bounds_iff; auto).
    assert (Hn' : (n <= 64)%N) by lia.
    destruct (update_correct n B L Hn HB HL g psi Hwf0 Hfit0) as (pe & Hpe & Hupe).
    assert (Old : f_covered A g -> gate_weight g = 300 ->
      exists S K H p phi, INR (length S) * K <= gate_weight g /\ H <= gate_weight g /\ 0 <= K /\ 0 <= H /\ Forall (fun s => (s < 2 ^ n)%N) S /\
      f_update_plan A n D L g = Ok p /\ updates_to D p psi phi /\ closeK u eta K H S D psi phi (gate_sem g psi)).
    { intros Hold Hwt. destruct (f_gate_close u eta A n B L HA Hn HB HL g psi Hwf0 Hfit0 Hold) as (S & p & phi & S1 & S2 & S3 & S4 & S5).
      exists S, 73, 33, p, phi. rewrite Hwt. apply le_INR in S1. replace (INR 4) with 4 in S1 by (cbn; ring).
      split; [lra|]. split; [lra|]. split; [lra|]. split; [lra|]. split; [exact S2|]. split; [exact S3|]. split; [exact S4|]. now apply close_closeK. }
    destruct g; cbn [g_base f_allowed gate_weight] in *; try (apply Old; [exact I || exact Hcov|reflexivity]).
    - (* Pauli *)
      cbn [g_base] in Hwf. rewrite Hwf in *. destruct (proj1 (lor_lt_iff _ _ _) Ht) as [Hbf Hpf].
      assert (Hdb : N.land (p_bf p) (g_c b) = 0%N).
      { bitwise i. destruct (N.testbit (p_bf p) i) eqn:E; [|reflexivity]. simpl. apply (land0_tb _ _ _ Hd). rewrite N.lor_spec, E. reflexivity. }
      assert (Eq : forall a, (a < D)%N -> gate_sem (EPauli b p) psi a = (fun a => if (a <? D)%N then (if (N.land a (g_c b) =? g_cv b)%N then (p_coef p * pauli_phase (p_bf p) (p_pf p) a * psi (N.lxor a (p_bf p)))%C else psi a) else psi a) a).
      { apply (updates_same D pe psi _ _ Hupe). unfold update_plan in Hpe. cbn [g_base] in Hpe. injection Hpe as <-.
        eapply updates_inplace1; [apply apply_pauli_computes; assumption|]. intros x Hx. reflexivity. }
      destruct (f_pauli_close u eta A n B (g_c b) (g_cv b) (p_bf p) (p_pf p) HA Hn' HB Hbf Hc Hdb Hcv (p_coef p) psi _ (Cmod_one _ Hcov) Eq) as (phi & P1 & P2).
      exists [0%N; p_bf p], 80, 33. eexists. exists phi. split; [cbn; lra|]. split; [lra|]. split; [lra|]. split; [lra|]. split.
      { repeat constructor; [apply pow2_pos|assumption]. }
      split; [reflexivity|]. split; [|exact P2]. eapply updates_inplace1; [exact P1|auto].
    - (* PauliRotation *)
      cbn [g_base] in Hwf. rewrite Hwf in *. destruct (proj1 (lor_lt_iff _ _ _) Ht) as [Hbf Hpf]. destruct Hcov as [Hnum Hre].
      assert (Hdb : N.land (p_bf p) (g_c b) = 0%N).
      { bitwise i. destruct (N.testbit (p_bf p) i) eqn:E; [|reflexivity]. simpl. apply (land0_tb _ _ _ Hd). rewrite N.lor_spec, E. reflexivity. }
      set (theta := angle * fst (p_coef p)).
      assert (Ecos : Ccos (- Cscale (/ 2) (Cscale angle (p_coef p))) = RtoC (cos (theta / 2))).
      { unfold Ccos, Cscale. cbn. rewrite Hre. replace (- (/ 2 * (angle * 0))) with 0 by ring. rewrite cosh_0, sinh_0.
        replace (/ 2 * (angle * fst (p_coef p))) with (theta / 2) by (unfold theta; field). rewrite cos_neg. c_eq; ring. }
      assert (Esin : Csin (- Cscale (/ 2) (Cscale angle (p_coef p))) = RtoC (- sin (theta / 2))).
      { unfold Csin, Cscale. cbn. rewrite Hre. replace (- (/ 2 * (angle * 0))) with 0 by ring. rewrite cosh_0, sinh_0.
        replace (/ 2 * (angle * fst (p_coef p))) with (theta / 2) by (unfold theta; field). rewrite sin_neg. c_eq; ring. }
      assert (Eq : forall a, (a < D)%N -> gate_sem (EPauliRotation b p angle) psi a = (fun a => if (a <? D)%N then (if (N.land a (g_c b) =? g_cv b)%N
         then (RtoC (cos (theta / 2)) * psi a + Ci * RtoC (- sin (theta / 2)) * pauli_phase (p_bf p) (p_pf p) a * psi (N.lxor a (p_bf p)))%C else psi a) else psi a) a).
      { apply (updates_same D pe psi _ _ Hupe). unfold update_plan in Hpe. cbn [g_base] in Hpe. injection Hpe as <-.
        eapply updates_inplace1; [apply apply_pauli_rotation_computes; assumption|]. intros x Hx. cbv beta zeta. rewrite Ecos, Esin. reflexivity. }
      destruct (f_rotation_close u eta A n B (g_c b) (g_cv b) (p_bf p) (p_pf p) HA Hn' HB Hbf Hc Hdb Hcv (p_coef p) angle psi _ Hre Eq) as (phi & P1 & P2).
      fold theta in P2. pose proof (Rabs_pos theta).
      exists [0%N; p_bf p], (80 + Rabs theta), 33. eexists. exists phi. split; [cbn; lra|]. split; [lra|]. split; [lra|]. split; [lra|]. split.
      { repeat constructor; [apply pow2_pos|assumption]. }
      split; [unfold f_update_plan; cbn [g_base]; rewrite Hnum; reflexivity|]. split; [|exact P2]. eapply updates_inplace1; [exact P1|auto].
    - (* Dense *)
      destruct Hcov as [Hsize Hent]. destruct (popcount (g_t b) <=? 2)%N eqn:Epop; [apply Old; [|reflexivity]; split; [lia|exact Hent]|].
      destruct Hsize as [Hsize|Hsize]; [lia|]. cbn [g_base] in Hwf. destruct Hwf as [Hr Hcl].
      set (k := N.to_nat (popcount (g_t b))) in *.
      assert (Hbig : (8 <= m_rows M)%N).
      { rewrite Hr. change 8%N with (2 ^ 3)%N. apply N.pow_le_mono_r; lia. }
      set (ent := fun r => map (fun col => (m_at M r col, col)) (seqN (2 ^ popcount (g_t b)))).
      assert (Hk : INR (2 ^ k) = 2 ^ k) by apply INR_two.
      destruct (rows_close u eta A n B (g_t b) (g_c b) (g_cv b) HA Hn HB Ht Hc Hd Hcv ent psi (gate_sem (EDense b M is_unitary) psi)) as (phi & P1 & P2).
      + fold k. rewrite Hk. lra.
      + intros r Hrr. unfold ent. rewrite map_map. cbn [snd]. rewrite map_id. split; [apply NoDup_seqN|]. intros q Hq.
        apply in_map_iff in Hq. destruct Hq as (col & <- & Hcol). apply in_seqN in Hcol. cbn. split; [exact Hcol|]. apply Cmod_one, Hent; lia.
      + intros a Ha. unfold gate_sem. cbn [g_base get_matrix]. unfold apply_mat. rewrite ctrl_ok_ctrls by assumption.
        destruct (N.land a (g_c b) =? g_cv b)%N; [|reflexivity]. unfold ent. rewrite Csuml_map. cbn [fst snd]. unfold Csum. now rewrite bits_length.
      + fold k in P2. rewrite Hk in P2. assert (H1 : 1 <= 2 ^ k) by (apply pow_R1_Rle; lra).
        assert (H4 : 4 ^ k = 2 ^ k * 2 ^ k) by (rewrite <- Rpow_mult_distr; f_equal; lra).
        exists (row_shifts (g_t b)), (67 + 6 * 2 ^ k), (17 * 2 ^ k). eexists. exists phi. split.
        { rewrite row_shifts_length. fold k. rewrite Hk, H4. nra. }
        split; [rewrite H4; nra|]. split; [lra|]. split; [lra|]. split; [now apply row_shifts_lt|]. split; [|split; [|exact P2]].
        * unfold f_update_plan. cbn [g_base]. rewrite Hw. replace (m_rows M =? 1)%N with false by lia. replace (m_rows M =? 2)%N with false by lia.
          replace (m_rows M =? 4)%N with false by lia. cbn [andb]. reflexivity.
        * replace (f_multi_update A n D (g_t b) (g_c b) (g_cv b) (fun i j => f_entry A (m_at M i j))) with
            (f_rows_update A n B (g_t b) (g_c b) (g_cv b) (fun r => map (fun p => (f_entry A (fst p), snd p)) (ent r))); [exact P1|].
          unfold f_multi_update, f_rows_update. rewrite (shl_d n B (g_t b) (g_c b) (g_cv b) Hn HB Ht Hc Hd Hcv). f_equal. apply functional_extensionality. intros w. f_equal.
          unfold ent. rewrite !map_map. reflexivity.
    - (* Sparse *)
      destruct Hcov as [Hsize Hent]. cbn [g_base] in Hwf. destruct Hwf as [Hr Hok].
      set (k := N.to_nat (popcount (g_t b))) in *.
      assert (Hk : INR (2 ^ k) = 2 ^ k) by apply INR_two.
      assert (Erow : forall r, csr_row S r = map (fun e => (snd e, fst e)) (csr_entries S r)).
      { intros r. unfold csr_row, csr_entries. rewrite map_map. reflexivity. }
      destruct (rows_close u eta A n B (g_t b) (g_c b) (g_cv b) HA Hn HB Ht Hc Hd Hcv (csr_row S) psi (gate_sem (ESparse b S) psi)) as (phi & P1 & P2).
      + fold k. rewrite Hk. lra.
      + intros r Hrr. rewrite <- Hr in Hrr. destruct (Hok r Hrr) as [Hnd Hf]. rewrite Erow, map_map. cbn [snd]. split; [exact Hnd|]. intros q Hq.
        apply in_map_iff in Hq. destruct Hq as (e & <- & Hein). cbn. rewrite Forall_forall in Hf. pose proof (Hf e Hein) as Hlt. split; [lia|].
        apply Cmod_one. rewrite <- (csr_entry_sum S r e Hok Hrr Hein). now apply Hent.
      + apply (updates_same D pe psi _ (fun a => if (N.land a (g_c b) =? g_cv b)%N then Csuml (fun p => fst p * psi (scatter (bits (g_t b)) (snd p) a))%C (csr_row S (gather (bits (g_t b)) a)) else psi a) Hupe).
        unfold update_plan in Hpe. cbn [g_base] in Hpe. rewrite Hw in Hpe. injection Hpe as <-. apply updates_buffered. intros junk.
        assert (E : sparse_update n D (g_t b) (g_c b) (g_cv b) S = rows_update n B (g_t b) (g_c b) (g_cv b) (csr_row S)).
        { unfold sparse_update, rows_update. rewrite Hr. f_equal. apply functional_extensionality. intros w. f_equal. unfold csr_row. rewrite map_map. reflexivity. }
        fold D. rewrite E. eexists. split.
        * simpl. eexists. split; [apply (init_computes n B (g_t b) (g_c b) (g_cv b) Hn HB Ht Hc Hd Hcv)|]. eexists. split.
          -- apply rows_computes; try assumption. intros r q Hrr Hq. rewrite <- Hr. rewrite <- Hr in Hrr. now apply (csr_ok_wf S Hok r).
          -- intros x. reflexivity.
        * intros x Hx. simpl. unfold gdom. fold D. apply N.ltb_lt in Hx. rewrite Hx. simpl. destruct (N.land x (g_c b) =? g_cv b)%N; reflexivity.
      + fold k in P2. rewrite Hk in P2. assert (H1 : 1 <= 2 ^ k) by (apply pow_R1_Rle; lra).
        assert (H4 : 4 ^ k = 2 ^ k * 2 ^ k) by (rewrite <- Rpow_mult_distr; f_equal; lra).
        exists (row_shifts (g_t b)), (67 + 6 * 2 ^ k), (17 * 2 ^ k). eexists. exists phi. split.
        { rewrite row_shifts_length. fold k. rewrite Hk, H4. nra. }
        split; [rewrite H4; nra|]. split; [lra|]. split; [lra|]. split; [now apply row_shifts_lt|]. split; [|split; [|exact P2]].
        * unfold f_update_plan. cbn [g_base]. rewrite Hw. reflexivity.
        * replace (f_sparse_update A n D (g_t b) (g_c b) (g_cv b) S) with
            (f_rows_update A n B (g_t b) (g_c b) (g_cv b) (fun r => map (fun p => (f_entry A (fst p), snd p)) (csr_row S r))); [exact P1|].
          unfold f_sparse_update, f_rows_update. rewrite Hr. f_equal. apply functional_extensionality. intros w. f_equal.
          unfold csr_row. rewrite !map_map. reflexivity.
  Qed.
End Gates2.
