(** Gates on other qubits: index arithmetic and the action of a moved gate. *)
From Verif Require Import PlaceSpec DensityProofs7 PauliProofs GradientProofs GatesProofs7 GatesProofs8 CircuitProofs3.

Section Place.
  Variables (n : N) (qs : list N).
  Hypothesis Hfit : fits_into n qs.
  Let m := N.of_nat (length qs).
  Let Hnd : NoDup qs := proj1 Hfit.
  Let Hlt : Forall (fun q => q < n) qs := proj2 Hfit.

  Lemma spot_nth i : i < m -> nth_error qs (N.to_nat i) = Some (spot qs i).
  Proof. intros H. unfold spot. apply nth_error_nth'. unfold m in H. lia. Qed.
  Lemma spot_in i : i < m -> In (spot qs i) qs.
  Proof. intros H. eapply nth_error_In. now apply spot_nth. Qed.
  Lemma spot_lt i : i < m -> spot qs i < n.
  Proof. intros H. rewrite Forall_forall in Hlt. apply Hlt. now apply spot_in. Qed.
  Lemma spot_inj i j : i < m -> j < m -> spot qs i = spot qs j -> i = j.
  Proof.
    intros Hi Hj E. assert (N.to_nat i = N.to_nat j); [|lia]. apply (proj1 (NoDup_nth_error qs) Hnd).
    - unfold m in Hi. lia.
    - rewrite !spot_nth by assumption. now rewrite E.
  Qed.
  Lemma in_spot q : In q qs -> exists i, i < m /\ q = spot qs i.
  Proof.
    intros H. apply In_nth_error in H as [k Hk]. exists (N.of_nat k). assert (N.of_nat k < m).
    { unfold m. assert (k < length qs)%nat by (apply nth_error_Some; congruence). lia. }
    split; [assumption|]. pose proof (spot_nth _ H) as E. rewrite Nat2N.id in E. congruence.
  Qed.
  Lemma gather_spot x i : i < m -> N.testbit (gather qs x) i = N.testbit x (spot qs i).
  Proof. intros H. rewrite <- (N2Nat.id i) at 1. rewrite gather_tb, spot_nth by assumption. reflexivity. Qed.
  Lemma scatter_spot y x i : i < m -> N.testbit (scatter qs y x) (spot qs i) = N.testbit y i.
  Proof. intros H. rewrite (scatter_in qs y x (N.to_nat i)); [now rewrite N2Nat.id|exact Hnd|now apply spot_nth]. Qed.

  Lemma gather_map ts x : Forall (fun q => q < m) ts -> gather (map (spot qs) ts) x = gather ts (gather qs x).
  Proof. induction 1 as [|t ts Ht _ IH]; cbn [gather map]; [reflexivity|]. now rewrite IH, gather_spot. Qed.
  Lemma scatter_set y x t b : t < m -> scatter qs (set_bit y t b) x = set_bit (scatter qs y x) (spot qs t) b.
  Proof.
    intros Ht. apply N.bits_inj. intros i. rewrite set_bit_tb. destruct (in_dec_N i qs) as [Hi|Hi].
    - apply in_spot in Hi as (j & Hj & ->). rewrite !scatter_spot, set_bit_tb by assumption.
      destruct (N.eqb_spec j t) as [->|Hne]; [now rewrite N.eqb_refl|]. destruct (N.eqb_spec (spot qs j) (spot qs t)) as [E|]; [|reflexivity].
      exfalso. apply Hne. now apply spot_inj.
    - rewrite !scatter_out by assumption. destruct (N.eqb_spec i (spot qs t)) as [->|]; [|reflexivity]. exfalso. apply Hi. now apply spot_in.
  Qed.
  Lemma scatter_map ts : Forall (fun q => q < m) ts -> forall j y x, scatter qs (scatter ts j y) x = scatter (map (spot qs) ts) j (scatter qs y x).
  Proof. induction 1 as [|t ts Ht _ IH]; intros j y x; cbn [scatter map]; [reflexivity|]. now rewrite IH, scatter_set. Qed.
  Lemma scatter_slice ts j x : Forall (fun q => q < m) ts -> scatter (map (spot qs) ts) j x = scatter qs (scatter ts j (gather qs x)) x.
  Proof. intros H. rewrite scatter_map by assumption. now rewrite scatter_gather. Qed.
  Lemma ctrl_map cs x : Forall (fun c => fst c < m) cs ->
    ctrl_ok (map (fun c => (spot qs (fst c), snd c)) cs) x = ctrl_ok cs (gather qs x).
  Proof. unfold ctrl_ok. induction 1 as [|c cs Hc _ IH]; cbn [map forallb fst snd]; [reflexivity|]. now rewrite IH, gather_spot. Qed.

  Lemma apply_mat_move ts cs M chi x : Forall (fun q => q < m) ts -> Forall (fun c => fst c < m) cs ->
    apply_mat (map (spot qs) ts) (map (fun c => (spot qs (fst c), snd c)) cs) M chi x =
    apply_mat ts cs M (slice qs chi x) (gather qs x).
  Proof.
    intros Ht Hc. unfold apply_mat, slice. rewrite ctrl_map, map_length by assumption. destruct (ctrl_ok cs (gather qs x)).
    - apply Csum_ext. intros j _. now rewrite gather_map, scatter_slice.
    - now rewrite scatter_gather.
  Qed.

  (** ** Pauli strings *)
  Lemma mask_fits bf : (forall i, N.testbit bf i = true -> i < m) -> bf < 2 ^ m.
  Proof.
    intros H. apply lt_pow2_testbit. intros i Hi. apply not_true_is_false. intros E. apply H in E. lia.
  Qed.
  Lemma scatter_mask_in bf i : N.testbit (scatter qs bf 0) i = true -> In i qs.
  Proof. intros E. destruct (in_dec_N i qs) as [|H]; [assumption|]. rewrite scatter_out, N.bits_0 in E by assumption. discriminate. Qed.
  Lemma scatter_mask bf i : bf < 2 ^ m -> (N.testbit (scatter qs bf 0) i = true <-> exists j, N.testbit bf j = true /\ i = spot qs j).
  Proof.
    intros Hb. split.
    - intros E. pose proof (scatter_mask_in _ _ E) as Hin. apply in_spot in Hin as (j & Hj & ->). exists j. split; [|reflexivity]. now rewrite scatter_spot in E.
    - intros (j & E & ->). destruct (N.lt_ge_cases j m) as [Hj|Hj]; [now rewrite scatter_spot|]. rewrite (testbit_high bf m) in E by assumption. discriminate.
  Qed.
  Lemma phase_move bf pf x : bf < 2 ^ m -> pf < 2 ^ m ->
    pauli_phase (scatter qs bf 0) (scatter qs pf 0) x = pauli_phase bf pf (gather qs x).
  Proof.
    intros Hb Hp. rewrite <- (pauli_phase_gather qs).
    - now rewrite !gather_scatter.
    - split; [exact Hnd|]. intros i [H|H]; eapply scatter_mask_in; eassumption.
  Qed.
  Lemma flip_move bf x : bf < 2 ^ m -> scatter qs (N.lxor (gather qs x) bf) x = N.lxor x (scatter qs bf 0).
  Proof.
    intros Hb. apply N.bits_inj. intros i. rewrite N.lxor_spec. destruct (in_dec_N i qs) as [Hi|Hi].
    - apply in_spot in Hi as (j & Hj & ->). rewrite !scatter_spot, N.lxor_spec, gather_spot by assumption. reflexivity.
    - rewrite !scatter_out, N.bits_0, xorb_false_r by assumption. reflexivity.
  Qed.
  Lemma pauli_move p cs coef chi x : (forall i, N.testbit (N.lor (p_bf p) (p_pf p)) i = true -> i < m) -> Forall (fun c => fst c < m) cs ->
    let p' := move_pauli qs p in
    apply_mat (bits (N.lor (p_bf p') (p_pf p'))) (map (fun c => (spot qs (fst c), snd c)) cs)
      (fun i j => (coef * pauli_textbook (p_bf p') (p_pf p') (bits (N.lor (p_bf p') (p_pf p'))) i j)%C) chi x =
    apply_mat (bits (N.lor (p_bf p) (p_pf p))) cs
      (fun i j => (coef * pauli_textbook (p_bf p) (p_pf p) (bits (N.lor (p_bf p) (p_pf p))) i j)%C) (slice qs chi x) (gather qs x).
  Proof.
    intros Hl Hc. cbv zeta. unfold pauli_textbook. rewrite !apply_mat_pauli by apply covers_bits. rewrite ctrl_map by assumption.
    assert (Hb : p_bf p < 2 ^ m) by (apply mask_fits; intros i E; apply Hl; rewrite N.lor_spec, E; reflexivity).
    assert (Hp : p_pf p < 2 ^ m) by (apply mask_fits; intros i E; apply Hl; rewrite N.lor_spec, E; apply orb_true_r).
    unfold move_pauli, slice. cbn [p_bf p_pf]. destruct (ctrl_ok _ _).
    - now rewrite phase_move, flip_move.
    - now rewrite scatter_gather.
  Qed.
  Lemma rot_move p cs h chi x : (forall i, N.testbit (N.lor (p_bf p) (p_pf p)) i = true -> i < m) -> Forall (fun c => fst c < m) cs ->
    let p' := move_pauli qs p in
    apply_mat (bits (N.lor (p_bf p') (p_pf p'))) (map (fun c => (spot qs (fst c), snd c)) cs)
      (pauli_rotation_textbook h (pauli_textbook (p_bf p') (p_pf p') (bits (N.lor (p_bf p') (p_pf p'))))) chi x =
    apply_mat (bits (N.lor (p_bf p) (p_pf p))) cs
      (pauli_rotation_textbook h (pauli_textbook (p_bf p) (p_pf p) (bits (N.lor (p_bf p) (p_pf p))))) (slice qs chi x) (gather qs x).
  Proof.
    intros Hl Hc. cbv zeta.
    assert (Hsplit : forall q cs' psi y, apply_mat (bits (N.lor (p_bf q) (p_pf q))) cs' (pauli_rotation_textbook h (pauli_textbook (p_bf q) (p_pf q) (bits (N.lor (p_bf q) (p_pf q))))) psi y =
       if ctrl_ok cs' y then (Ccos h * psi y - Ci * Csin h * apply_mat (bits (N.lor (p_bf q) (p_pf q))) [] (fun i j => (C1 * pauli_textbook (p_bf q) (p_pf q) (bits (N.lor (p_bf q) (p_pf q))) i j)%C) psi y)%C else psi y).
    { intros q cs' psi y. transitivity (if ctrl_ok cs' y then apply_mat (bits (N.lor (p_bf q) (p_pf q))) [] (pauli_rotation_textbook h (pauli_textbook (p_bf q) (p_pf q) (bits (N.lor (p_bf q) (p_pf q))))) psi y else psi y); [reflexivity|].
      destruct (ctrl_ok cs' y); [|reflexivity]. unfold pauli_rotation_textbook. rewrite apply_mat_rot by apply bits_NoDup. do 2 f_equal.
      apply apply_mat_ext_mat. intros i j _ _. ring. }
    rewrite !Hsplit, ctrl_map by assumption. destruct (ctrl_ok cs (gather qs x)); [|unfold slice; now rewrite scatter_gather].
    rewrite <- (pauli_move p [] C1 chi x Hl (Forall_nil _)). cbv zeta. cbn [map]. unfold slice. now rewrite scatter_gather.
  Qed.
End Place.
