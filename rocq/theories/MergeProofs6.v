(** merge_gate as a whole. *)
From Coq Require Import Sorted.
From Verif Require Export MergeProofs5.
From Coq Require Import ZifyBool ZifyN ZifyNat Lra.

Lemma phase_merges_l g1 g2 b p : gate_wf g1 -> gate_wf g2 -> g1 = EGlobalPhase b p -> g_c b = 0 -> merges g1 g2 g2 p 0.
Proof.
  intros W1 W2 -> Hb. split; [assumption|]. split; [auto|]. intros psi x. rewrite Cexpi_0. cbn [g_base]. rewrite Hb, ctrl_none.
  transitivity (gate_sem g2 (fun y => (Cexpi p * psi y)%C) x).
  2:{ unfold gate_sem. rewrite apply_mat_scale. ring. }
  unfold gate_sem at 1 3. apply apply_mat_ext. intros y. rewrite sem_global_phase by assumption. now rewrite Hb, ctrl_none.
Qed.
Lemma phase_merges_r g1 g2 b p : gate_wf g1 -> gate_wf g2 -> g2 = EGlobalPhase b p -> g_c b = 0 -> merges g1 g2 g1 p 0.
Proof.
  intros W1 W2 -> Hb. split; [assumption|]. split; [auto|]. intros psi x. rewrite Cexpi_0. rewrite sem_global_phase by assumption. rewrite Hb, ctrl_none.
  destruct (ctrl_ok _ x); ring.
Qed.
Lemma I_merges_l g : gate_wf g -> merges EI g g 0 0.
Proof.
  intros W. split; [assumption|]. split; [auto|]. intros psi x. rewrite Cexpi_0. replace (gate_sem g (gate_sem EI psi) x) with (gate_sem g psi x) by (unfold gate_sem at 1 2; apply apply_mat_ext; intros; symmetry; apply sem_I).
  destruct (ctrl_ok _ x); ring.
Qed.
Lemma I_merges_r g : gate_wf g -> merges g EI g 0 0.
Proof.
  intros W. split; [assumption|]. split; [auto|]. intros psi x. rewrite Cexpi_0, sem_I. destruct (ctrl_ok _ x); ring.
Qed.
Lemma good_or g1 g2 a b : good_case g1 g2 a -> good_case g1 g2 b -> good_case g1 g2 (or_else a b).
Proof. intros Ha Hb r. unfold or_else. destruct a as [r'|]; [apply Ha|apply Hb]. Qed.

Lemma merge_good vf g1 g2 n : n < 64 -> made g1 -> made g2 -> gate_fits n (snd g1) -> gate_fits n (snd g2) ->
  is_permutation g1 = false -> is_permutation g2 = false -> good g1 g2 (merge_gate vf g1 g2).
Proof.
  intros Hn M1 M2 F1 F2 P1 P2. pose proof (made_wf _ M1) as W1. pose proof (made_wf _ M2) as W2.
  assert (Hdense : good g1 g2 (merge_gate_dense_matrix vf (snd g1) (snd g2))).
  { destruct (dense_merges vf (snd g1) (snd g2) n Hn W1 W2 F1 F2) as (g & -> & Hm & k & Hk & Hg). apply good_exact; [|assumption]. now apply (made_call vf k). }
  assert (Hgen : seen_type g1 <> Some EI -> seen_type g2 <> Some EI ->
    good g1 g2 (if negb ((g_c (g_base (snd g1)) =? g_c (g_base (snd g2))) && (g_cv (g_base (snd g1)) =? g_cv (g_base (snd g2)))) then merge_gate_dense_matrix vf (snd g1) (snd g2)
      else
        match or_else (merge_phases vf g1 g2)
             (or_else (merge_paulis1 vf g1 g2)
             (or_else (merge_paulis vf g1 g2)
             (or_else (merge_table vf g1 g2 get_oct_phase oct_phase_gate 8)
             (or_else (merge_rotations vf g1 g2 rz_view GU1)
             (or_else (merge_table vf g1 g2 get_quad_rx quad_rx_gate 4)
             (or_else (merge_rotations vf g1 g2 rx_view GRX)
             (or_else (merge_table vf g1 g2 get_quad_ry quad_ry_gate 4)
             (or_else (merge_rotations vf g1 g2 ry_view GRY)
                      (merge_swaps vf g1 g2))))))))) with
        | Some r => r
        | None => merge_gate_dense_matrix vf (snd g1) (snd g2)
        end)).
  { intros NI1 NI2. destruct (N.eqb_spec (g_c (g_base (snd g1))) (g_c (g_base (snd g2)))) as [Ec|]; [|exact Hdense].
    destruct (N.eqb_spec (g_cv (g_base (snd g1))) (g_cv (g_base (snd g2)))) as [Ev|]; [|exact Hdense]. cbn [andb negb].
    match goal with |- good _ _ (match ?c with _ => _ end) => assert (Hc : good_case g1 g2 c); [|destruct c; [now apply Hc|exact Hdense]] end.
    repeat apply good_or; eauto using phases_good, paulis1_good, paulis_good, oct_good, rz_good, quad_x_good, rx_good, quad_y_good, ry_good, swaps_good. }
  unfold merge_gate. cbv zeta.
  replace (match seen_type g1 with Some (EPermutation _ _ _) => true | _ => false end) with false by (destruct g1 as [[] []]; auto; discriminate).
  replace (match seen_type g2 with Some (EPermutation _ _ _) => true | _ => false end) with false by (destruct g2 as [[] []]; auto; discriminate).
  cbn [orb].
  destruct (seen_type g1) as [e1|] eqn:V1.
  - pose proof (seen_snd _ _ V1) as S1. destruct e1; [apply good_exact; [assumption|]; rewrite S1; now apply I_merges_l|..].
    all: destruct (seen_type g2) as [e2|] eqn:V2; [|].
    all: try (pose proof (seen_snd _ _ V2) as S2).
    all: try (destruct e2; [apply good_exact; [assumption|]; rewrite S2; now apply I_merges_r|..]).
    all: repeat match goal with |- context [if g_c ?b =? 0 then _ else _] => destruct (N.eqb_spec (g_c b) 0) end.
    all: try (apply good_exact; [assumption|]; first [eapply phase_merges_l; eassumption|eapply phase_merges_r; eassumption]).
    all: apply Hgen; congruence.
  - destruct (seen_type g2) as [e2|] eqn:V2; [|apply Hgen; congruence].
    pose proof (seen_snd _ _ V2) as S2. destruct e2; [apply good_exact; [assumption|]; rewrite S2; now apply I_merges_r|..].
    all: repeat match goal with |- context [if g_c ?b =? 0 then _ else _] => destruct (N.eqb_spec (g_c b) 0) end.
    all: try (apply good_exact; [assumption|]; eapply phase_merges_r; eassumption).
    all: apply Hgen; congruence.
Qed.

Lemma bits_below_iff x n : x < 2 ^ n <-> Forall (fun i => i < n) (bits x).
Proof.
  split; [apply bits_lt|]. rewrite Forall_forall. intros H. apply lt_pow2_testbit. intros i Hi. apply not_true_is_false. intros E. apply in_bits, H in E. lia.
Qed.
Lemma fits_operands g n : gate_wf g -> (gate_fits n g <-> operands_below n g).
Proof.
  intros Hw. destruct (gate_lists g Hw) as [Ht _]. unfold operands_below. rewrite Ht. destruct Hw as [(_ & _ & H64 & Hc64) _].
  unfold gate_control_list. rewrite mask_to_vector_bits by assumption. rewrite Forall_app. unfold gate_fits. rewrite <- !bits_below_iff. reflexivity.
Qed.
Lemma throw_if {A} (c : bool) (e : res A) : c = true -> (if c then Throw else e) = Throw.
Proof. now intros ->. Qed.
Lemma merge_throws vf g1 g2 : is_permutation g1 = true \/ is_permutation g2 = true -> merge_gate vf g1 g2 = Throw.
Proof.
  intros [H|H].
  - destruct g1 as [[] []]; try discriminate H. reflexivity.
  - destruct g2 as [[] []]; try discriminate H. unfold merge_gate. apply throw_if, orb_true_r.
Qed.
Theorem merge_gate_correct vf g1 g2 n B L : made g1 -> made g2 -> operands_below n (snd g1) -> operands_below n (snd g2) -> sizes_ok n B L ->
  is_permutation g1 = false -> is_permutation g2 = false ->
  exists g (phase delta : R), merge_gate vf g1 g2 = Ok (g, phase) /\ made g /\ operands_below n (snd g) /\
    (Rabs delta < / 10 ^ 12)%R /\ (is_rz g1 = false -> is_rz g2 = false -> delta = 0%R) /\
    forall psi, exists psi1 psi2 psi', updating n B L (snd g1) psi psi1 /\ updating n B L (snd g2) psi1 psi2 /\ updating n B L (snd g) psi psi' /\
      forall i, i < B * 2 ^ n -> psi2 i = (Cexpi phase * (if active (snd g1) i then Cexpi delta else C1) * psi' i)%C.
Proof.
  intros M1 M2 O1 O2 Hs P1 P2. pose proof (made_wf _ M1) as W1. pose proof (made_wf _ M2) as W2. apply fits_operands in O1, O2; try assumption.
  destruct (merge_good vf g1 g2 n (proj1 Hs) M1 M2 O1 O2 P1 P2) as (g & phase & delta & -> & Hm & (Wg & Fg & Sg) & Hd & Hr & _).
  exists g, phase, delta. split; [reflexivity|]. split; [assumption|]. split; [apply fits_operands; auto|]. split; [exact Hd|]. split; [assumption|].
  intros psi. exists (gate_sem (snd g1) psi), (gate_sem (snd g2) (gate_sem (snd g1) psi)), (gate_sem (snd g) psi).
  split; [now apply update_correct'|]. split; [now apply update_correct'|]. split; [apply update_correct'; auto|].
  intros i _. rewrite Sg. unfold active. destruct (gate_lists _ W1) as [_ ->]. reflexivity.
Qed.

Lemma expansion_example : let ts := [5; 1] in let c := 513 in let cv := 512 in let ops := [0; 1; 5; 7; 9] in
  StronglySorted N.lt ops /\ (length ops < 64)%nat /\ NoDup ts /\ incl ts ops /\ c < 2 ^ 64 /\ bits c = [0; 9] /\ incl (bits c) ops /\
  (forall q, In q ts -> N.testbit c q = false) /\ N.land cv c = cv.
Proof.
  cbv zeta. assert (Hb : bits 513 = [0; 9]) by (vm_compute; reflexivity). rewrite Hb.
  split; [repeat constructor|]. split; [simpl; lia|]. split; [repeat constructor; simpl; lia|]. split; [intros q [<-|[<-|[]]]; simpl; tauto|].
  split; [reflexivity|]. split; [reflexivity|]. split; [intros q [<-|[<-|[]]]; simpl; tauto|]. split; [intros q [<-|[<-|[]]]; reflexivity|reflexivity].
Qed.
Lemma merge_example :
  (let x := EStd GX (GBase 8 0 0) in let y := EStd GY (GBase 8 0 0) in
   made (true, x) /\ made (true, y) /\ operands_below 5 x /\
   merge_gate false (true, x) (true, y) = Ok ((true, EStd GZ (GBase 8 0 0)), - PI / 2)%R) /\
  (let s := EStd GSdag (GBase 8 0 0) in let w := ESwap (GBase 17 8 0) in
   made (false, s) /\ made (true, w) /\ operands_below 5 s /\ operands_below 5 w /\
   exists M, merge_gate false (false, s) (true, w) = Ok ((true, EDense (GBase 25 0 0) M false), 0%R)).
Proof.
  assert (Hx : forall k, make false (Call1 k 3 [] []) = Ok (EStd k (GBase 8 0 0))) by (intros; vm_compute; reflexivity).
  assert (Hf : Forall (fun q => q < 5) [3]) by (repeat constructor).
  split; cbv zeta.
  - split; [eapply made_call; [|apply Hx]; exact I|]. split; [eapply made_call; [|apply Hx]; exact I|]. split.
    + unfold operands_below. replace (gate_target_list _ ++ _) with [3] by (vm_compute; reflexivity). assumption.
    + reflexivity.
  - split; [eapply made_inverse; [eapply made_call with (k := Call1 GS 3 [] []) (vf := false); [exact I|apply Hx]|reflexivity]|].
    split; [apply (made_call false (CallSwap 4 0 [3] [0])); [exact I|vm_compute; reflexivity]|]. split; [|split].
    + unfold operands_below. replace (gate_target_list _ ++ _) with [3] by (vm_compute; reflexivity). assumption.
    + unfold operands_below. replace (gate_target_list _ ++ _) with [0; 4; 3] by (vm_compute; reflexivity). repeat constructor.
    + eexists. unfold merge_gate. cbn. reflexivity.
Qed.
