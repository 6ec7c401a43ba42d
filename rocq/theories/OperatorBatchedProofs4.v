(** Proofs about OperatorBatched: the statements of PropertiesOperatorBatched.v. *)
From Verif Require Import BitsProofs KernelsProofs IndexProofs PauliProofs OperatorBatchedSpec OperatorProofs OperatorProofs2 OperatorBatchedProofs OperatorBatchedProofs2 OperatorBatchedProofs3.
From Coq Require Import ZifyBool ZifyN ZifyNat.

Lemma batch_holds ops : fits_vector ops -> holds (batch_of ops) (map o_terms ops).
Proof. intros H. unfold batch_of, ob_of_operators. apply holds_lists. unfold lenN. now rewrite map_length. Qed.
Lemma each2_map {X Y Z X' Y'} (f : X' -> Y' -> Z) (g : X -> X') (h : Y -> Y') l m : each2 f (map g l) (map h m) = each2 (fun a b => f (g a) (h b)) l m.
Proof. unfold each2. revert m. induction l as [|a l IH]; intros [|b m]; try reflexivity. cbn [map combine fst snd]. f_equal. apply IH. Qed.
Lemma map_each2 {X Y Z W} (f : X -> Y -> Z) (g : Z -> W) l m : map g (each2 f l m) = each2 (fun a b => g (f a b)) l m.
Proof. unfold each2. rewrite map_map. reflexivity. Qed.
Lemma length_each2 {X Y Z} (f : X -> Y -> Z) l m : length (each2 f l m) = Nat.min (length l) (length m).
Proof. unfold each2. now rewrite map_length, combine_length. Qed.
Lemma returns_lists {S} (f : S -> option (res opbatch)) L ops : always f (ob_of_lists L) -> L = map o_terms ops -> fits_vector ops -> returns_batch f ops.
Proof. intros H -> Hf. exists (ob_of_lists (map o_terms ops)). split; [assumption|]. apply holds_lists. unfold lenN. now rewrite map_length. Qed.
Lemma fits_each2 {X Y Z} (f : X -> Y -> Z) l m : fits_vector l -> fits_vector (each2 f l m).
Proof. unfold fits_vector. rewrite length_each2. lia. Qed.
Lemma sum_ok A B junk : fits_vector A -> length A = length B -> returns_batch (ob_add (batch_of A) (batch_of B) junk) (each2 op_add A B).
Proof.
  intros Hf E. eapply returns_lists; [apply ob_add_correct; now rewrite !map_length| |now apply fits_each2].
  rewrite each2_map, map_each2. reflexivity.
Qed.
Lemma difference_ok A B junk : fits_vector A -> length A = length B ->
  returns_batch (fun s => ob_sub (batch_of A) (batch_of B) junk (fst s) (snd s)) (each2 op_sub A B).
Proof.
  intros Hf E. eapply returns_lists; [apply ob_sub_correct; now rewrite !map_length| |now apply fits_each2].
  rewrite each2_map, map_each2. reflexivity.
Qed.
Lemma product_ok A B junk : fits_vector A -> length A = length B -> returns_batch (ob_mul (batch_of A) (batch_of B) junk) (each2 op_mul A B).
Proof.
  intros Hf E. eapply returns_lists; [apply ob_mul_correct; now rewrite !map_length| |now apply fits_each2].
  rewrite each2_map, map_each2. reflexivity.
Qed.
Lemma dagger_ok A : fits_vector A -> returns_batch (ob_dagger (batch_of A)) (map op_dagger A).
Proof.
  intros Hf. eapply returns_lists; [apply ob_dagger_correct| |unfold fits_vector; now rewrite map_length]. now rewrite !map_map.
Qed.
Lemma negation_ok A : fits_vector A -> returns_batch (ob_neg (batch_of A)) (map op_neg A).
Proof.
  intros Hf. eapply returns_lists; [apply ob_neg_correct| |unfold fits_vector; now rewrite map_length]. now rewrite !map_map.
Qed.
Lemma mismatch_ok A B junk : length A <> length B ->
  always_throws (ob_add (batch_of A) (batch_of B) junk) /\ always_throws (ob_mul (batch_of A) (batch_of B) junk) /\
  (forall s1 s2, ob_sub (batch_of A) (batch_of B) junk s1 s2 = None \/ ob_sub (batch_of A) (batch_of B) junk s1 s2 = Some Throw) /\
  (exists s1 s2, ob_sub (batch_of A) (batch_of B) junk s1 s2 = Some Throw).
Proof.
  intros H. assert (H' : length (map o_terms A) <> length (map o_terms B)) by now rewrite !map_length.
  destruct (ob_mismatch _ _ junk H') as [H1 H2]. split; [exact H1|]. split; [exact H2|]. exact (ob_sub_mismatch _ _ junk H').
Qed.
Lemma scale_ok A coef : fits_vector A -> length coef = length A -> Forall (fun o => length (o_terms o) = 1%nat) A ->
  returns_batch (ob_scale (batch_of A) coef) (each2 op_scale A coef).
Proof.
  intros Hf E H1. eapply returns_lists; [apply ob_scale_single| |now apply fits_each2].
  - unfold lenN. now rewrite map_length, E.
  - unfold lenN. now rewrite map_length.
  - rewrite Forall_map. exact H1.
  - rewrite <- (map_id coef) at 1. rewrite each2_map, map_each2. reflexivity.
Qed.
Lemma scale_mismatch A coef : fits_vector A -> length coef <> length A -> always_throws (ob_scale (batch_of A) coef).
Proof. intros Hf H. apply ob_scale_mismatch; unfold lenN; rewrite map_length; [lia|exact Hf]. Qed.
Lemma scale_oob A coef : fits_vector A -> length coef = length A -> (length A < length (concat (map o_terms A)))%nat -> never_returns (ob_scale (batch_of A) coef).
Proof. intros Hf E H. apply ob_scale_oob; unfold lenN; rewrite map_length; [lia|exact Hf|lia]. Qed.

(** scaling takes the coefficient at the index of the term, not of the element *)
Definition two_and_none : list operator := [op_of_terms [Pauli C1 1 0; Pauli C1 0 1]; op_of_terms []].
Lemma scale_wrong_element : exists s r, ob_scale (batch_of two_and_none) [C1; C0] s = Some (Ok r) /\ ~ holds r (map o_terms (each2 op_scale two_and_none [C1; C0])).
Proof.
  exists [0; 0; 0; 1; 1; 1]. eexists. split.
  - cbv -[C1 C0 Cmul]. reflexivity.
  - intros (_ & H & _). specialize (H 0%nat _ eq_refl). destruct H as (p & E & Ho). cbv -[C1 C0 Cmul] in E. injection E as <-.
    cbv -[C1 C0 Cmul] in Ho. injection Ho. intros. lra.
Qed.
Lemma paulis_ok A ps q junk : fits_vector A -> length ps = length A -> returns_batch (ob_add_paulis (batch_of A) (ps ++ [q]) junk) (each2 op_add_pauli A ps).
Proof.
  intros Hf E. eapply returns_lists; [apply ob_add_paulis_correct; now rewrite map_length| |now apply fits_each2].
  rewrite <- (map_id ps) at 1. rewrite each2_map, map_each2. reflexivity.
Qed.
Lemma paulis_throw A ps junk : length ps = length A ->
  always_throws (ob_add_paulis (batch_of A) ps junk) /\ always_throws (ob_sub_paulis (batch_of A) ps junk) /\
  always_throws (ob_mul_paulis (batch_of A) ps) /\ always_throws (ob_mul_paulis_in_place (batch_of A) ps).
Proof. intros H. apply paulis_right_size. now rewrite map_length. Qed.
Lemma mul_paulis_wrong A ps : A <> [] ->
  (never_returns (ob_mul_paulis (batch_of A) ps) \/ always_throws (ob_mul_paulis (batch_of A) ps)) /\
  (never_returns (ob_mul_paulis_in_place (batch_of A) ps) \/ always_throws (ob_mul_paulis_in_place (batch_of A) ps)).
Proof.
  intros H. assert (H' : map o_terms A <> []) by (destruct A; [contradiction|discriminate]). split; [apply ob_mul_paulis_wrong|apply ob_mul_paulis_in_place_wrong]; exact H'.
Qed.
Lemma load_ok o A B : fits_vector A -> length A = length B -> o = batch_of A -> exists r, ob_load_operators o B = Ok r /\ holds r (map o_terms B).
Proof.
  intros Hf E ->. exists (batch_of B). split; [|apply batch_holds; unfold fits_vector in *; now rewrite <- E].
  unfold ob_load_operators, batch_of, ob_of_operators. apply ob_load_ok. rewrite lenN_row. unfold lenN. now rewrite !map_length, E.
Qed.
Lemma load_other o A B : length A <> length B -> o = batch_of A -> ob_load_operators o B = Throw.
Proof.
  intros E ->. unfold ob_load_operators, ob_load. assert (F : (lenN (ob_row (batch_of A)) =? lenN (map o_terms B) + 1) = false).
  { apply N.eqb_neq. unfold batch_of, ob_of_operators. rewrite lenN_row. unfold lenN. rewrite !map_length. lia. }
  now rewrite F.
Qed.
Lemma default_wrong : ob_batch_size ob_default = two64 - 1 /\ ob_get_operator_at ob_default 0 = UB.
Proof. split; vm_compute; reflexivity. Qed.
Lemma flag_wrong : exists A p, fits_vector A /\ ob_get_operator_at (batch_of A) 0 = Ok p /\ o_herm p = true /\ map o_herm A = [false].
Proof.
  exists [op_of_terms [Pauli Ci 0 1]]. eexists. split; [unfold fits_vector; simpl; reflexivity|]. split; [reflexivity|]. split; [reflexivity|].
  cbn [map op_of_terms o_herm all_real forallb]. unfold is_real. destruct (Req_EM_T _ _) as [E|E]; [|reflexivity]. cbn in E. exfalso. lra.
Qed.

(** ** Amplitudes *)
Lemma amplitudes_ok A n bra ket trees : 0 < n -> n <= 63 -> Forall (op_fits n) A ->
  (forall b o, nth_error A b = Some o -> reduction_of (op_iters o (2 ^ n)) (trees (N.of_nat b))) ->
  ob_amplitudes (batch_of A) (2 ^ n) bra ket trees =
  Ok (map (fun '(b, o) => Some (inner n (bra b) (op_act o (ket b)))) (combine (seqN (N.of_nat (length A))) A)).
Proof.
  intros Hn0 Hn Hf Ht. unfold batch_of, ob_of_operators. rewrite ob_amplitudes_correct; auto.
  - f_equal. apply map_numbered; [apply map_length|]. intros i l o El Eo. rewrite nth_error_map, Eo in El. injection El as <-. reflexivity.
  - rewrite Forall_map. exact Hf.
  - intros b l El. rewrite nth_error_map in El. destruct (nth_error A b) as [o|] eqn:Eo; [|discriminate]. injection El as <-. exact (Ht b o Eo).
Qed.
Lemma size_ok A : fits_vector A -> ob_batch_size (batch_of A) = N.of_nat (length A).
Proof. intros H. unfold batch_of, ob_of_operators. rewrite batch_size_lists; unfold lenN; now rewrite map_length. Qed.
Lemma expectation_ok A n psi trees : 0 < n -> n <= 63 -> Forall (op_fits n) A ->
  (forall b o, nth_error A b = Some o -> reduction_of (op_iters o (2 ^ n)) (trees (N.of_nat b))) ->
  ob_expectation (batch_of A) n psi trees = Ok (map (fun o => Some (inner n psi (op_act o psi))) A).
Proof.
  intros Hn0 Hn Hf Ht. unfold ob_expectation. rewrite amplitudes_ok by assumption. f_equal.
  fold (lenN A). pose (h := fun o => Some (inner n psi (op_act o psi))).
  transitivity (map h (map snd (combine (seqN (lenN A)) A))); [rewrite map_map; apply map_ext; now intros [b o]|]. f_equal.
  assert (H : length (seqN (lenN A)) = length A) by (rewrite length_seqN; unfold lenN; lia).
  revert H. generalize (seqN (lenN A)). clear. induction A as [|a L IH]; intros [|x l] H; try discriminate; [reflexivity|]. cbn [combine map snd]. f_equal. apply IH. simpl in H. lia.
Qed.
Lemma expectation_batch_ok A n flat trees : fits_vector A -> 0 < n -> n <= 63 -> Forall (op_fits n) A ->
  (forall b o, nth_error A b = Some o -> reduction_of (op_iters o (2 ^ n)) (trees (N.of_nat b))) ->
  ob_expectation_batch (batch_of A) n (N.of_nat (length A)) flat trees =
  Ok (map (fun '(b, o) => Some (inner n (row (2 ^ n) flat b) (op_act o (row (2 ^ n) flat b)))) (combine (seqN (N.of_nat (length A))) A)).
Proof. intros Hv Hn0 Hn Hf Ht. unfold ob_expectation_batch. rewrite size_ok, N.eqb_refl by assumption. now apply amplitudes_ok. Qed.
Lemma transition_ok A n bra ket trees : 0 < n -> n <= 63 -> Forall (op_fits n) A ->
  (forall b o, nth_error A b = Some o -> reduction_of (op_iters o (2 ^ n)) (trees (N.of_nat b))) ->
  ob_transition (batch_of A) n n bra ket trees = Ok (map (fun o => Some (inner n bra (op_act o ket))) A).
Proof.
  intros Hn0 Hn Hf Ht. unfold ob_transition. rewrite N.eqb_refl, amplitudes_ok by assumption. f_equal.
  fold (lenN A). pose (h := fun o => Some (inner n bra (op_act o ket))).
  transitivity (map h (map snd (combine (seqN (lenN A)) A))); [rewrite map_map; apply map_ext; now intros [b o]|]. f_equal.
  assert (H : length (seqN (lenN A)) = length A) by (rewrite length_seqN; unfold lenN; lia).
  revert H. generalize (seqN (lenN A)). clear. induction A as [|a L IH]; intros [|x l] H; try discriminate; [reflexivity|]. cbn [combine map snd]. f_equal. apply IH. simpl in H. lia.
Qed.
Lemma transition_batch_ok A n bra ket trees : fits_vector A -> 0 < n -> n <= 63 -> Forall (op_fits n) A ->
  (forall b o, nth_error A b = Some o -> reduction_of (op_iters o (2 ^ n)) (trees (N.of_nat b))) ->
  let B := N.of_nat (length A) in
  ob_transition_batch (batch_of A) n n B B bra ket trees =
  Ok (map (fun '(b, o) => Some (inner n (row (2 ^ n) bra b) (op_act o (row (2 ^ n) ket b)))) (combine (seqN B) A)).
Proof. intros Hv Hn0 Hn Hf Ht B. unfold ob_transition_batch. rewrite size_ok by assumption. fold B. rewrite !N.eqb_refl. now apply amplitudes_ok. Qed.
Lemma amplitude_throws A n nb nk B Bb Bk flat bra ket trees : fits_vector A ->
  (B <> N.of_nat (length A) -> ob_expectation_batch (batch_of A) n B flat trees = Throw) /\
  (nb <> nk -> ob_transition (batch_of A) nb nk bra ket trees = Throw) /\
  (nb <> nk \/ Bb <> Bk \/ Bb <> N.of_nat (length A) -> ob_transition_batch (batch_of A) nb nk Bb Bk bra ket trees = Throw).
Proof.
  intros Hv. unfold ob_expectation_batch, ob_transition, ob_transition_batch. rewrite size_ok by assumption. split; [|split].
  - intros H. destruct (N.eqb_spec (N.of_nat (length A)) B); [congruence|reflexivity].
  - intros H. destruct (N.eqb_spec nb nk); [congruence|reflexivity].
  - intros H. destruct (N.eqb_spec nb nk); [|reflexivity]. destruct (N.eqb_spec Bb Bk); [|reflexivity]. destruct (N.eqb_spec (N.of_nat (length A)) Bb); [|reflexivity]. exfalso. destruct H as [H|[H|H]]; congruence.
Qed.
(** without qubits there are no pairs to visit, and the value is 0 *)
Lemma zero_qubits_wrong : exists o psi, op_fits 0 o /\ inner 0 psi (op_act o psi) <> C0 /\
  forall trees, reduction_of (ob_iters (2 ^ 0) (0, 1)) (trees 0) -> ob_expectation (batch_of [o]) 0 psi trees = Ok [Some C0].
Proof.
  exists (op_of_terms [Pauli C1 0 0]), (fun _ => C1). split; [|split].
  - repeat constructor.
  - unfold inner. rewrite (Csum_single 1 _ 0); [|lia|lia]. unfold op_act. cbn [o_terms op_of_terms]. unfold terms_act, Csuml. cbn [map fold_right].
    rewrite pauli_act_eq. cbn [p_coef p_bf p_pf]. rewrite phase_diag. change (pauli_sign (N.land 0 0)) with C1. intros H. apply (f_equal fst) in H.
    cbv [Cmul Cadd Cconj C1 C0 fst snd] in H. lra.
  - intros trees Ht. unfold ob_expectation, ob_amplitudes. change (rows (batch_of [op_of_terms [Pauli C1 0 0]])) with (Ok [(0, 1)]).
    cbv iota beta. f_equal. change (seqN (lenN [(0, 1)])) with [0]. cbn [combine map]. unfold ob_amplitude.
    rewrite (creduce_correct _ (fun _ => C0) (ob_iters (2 ^ 0) (0, 1)) (trees 0) Ht); [reflexivity|]. intros i [].
Qed.

(** ** Applied states *)
Lemma applied_ok A n psi batch_size : 0 < n -> n <= 63 -> 0 < batch_size -> Forall (op_fits n) A -> Forall (fun o => flips_only_qubit_0 o \/ every_term_flips o) A ->
  (forall scheds, ob_applied_states (batch_of A) n psi batch_size scheds = None \/
     exists r, ob_applied_states (batch_of A) n psi batch_size scheds = Some (Ok r) /\ applied_rows n A psi r) /\
  (exists scheds r, ob_applied_states (batch_of A) n psi batch_size scheds = Some (Ok r) /\ applied_rows n A psi r).
Proof.
  intros Hn0 Hn Hb Hf Hk. unfold batch_of, ob_of_operators.
  assert (T : forall r, applied_lists n (map o_terms A) psi r -> applied_rows n A psi r).
  { intros r H b o x E Hx. rewrite (H b (o_terms o) x); [reflexivity|now rewrite nth_error_map, E|assumption]. }
  destruct (ob_applied_correct (map o_terms A) n psi batch_size) as [H1 (s & r & H2 & H3)]; auto; try (rewrite Forall_map; assumption).
  split; [intros s'; destruct (H1 s') as [?|(r' & ? & ?)]; [now left|right; eauto]|eauto].
Qed.
Lemma applied_race : exists o, op_fits 2 o /\ forall psi, exists scheds, ob_applied_states (batch_of [o]) 2 psi 1 scheds = Some UB.
Proof.
  exists (op_of_terms [Pauli C1 0 1; Pauli C1 2 0]). split; [repeat constructor|]. intros psi. exists [repeat 0 12 ++ repeat 1 12].
  cbv -[C1 C0 Cmul Cadd Copp Csub PHASE_M90ROT]. reflexivity.
Qed.
Lemma applied_no_progress A n psi scheds : A <> [] -> ob_applied_states (batch_of A) n psi 0 scheds = None.
Proof.
  intros H. unfold ob_applied_states, batch_of, ob_of_operators. rewrite rows_of_lists. destruct A as [|a A]; [contradiction|]. cbn [map ranges].
  assert (F : forall x l, 0 <? lenN ((x : N * N) :: l) = true) by (intros; apply N.ltb_lt; unfold lenN; simpl; lia). now rewrite F.
Qed.
Lemma scale_wrong : exists A coef s r, length coef = length A /\ ob_scale (batch_of A) coef s = Some (Ok r) /\ ~ holds r (map o_terms (each2 op_scale A coef)).
Proof. exists two_and_none, [C1; C0]. destruct scale_wrong_element as (s & r & H). exists s, r. split; [reflexivity|exact H]. Qed.
