(** C20: circuits whose inverse is missing or wrong. *)
From Verif Require Import OptimizeSpec InverseSpec CircuitProofs10 OptimizeProofs12 GatesProofs9.
From Coq Require Import Lra.
Open Scope N_scope.

(** H then T on qubit 0 *)
Definition ht_h : tgate := (true, EStd GH (GBase 1 0 0)).
Definition ht_t : tgate := (true, EStd GT (GBase 1 0 0)).
Lemma merge_ht : exists M, merge_gate false ht_h ht_t = Ok ((true, EDense (GBase 1 0 0) M false), 0%R).
Proof. eexists. reflexivity. Qed.
Lemma optimized_no_inverse : exists c c' c'', Forall factory_made (c_gates c) /\ circuit_inverse c = Ok c' /\
  optimize false 3 c = Ok c'' /\ circuit_inverse c'' = Throw.
Proof.
  destruct merge_ht as [M HM]. exists (two_gates ht_h ht_t). eexists. exists (Circuit [IGate (CElem (true, EDense (GBase 1 0 0) M false))] [None]).
  assert (M1 : made ht_h) by (apply (made_call false (Call1 GH 0 [] [])); [exact I|reflexivity]).
  assert (M2 : made ht_t) by (apply (made_call false (Call1 GT 0 [] [])); [exact I|reflexivity]).
  split; [|split; [reflexivity|]; split; [|reflexivity]].
  - repeat constructor; unfold factory_made.
    + exists false, (Call1 GH 0 [] []). repeat split; try exact I; reflexivity.
    + exists false, (Call1 GT 0 [] []). repeat split; try exact I; reflexivity.
  - apply (two_merged false 3 ht_h ht_t 0 _ 0); try assumption; try exact I; try reflexivity.
    + left. vm_compute. discriminate.
    + intros q. unfold uses. cbn [ht_h ht_t snd g_base g_t g_c]. now destruct (N.testbit 1 q || N.testbit 0 q).
    + rewrite Rabs_R0. apply Rlt_le, Rinv_0_lt_compat, pow_lt. lra.
Qed.

(** The Pauli gate 2X *)
Definition two_x : egate := EPauli (GBase 1 0 0) (Pauli (RtoC 2) 1 0).
Lemma two_x_sem psi x : gate_sem two_x psi x = (RtoC 2 * psi (N.lxor x 1))%C.
Proof.
  unfold gate_sem. cbn [two_x g_base g_t g_c g_cv get_matrix m_at].
  rewrite (apply_mat_ext_mat _ _ _ (fun i j => (RtoC 2 * tensor (map (pauli_id_of 1 0) (bits 1)) i j)%C)).
  - rewrite apply_mat_pauli by exact (covers_bits 1 0). change (ctrls 0 0) with (@nil (N * bool)). cbn [ctrl_ok forallb].
    assert (Ep : pauli_phase 1 0 x = C1).
    { unfold pauli_phase. rewrite !N.land_0_r. unfold pauli_sign, mi_pow. cbn. c_eq; ring. }
    rewrite Ep. ring.
  - exact (pauli_get_matrix_textbook (Pauli (RtoC 2) 1 0) eq_refl eq_refl).
Qed.
Lemma two_x_run n L ps w : 1 <= n -> n < 64 -> lanes_ok L -> let c := Circuit [IGate (CElem (true, two_x))] [None] in
  runs (circuit_update n L ps c) w (done (fun _ w' => forall x, x < 2 ^ n -> w_amp w' x = (RtoC 2 * w_amp w (N.lxor x 1))%C)).
Proof.
  intros H1 Hn HL c. unfold circuit_update. change (required_n_qubits c) with 1. apply N.leb_le in H1. rewrite H1. apply N.leb_le in H1.
  eapply returns_bind; [apply runs_ret; reflexivity|]. eapply returns_bind; [apply runs_ret; reflexivity|].
  cbn [c c_gates c_conds run_items checked_cond]. eapply returns_bind; [apply runs_ret; reflexivity|].
  unfold guarded_update. change (N.land 0 _ =? 0) with true. cbn [item_update cgate_update mark_measured].
  apply (runs_bind_done _ _ _ (fun _ w' => forall x, x < 2 ^ n -> w_amp w' x = (RtoC 2 * w_amp w (N.lxor x 1))%C)); [|intros m w' H; now apply runs_ret].
  eapply returns_bind; [apply runs_ret; reflexivity|].
  apply (runs_bind_done _ _ _ (fun _ w' => forall x, x < 2 ^ n -> w_amp w' x = (RtoC 2 * w_amp w (N.lxor x 1))%C)); [|intros m w' H; now apply runs_ret].
  eapply runs_weaken; [apply elem_update_runs; try assumption|].
  - split; [|reflexivity]. repeat split; reflexivity.
  - split; cbn; [|apply pow2_pos]. apply (N.lt_le_trans _ (2 ^ 1)); [reflexivity|]. now apply N.pow_le_mono_r.
  - intros [t w'|w'|]; cbn; auto. intros [H _] x Hx. rewrite H by exact Hx. apply two_x_sem.
Qed.
Lemma flip_below n x : 1 <= n -> x < 2 ^ n -> N.lxor x 1 < 2 ^ n.
Proof.
  intros H1 Hx. apply lt_pow2_testbit. intros i Hi. rewrite N.lxor_spec, (testbit_high x n i Hx Hi).
  destruct i; [lia|]. reflexivity.
Qed.
Lemma pauli_circuit_wrong : exists c c' k g, call_typed k /\ make false k = Ok g /\ c = build [OGate (CElem (true, g))] /\ circuit_inverse c = Ok c' /\
  forall n L ps w, 1 <= n -> n < 64 -> lanes_ok L ->
  runs (circuit_update n L ps c;~ circuit_update n L ps c') w (done (fun _ w' => forall x, x < 2 ^ n -> w_amp w' x = (RtoC 4 * w_amp w x)%C)).
Proof.
  exists (Circuit [IGate (CElem (true, two_x))] [None]), (Circuit [IGate (CElem (false, two_x))] [None]), (CallPauli (Pauli (RtoC 2) 1 0) [] []), two_x.
  split; [split; reflexivity|]. split; [vm_compute; reflexivity|]. split; [reflexivity|]. split; [reflexivity|].
  intros n L ps w H1 Hn HL. eapply runs_bind_done; [now apply two_x_run|]. cbv beta. intros [] w1 Hw1.
  eapply runs_weaken; [now apply (two_x_run n L ps w1)|]. intros [t w'|w'|]; cbn; auto. intros Hw' x Hx.
  rewrite Hw' by exact Hx. rewrite Hw1 by now apply flip_below. rewrite N.lxor_assoc, N.lxor_nilpotent, N.lxor_0_r. c_eq; ring.
Qed.
