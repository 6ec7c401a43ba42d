(** Circuit::optimize: what it gets wrong, and examples. *)
From Verif Require Export OptimizeProofs9.
From Coq Require Import ZifyBool ZifyN ZifyNat Permutation Lra.

Lemma no_phase : exists P, Rlt_dec (/ 10 ^ 12) (Rabs (0 + 0)) = right P.
Proof.
  destruct (Rlt_dec _ _) as [H|H]; [|eauto]. exfalso. rewrite Rplus_0_r, Rabs_R0 in H. assert (0 < / 10 ^ 12)%R by (apply Rinv_0_lt_compat, pow_lt; lra). lra.
Qed.
Definition gate_x0 : egate := EStd GX (GBase 1 0 0).
Definition act_x0 : sgate := act_of (Call1 GX 0 [] []).
Definition x_item : citem := IGate (CElem (true, gate_x0)).
Lemma made_x0 : make false (Call1 GX 0 [] []) = Ok gate_x0. Proof. vm_compute. reflexivity. Qed.
Lemma x_represents : represents x_item (SFixed act_x0).
Proof. constructor. constructor. eapply acts_factory; [exact I|apply made_x0]. Qed.
Lemma x_at psi : apply_mat [0] [] (std1_textbook GX) psi 0 = psi 1 /\ apply_mat [0] [] (std1_textbook GX) psi 1 = psi 0.
Proof.
  split; unfold apply_mat; cbn [ctrl_ok forallb std1_textbook]; change (2 ^ N.of_nat (length [0])) with 2; rewrite Csum_2.
  - change (gather [0] 0) with 0. change (scatter [0] 0 0) with 0. change (scatter [0] 1 0) with 1. change (pauli1 1 0 0) with C0. change (pauli1 1 0 1) with C1. ring.
  - change (gather [0] 1) with 1. change (scatter [0] 0 1) with 0. change (scatter [0] 1 1) with 1. change (pauli1 1 1 0) with C1. change (pauli1 1 1 1) with C0. ring.
Qed.
Lemma x_keeps psi : sqnorm 1 (apply_mat [0] [] (std1_textbook GX) psi) = sqnorm 1 psi.
Proof.
  destruct (x_at psi) as [E0 E1]. unfold sqnorm. change (seqN (2 ^ 1)) with [0; 1]. cbn [Rsuml map fold_right]. rewrite E0, E1. ring.
Qed.

(** ** Two X gates become one *)
Theorem optimize_wrong : exists c c' p p' s a b, circuit_is c p /\ Forall (fun q => q < 1) (program_operands p) /\ ordinary c /\ norm_safe 1 p /\
  optimize false 3 c = Ok c' /\ circuit_is c' p' /\
  run_program watch_all 1 (fun _ => None) p [] s (SDone a) /\ run_program watch_all 1 (fun _ => None) p' [] s (SDone b) /\ forall theta, a <> turned theta b.
Proof.
  set (f := apply_mat [0] [] (std1_textbook GX)). set (psi0 := (fun x : N => if x =? 0 then C1 else C0) : state).
  exists (Circuit [x_item; x_item] [None; None]), (Circuit [x_item] [None]), [(SFixed act_x0, None); (SFixed act_x0, None)], [(SFixed act_x0, None)],
    (SState psi0 []), (SState (f (f psi0)) []), (SState (f psi0) []).
  split; [split; [repeat (apply Forall2_cons; [exact x_represents|]); apply Forall2_nil|reflexivity]|]. split; [repeat constructor|]. split; [|split; [|split; [|split; [|split; [|split]]]]].
  - intros i g Hi _. assert (i = x_item) as ->. { cbn in Hi. destruct Hi as [E|[E|[]]]; now injection E as <- _. }
    cbn [x_item mergeable]. split; [|discriminate]. eapply made_call; [|apply made_x0]. exact I.
  - intros (i & c & Hi & Hm). exfalso. destruct Hi as [E|[E|[]]]; injection E as <- _; discriminate.
  - unfold optimize. destruct no_phase as [P HP]. assert (Hl : exists w, o_loop false 3 (required_n_qubits (Circuit [x_item; x_item] [None; None])) [x_item; x_item] [None; None] o_start = Ok (OSt [] (0 + 0) [CElem (true, gate_x0); CElem (true, EI)] w true) /\ w 0 = Some 0%nat).
    { eexists. split; [reflexivity|reflexivity]. }
    destruct Hl as (w & Hl & Hw). cbn [c_gates c_conds]. rewrite Hl. cbn [bindR]. unfold o_finish. change (seqN (required_n_qubits _)) with [0]. unfold waiting. cbn [flat_map o_wait o_phase]. rewrite Hw. cbn [app sort_unique fold_right insert_unique take_all pool_at nth_error o_pool bindR o_out map].
    rewrite HP. reflexivity.
  - split; [repeat (apply Forall2_cons; [exact x_represents|]); apply Forall2_nil|reflexivity].
  - unfold run_program. change (existsb _ _) with false. cbn [instantiate item_gate]. apply dexec_spec. exists []. unfold act_x0, act_of. rewrite !dexec_act. split; [reflexivity|]. split; [reflexivity|]. apply dexec_end. auto.
  - unfold run_program. change (existsb _ _) with false. cbn [instantiate item_gate]. apply dexec_spec. exists []. unfold act_x0, act_of. rewrite !dexec_act. split; [reflexivity|]. apply dexec_end. auto.
  - intros theta E. assert (E0 : f (f psi0) 0 = (Cexpi theta * f psi0 0)%C) by (injection E as E; now rewrite E).
    unfold f in E0. destruct (x_at (apply_mat [0] [] (std1_textbook GX) psi0)) as [H1 _]. destruct (x_at psi0) as [H2 H3]. rewrite H1, H2, H3 in E0.
    change (psi0 0) with C1 in E0. change (psi0 1) with C0 in E0. apply (f_equal fst) in E0. cbn in E0. lra.
Qed.

(** ** A permutation next to another gate *)
Definition perm_gate : egate := EPermutation (GBase 3 0 0) [1; 0] (perm_schedule [1; 0]).
Theorem optimize_throws : exists c p, circuit_is c p /\ Forall (fun q => q < 2) (program_operands p) /\ ordinary c /\ optimize false 3 c = Throw.
Proof.
  assert (Hm : make false (CallPermutation [1; 0]) = Ok perm_gate) by reflexivity.
  exists (Circuit [x_item; IGate (CElem (true, perm_gate))] [None; None]), [(SFixed act_x0, None); (SFixed (act_of (CallPermutation [1; 0])), None)].
  split; [split; [apply Forall2_cons; [exact x_represents|]; apply Forall2_cons; [|apply Forall2_nil]; constructor; constructor; apply acts_factory with false; [exact I|assumption]|reflexivity]|].
  split; [repeat constructor|]. split.
  - intros i g Hi _. cbn in Hi. destruct Hi as [E|[E|[]]]; injection E as <- _; cbn [x_item mergeable]; (split; [|discriminate]); eapply made_call; [|apply made_x0| |apply Hm]; exact I.
  - reflexivity.
Qed.

(** ** A circuit that meets the hypotheses *)
Definition gate_rx (a : R) : egate := EStd (GRX a) (GBase 1 0 0).
Definition gate_h1 : egate := EStd GH (GBase 2 0 0).
Definition meas_0 : cgate := CMeas 1 0 false.
Definition ex_circuit : circuit := Circuit [IGate (CElem (true, gate_rx 1)); IGate (CElem (true, gate_h1)); IGate (CElem (true, gate_rx 2)); IGate meas_0] [None; None; None; None].
Definition ex_sprogram : program := [(SFixed (act_of (Call1 (GRX 1) 0 [] [])), None); (SFixed (act_of (Call1 GH 1 [] [])), None); (SFixed (act_of (Call1 (GRX 2) 0 [] [])), None); (SFixed (Meas 0 0 false), None)].
Lemma made_rx a : make false (Call1 (GRX a) 0 [] []) = Ok (gate_rx a). Proof. reflexivity. Qed.
Lemma made_h1 : make false (Call1 GH 1 [] []) = Ok gate_h1. Proof. reflexivity. Qed.
Lemma snap_0 : snap (0 + 0) = 0%R.
Proof. unfold snap. rewrite Rplus_0_r. now destruct (Rlt_dec _ _). Qed.
Theorem optimize_example : circuit_is ex_circuit ex_sprogram /\ Forall (fun q => q < 2) (program_operands ex_sprogram) /\ ordinary ex_circuit /\ norm_safe 2 ex_sprogram /\
  never_cancels ex_circuit /\ no_permutations ex_circuit /\
  optimize false 1 ex_circuit = Ok (Circuit [IGate (CElem (true, gate_rx (1 + 2))); IGate meas_0; IGate (CElem (true, gate_h1))] [None; None; None]).
Proof.
  split; [|split; [|split; [|split; [|split; [|split]]]]].
  - split; [|reflexivity]. apply Forall2_cons; [|apply Forall2_cons; [|apply Forall2_cons; [|apply Forall2_cons; [|apply Forall2_nil]]]]; constructor.
    + constructor. apply acts_factory with false; [exact I|reflexivity].
    + constructor. apply acts_factory with false; [exact I|reflexivity].
    + constructor. apply acts_factory with false; [exact I|reflexivity].
    + apply stands_measure. reflexivity.
  - repeat constructor.
  - intros i g Hi _. cbn in Hi. destruct Hi as [E|[E|[E|[E|[]]]]]; injection E as <- _; cbn [mergeable meas_0]; try exact I; (split; [|discriminate]); eapply made_call; [|apply made_rx| |apply made_h1| |apply made_rx]; exact I.
  - intros _ qs f Hi psi. destruct Hi as [E|[E|[E|[E|[]]]]]; try discriminate; unfold act_of in E; injection E as _ <-.
    + apply (unitary_act_keeps 2 false (Call1 (GRX 1) 0 [] []) (gate_rx 1)); [reflexivity|exact I|apply made_rx|exact I|repeat constructor].
    + apply (unitary_act_keeps 2 false (Call1 GH 1 [] []) gate_h1); [reflexivity|exact I|apply made_h1|exact I|repeat constructor].
    + apply (unitary_act_keeps 2 false (Call1 (GRX 2) 0 [] []) (gate_rx 2)); [reflexivity|exact I|apply made_rx|exact I|repeat constructor].
  - intros g Hi. cbn in Hi. destruct Hi as [E|[E|[E|[E|[]]]]]; injection E as <-; (split; [reflexivity|]); intros Hw; try discriminate; exact I.
  - intros e Hi. cbn in Hi. destruct Hi as [E|[E|[E|[E|[]]]]]; try discriminate; injection E as <-; reflexivity.
  - unfold optimize. destruct no_phase as [P HP].
    assert (Hl : exists w, o_loop false 1 (required_n_qubits ex_circuit) (c_gates ex_circuit) (c_conds ex_circuit) o_start =
      Ok (OSt [(IGate (CElem (true, gate_rx (1 + 2))), None); (IGate meas_0, None)] (0 + snap (0 + 0)) [CElem (true, gate_rx 1); CElem (true, gate_h1); CElem (true, gate_rx (1 + 2))] w false) /\ w 0 = None /\ w 1 = Some 1%nat).
    { eexists. split; [reflexivity|split; reflexivity]. }
    destruct Hl as (w & Hl & Hw0 & Hw1). rewrite snap_0 in Hl. rewrite Hl. cbn [bindR]. unfold o_finish. change (seqN (required_n_qubits _)) with [0; 1]. unfold waiting. cbn [flat_map o_wait o_phase]. rewrite Hw0, Hw1.
    cbn [app sort_unique fold_right insert_unique take_all pool_at nth_error o_pool bindR o_out map]. rewrite HP. reflexivity.
Qed.
Theorem optimize_works vf mb n c p : n < 64 -> circuit_is c p -> Forall (fun q => q < n) (program_operands p) -> ordinary c -> norm_safe n p ->
  never_cancels c -> no_permutations c ->
  exists c' p' (theta : R), optimize vf mb c = Ok c' /\ circuit_is c' p' /\ (Rabs theta <= (INR (length (c_gates c)) + 1) * / 10 ^ 12)%R /\
    (length (c_gates c') <= length (c_gates c) + 1)%nat /\
    forall ps us s s', run_program watch_all n ps p us s (SDone (turned theta s')) <-> run_program watch_all n ps p' us s (SDone s').
Proof.
  intros Hn Hc HF Ho Hns Hnc Hnp. destruct (optimize_returns vf mb n c p Hn Hc HF Ho Hnp) as [c' E].
  destruct (optimize_correct vf mb n c p c' Hn Hc HF Ho Hns E (optimize_keeps_qubits vf mb c Ho Hnc)) as (p' & theta & H). eauto 8.
Qed.
