(** Measurements alone, all qubits, and an example. *)
From Verif Require Export BornProofs.
From Verif Require Import ChannelProofs5 OrderProofs4.
From Coq Require Import ZifyBool ZifyN ZifyNat Lra.

Lemma orderly_gates m ms : forall used, NoDup (map (fun m => fst (fst m)) ms) -> Forall (fun b => b < N.of_nat m) (map (fun m => snd (fst m)) ms) ->
  (forall q, In q used -> ~ In q (map (fun m => fst (fst m)) ms)) -> orderly m used (gates_of ms).
Proof.
  induction ms as [|[[q bit] reset] ms IH]; intros used Nq Fb Hu; cbn [gates_of map orderly fst snd] in *; [exact I|]. inversion Nq; subst. inversion Fb; subst.
  split; [assumption|]. split; [intros r _; eexists; reflexivity|]. split.
  - unfold touches. destruct (existsb _ used) eqn:E; [|reflexivity]. apply existsb_exists in E. destruct E as (x & Hx & E). cbn [operands existsb] in E. rewrite orb_false_r in E. apply N.eqb_eq in E. subst x. elim (Hu q Hx). now left.
  - apply IH; [assumption|assumption|]. intros x Hx. cbn [unreset_after] in Hx. destruct reset.
    + intros X. apply (Hu x Hx). now right.
    + destruct Hx as [<-|Hx]; [assumption|]. intros X. apply (Hu x Hx). now right.
Qed.
Theorem born_rule n L ps c ms psi r0 vs : n < 64 -> lanes_ok L -> circuit_is c (measurements ms) -> sqnorm n psi = 1%R ->
  Forall (fun q => q < n) (map (fun m => fst (fst m)) ms) -> Forall (fun b => b < N.of_nat (length r0)) (map (fun m => snd (fst m)) ms) ->
  NoDup (map (fun m => fst (fst m)) ms) -> NoDup (map (fun m => snd (fst m)) ms) -> length vs = length ms ->
  averaged (length ms) (run_gives n (circuit_update n L ps c) psi r0 (fun w => if bits_show ms vs (w_reg w) then C1 else C0)) (RtoC (prob n (qubits_show ms vs) psi)).
Proof.
  intros Hn HL Hc Hs Fq Fb Nq Nb Hv.
  assert (HF : Forall (fun q => q < n) (program_operands ([] ++ measurements ms))) by (cbn [app]; rewrite operands_measurements; exact Fq).
  assert (Ho : orderly (length r0) [] ([] ++ gates_of ms)) by (cbn [app]; apply orderly_gates; auto).
  pose proof (joint_after n L ps c [] ms [] psi r0 vs Hn HL Hc (Forall_nil _) Hs HF eq_refl Ho Nq Nb Hv) as H. cbn [draws_list Nat.add] in H.
  assert (E : Csuml (fun r => wherever n (qubits_show ms vs) (channels [] (pure psi r0) r)) (registers (length r0)) = RtoC (prob n (qubits_show ms vs) psi)).
  { destruct (registers_once r0) as [Hnd Hin]. rewrite (Csuml_single _ _ r0 Hnd Hin).
    - rewrite prob_sum. unfold wherever, Csum. apply Csuml_ext. intros i _. cbn [channels]. unfold pure. destruct (list_eq_dec bool_dec r0 r0); [|congruence]. destruct (qubits_show ms vs i); ring.
    - intros r _ Hne. unfold wherever. apply Csum_zero. intros i _. cbn [channels]. unfold pure. destruct (list_eq_dec bool_dec r r0); [congruence|]. now destruct (qubits_show ms vs i). }
  rewrite E in H. exact H.
Qed.
Lemma all_shown n ms x y : (forall q, q < n -> In q (map (fun m => fst (fst m)) ms)) -> x < 2 ^ n -> y < 2 ^ n ->
  qubits_show ms (map (fun m => N.testbit x (fst (fst m))) ms) y = (y =? x).
Proof.
  intros Ha Hx Hy. unfold qubits_show. apply Bool.eq_true_iff_eq. rewrite N.eqb_eq, forallb_forall. split.
  - intros H. apply N.bits_inj. intros k. destruct (N.lt_ge_cases k n) as [Hk|Hk].
    + apply Ha, in_map_iff in Hk. destruct Hk as (m & <- & Hm). specialize (H (m, N.testbit x (fst (fst m)))). cbn [fst snd] in H. assert (Hi : In (m, N.testbit x (fst (fst m))) (combine ms (map (fun m => N.testbit x (fst (fst m))) ms))).
      { clear - Hm. induction ms as [|m' ms IH]; [contradiction|]. cbn [map combine]. destruct Hm as [->|Hm]; [now left|right; now apply IH]. }
      apply H in Hi. unfold shows_bit in Hi. now apply Bool.eqb_prop in Hi.
    + rewrite (testbit_high y n), (testbit_high x n) by assumption. reflexivity.
  - intros ->. intros [m v] Hi. cbn [fst snd]. unfold shows_bit. assert (v = N.testbit x (fst (fst m))) as ->; [|apply Bool.eqb_reflx].
    clear - Hi. induction ms as [|m' ms IH]; [contradiction|]. cbn [map combine] in Hi. destruct Hi as [[= <- <-]|Hi]; [reflexivity|now apply IH].
Qed.
Lemma prob_one n P x psi : x < 2 ^ n -> (forall y, y < 2 ^ n -> P y = (y =? x)) -> prob n P psi = Cnorm2 (psi x).
Proof.
  intros Hx H. assert (E : RtoC (prob n P psi) = RtoC (Cnorm2 (psi x))).
  { rewrite prob_sum. unfold Csum. rewrite (Csuml_single _ _ x (NoDup_seqN _)).
    - rewrite H, N.eqb_refl by assumption. destruct (psi x). unfold Cnorm2. c_eq; ring.
    - now apply in_seqN.
    - intros y Hy Hne. apply in_seqN in Hy. rewrite (H y Hy). rewrite (proj2 (N.eqb_neq y x) Hne). ring. }
  now injection E.
Qed.
Theorem born_all n L ps c ms psi r0 x : n < 64 -> lanes_ok L -> circuit_is c (measurements ms) -> sqnorm n psi = 1%R ->
  Forall (fun q => q < n) (map (fun m => fst (fst m)) ms) -> Forall (fun b => b < N.of_nat (length r0)) (map (fun m => snd (fst m)) ms) ->
  NoDup (map (fun m => fst (fst m)) ms) -> NoDup (map (fun m => snd (fst m)) ms) -> (forall q, q < n -> In q (map (fun m => fst (fst m)) ms)) -> x < 2 ^ n ->
  averaged (length ms) (run_gives n (circuit_update n L ps c) psi r0 (fun w => if bits_show ms (map (fun m => N.testbit x (fst (fst m))) ms) (w_reg w) then C1 else C0)) (RtoC (Cnorm2 (psi x))).
Proof.
  intros Hn HL Hc Hs Fq Fb Nq Nb Ha Hx. rewrite <- (prob_one n (qubits_show ms (map (fun m => N.testbit x (fst (fst m))) ms)) x psi Hx).
  - apply born_rule; try assumption. apply map_length.
  - intros y Hy. now apply all_shown with n.
Qed.
Theorem joint_programs n L L' ps c0 c p0 ms l psi r0 vs : n < 64 -> lanes_ok L -> lanes_ok L' -> circuit_is c0 p0 -> circuit_is c (p0 ++ measurements ms) -> norm_kept n ps p0 -> sqnorm n psi = 1%R ->
  Forall (fun q => q < n) (program_operands (p0 ++ measurements ms)) -> instantiate ps (p0 ++ measurements ms) = Some l -> orderly (length r0) [] l ->
  NoDup (map (fun m => fst (fst m)) ms) -> NoDup (map (fun m => snd (fst m)) ms) -> length vs = length ms ->
  exists l0 v, instantiate ps p0 = Some l0 /\
    averaged (draws_list l0) (run_gives n (circuit_update n L' ps c0) psi r0 (fun w => RtoC (prob n (qubits_show ms vs) (w_amp w)))) v /\
    averaged (draws_list l) (run_gives n (circuit_update n L ps c) psi r0 (fun w => if bits_show ms vs (w_reg w) then C1 else C0)) v.
Proof.
  intros Hn HL HL' Hc0 Hc Hk Hs HF Hl Ho Nq Nb Hv. destruct (instantiate ps p0) as [l0|] eqn:E0.
  - rewrite (instantiate_then ps p0 _ l0 _ E0 (instantiate_measurements ps ms)) in Hl. injection Hl as <-.
    destruct (joint_law n L L' ps c0 c p0 ms l0 psi r0 vs Hn HL HL' Hc Hk Hs HF E0 Ho Nq Nb Hv Hc0) as (v & A & B). exists l0, v. rewrite draws_then, draws_gates. auto.
  - exfalso. clear - E0 Hl. revert l Hl E0. induction p0 as [|[i c] p0 IH]; intros l Hl E0; cbn [app instantiate] in *; [discriminate|]. destruct (item_gate ps i); [|discriminate].
    destruct (instantiate ps p0) eqn:E1; [discriminate|]. destruct (instantiate ps (p0 ++ measurements ms)) eqn:E2; [|discriminate]. now apply (IH l0).
Qed.
Definition both_measured : list (N * N * bool) := [(0, 0, false); (1, 1, false)].
Lemma born_example : circuit_is (build meas_calls) (measurements both_measured) /\ sqnorm 2 uneven = 1%R /\ (forall q, q < 2 -> In q (map (fun m => fst (fst m)) both_measured)) /\
  prob 2 (qubits_show both_measured [true; false]) uneven = (16 / 25)%R.
Proof.
  split; [|split; [|split]].
  - apply build_program. cbn [meas_calls flat_map says app both_measured measurements map fst snd]. repeat apply Forall2_cons; try apply Forall2_nil; (split; [|reflexivity]); cbn [fst]; apply represents_gate; now apply stands_measure.
  - rewrite sqnorm_2. unfold uneven. cbn [N.eqb Pos.eqb]. rewrite !Cnorm2_R, !Cnorm2_0. lra.
  - intros q Hq. assert (q = 0 \/ q = 1) as [-> | ->] by lia; cbn; auto.
  - rewrite (prob_one 2 _ 1); [|reflexivity|].
    + unfold uneven. cbn [N.eqb Pos.eqb]. rewrite Cnorm2_R. lra.
    + intros y Hy. change [true; false] with (map (fun m : N * N * bool => N.testbit 1 (fst (fst m))) both_measured). apply all_shown with 2; [|reflexivity|assumption].
      intros q Hq. assert (q = 0 \/ q = 1) as [-> | ->] by lia; cbn; auto.
Qed.
Lemma joint_example : circuit_is (build two_calls) ([(SFixed (act_of (Call1 GH 0 [] [])), None); (SFixed (act_of (Call1 GH 1 [] [])), None)] ++ measurements both_measured) /\
  norm_kept 2 (fun _ => None) [(SFixed (act_of (Call1 GH 0 [] [])), None); (SFixed (act_of (Call1 GH 1 [] [])), None)] /\ Forall (fun q => q < 2) (program_operands two_program) /\
  exists l, instantiate (fun _ => None) two_program = Some l /\ orderly 2 [] l /\ draws_list l = 2%nat.
Proof.
  destruct two_example as (A & B & D & E & _). split; [exact A|]. split; [|split; assumption]. unfold norm_kept, two_program in B. inversion B as [|? ? B1 B2]; subst. inversion B2 as [|? ? B3 B4]; subst. exact (Forall_cons _ B1 (Forall_cons _ B3 (Forall_nil _))).
Qed.
