(** The joint distribution of several measurements. *)
From Verif Require Export BornSpec SignalProofs2.
From Verif Require Import ChannelProofs5.
From Coq Require Import ZifyBool ZifyN ZifyNat Lra FunctionalExtensionality.

Definition wherever (n : N) (P : N -> bool) (rho : N -> N -> C) : C := Csum (2 ^ n) (fun i => if P i then rho i i else C0).
Lemma collapsed_where n q b reset P rho : q < n -> (forall x, P (N.lxor x (2 ^ q)) = P x) ->
  wherever n P (collapsed q b reset rho) = wherever n (fun i => shows_bit q b i && P i) rho.
Proof.
  intros Hq HP. unfold wherever, collapsed. destruct (reset && b).
  - set (rho' := fun i j => if P i then (if shows_bit q b i && shows_bit q b j then rho i j else C0) else C0).
    transitivity (tr n (conjugated (flipped q) rho')).
    + unfold tr, Csum. apply Csuml_ext. intros x _. unfold conjugated, flipped, rho'. cbv zeta. rewrite Cconj_invol, HP. reflexivity.
    + rewrite (trace_kept n (flipped q) rho' (flip_linear q) (flip_local n q Hq) (fun psi => sqnorm_flipped n q psi Hq)). unfold tr, rho', Csum. apply Csuml_ext. intros x _. destruct (P x), (shows_bit q b x); reflexivity.
  - unfold Csum. apply Csuml_ext. intros x _. cbv zeta. rewrite N.lxor_0_r. destruct (P x), (shows_bit q b x); reflexivity.
Qed.
Lemma wherever_add n P a b : wherever n P (fun i j => a i j + b i j)%C = (wherever n P a + wherever n P b)%C.
Proof. unfold wherever, Csum. rewrite <- Csuml_add. apply Csuml_ext. intros x _. destruct (P x); [reflexivity|ring]. Qed.
(** Sums over the contents of the register where one bit is fixed *)
Lemma registers_fixed m k v (G : list bool -> C) : k < N.of_nat m ->
  Csuml (fun r => match nth_error r (N.to_nat k) with Some b => if Bool.eqb b v then G (with_bit r k false) + G (with_bit r k true) else C0 | None => C0 end)%C (registers m) = Csuml G (registers m).
Proof.
  intros Hk. rewrite (registers_pair _ m k Hk), (registers_pair G m k Hk). apply Csuml_ext. intros r Hr. apply registers_length in Hr.
  destruct (nth_error r (N.to_nat k)) as [[]|] eqn:E; try reflexivity. rewrite with_bit_nth, !with_bit_twice, (with_bit_self r k false E) by lia. destruct v; cbn [Bool.eqb]; ring.
Qed.
Definition gates_of (ms : list (N * N * bool)) : list (sgate * option cond) := map (fun m => (Meas (fst (fst m)) (snd (fst m)) (snd m), None)) ms.
Lemma unconditioned T s : conditioned None T s = T s.
Proof. unfold conditioned. cbn [holds]. apply e_ext. intros. unfold e_add. replace (fun r => s r) with s by reflexivity. ring. Qed.
Lemma joint_channel n m : forall ms vs s P, length vs = length ms -> NoDup (map (fun m => fst (fst m)) ms) -> NoDup (map (fun m => snd (fst m)) ms) ->
  Forall (fun q => q < n) (map (fun m => fst (fst m)) ms) -> Forall (fun b => b < N.of_nat m) (map (fun m => snd (fst m)) ms) ->
  (forall r b v, In b (map (fun m => snd (fst m)) ms) -> length r = m -> P (with_bit r b v) = P r) ->
  Csuml (fun r => if P r && bits_show ms vs r then wherever n (fun _ => true) (channels (gates_of ms) s r) else C0) (registers m) =
  Csuml (fun r => if P r then wherever n (qubits_show ms vs) (s r) else C0) (registers m).
Proof.
  induction ms as [|[[q bit] reset] ms IH]; intros [|v vs] s P Hlen Nq Nb Fq Fb HP; try discriminate.
  - cbn [gates_of map channels]. unfold bits_show, qubits_show. cbn [combine forallb]. apply Csuml_ext. intros r _. now rewrite andb_true_r.
  - cbn [map fst snd] in *. inversion Nq as [|? ? Nq1 Nq2]; subst. inversion Nb as [|? ? Nb1 Nb2]; subst. inversion Fq as [|? ? Fq1 Fq2]; subst. inversion Fb as [|? ? Fb1 Fb2]; subst.
    cbn [gates_of map channels fst snd]. rewrite unconditioned. cbn [channel].
    set (P' := fun r => P r && match nth_error r (N.to_nat bit) with Some b => Bool.eqb b v | None => false end).
    transitivity (Csuml (fun r => if P' r && bits_show ms vs r then wherever n (fun _ => true) (channels (gates_of ms) (measuring q bit reset s) r) else C0) (registers m)).
    { apply Csuml_ext. intros r _. unfold P', bits_show. cbn [combine forallb fst snd]. now rewrite andb_assoc. }
    rewrite IH; try assumption; [|now injection Hlen|].
    + rewrite <- (registers_fixed m bit v (fun r => if P r then wherever n (qubits_show ((q, bit, reset) :: ms) (v :: vs)) (s r) else C0) Fb1). apply Csuml_ext. intros r Hr. apply registers_length in Hr.
      unfold P'. rewrite !HP by (auto; now left). unfold measuring. destruct (nth_error r (N.to_nat bit)) as [b|] eqn:E; [|now rewrite andb_false_r].
      destruct (Bool.eqb b v) eqn:Eb; [|now rewrite andb_false_r]. apply Bool.eqb_prop in Eb. subst b. rewrite andb_true_r. destruct (P r); [|ring].
      rewrite collapsed_where; [|assumption|].
      * rewrite <- wherever_add. reflexivity.
      * intros x. unfold qubits_show. clear - Nq1. revert vs. induction ms as [|[[q' b'] r'] ms IHm]; intros [|v vs]; try reflexivity. cbn [combine forallb fst snd map] in *. rewrite IHm by (intros X; apply Nq1; now right). f_equal.
        unfold shows_bit. rewrite N.lxor_spec, N.pow2_bits_false by (intros ->; apply Nq1; now left). now rewrite xorb_false_r.
    + intros r b w Hb Hr. unfold P'. rewrite HP by (auto; now right). rewrite with_bit_other; [reflexivity| |].
      * rewrite Forall_forall in Fb2. rewrite Hr. now apply Fb2.
      * intros ->. contradiction.
Qed.
Lemma channels_then l : forall l' s, channels (l ++ l') s = channels l' (channels l s).
Proof. induction l as [|[g c] l IH]; intros l' s; cbn [app channels]; auto. Qed.
Lemma draws_then l l' : draws_list (l ++ l') = (draws_list l + draws_list l')%nat.
Proof. induction l as [|[g c] l IH]; cbn [app draws_list]; [reflexivity|]. rewrite IH. lia. Qed.
Lemma draws_gates ms : draws_list (gates_of ms) = length ms.
Proof. induction ms as [|m ms IH]; cbn [gates_of map draws_list draws length]; [reflexivity|]. now rewrite <- IH. Qed.
Lemma instantiate_measurements ps ms : instantiate ps (measurements ms) = Some (gates_of ms).
Proof. induction ms as [|m ms IH]; cbn [measurements map instantiate item_gate]; [reflexivity|]. unfold measurements in IH. now rewrite IH. Qed.
Lemma instantiate_then ps p : forall q l l', instantiate ps p = Some l -> instantiate ps q = Some l' -> instantiate ps (p ++ q) = Some (l ++ l').
Proof.
  induction p as [|[i c] p IH]; intros q l l' H H'; cbn [app instantiate] in *; [injection H as <-; exact H'|]. destruct (item_gate ps i) as [g|]; [|discriminate]. destruct (instantiate ps p) as [l1|] eqn:E; [|discriminate].
  injection H as <-. now rewrite (IH q l1 l' eq_refl H').
Qed.
Lemma orderly_prefix m l : forall ms l', orderly m ms (l ++ l') -> orderly m ms l.
Proof. induction l as [|[g c] l IH]; intros ms l' H; cbn [app orderly] in *; [exact I|]. destruct H as (A & B & D & E). repeat split; try assumption. now apply IH with l'. Qed.
Lemma orderly_bits m ms : forall used, orderly m used (gates_of ms) -> Forall (fun b => b < N.of_nat m) (map (fun m => snd (fst m)) ms).
Proof. induction ms as [|x ms IH]; intros used H; cbn [gates_of map] in *; [constructor|]. cbn [orderly bits_exist] in H. destruct H as (A & _ & _ & D). constructor; [assumption|]. exact (IH _ D). Qed.
Lemma orderly_suffix m l : forall used l', orderly m used (l ++ l') -> exists used', orderly m used' l'.
Proof. induction l as [|[g c] l IH]; intros used l' H; cbn [app orderly] in *; [eauto|]. destruct H as (_ & _ & _ & E). eauto. Qed.
Lemma operands_measurements ms : program_operands (measurements ms) = map (fun m => fst (fst m)) ms.
Proof. induction ms as [|m ms IH]; [reflexivity|]. cbn [measurements map program_operands flat_map fst item_operands operands app]. f_equal. exact IH. Qed.
Lemma kept_measurements n ps ms : Forall (fun q => q < n) (map (fun m => fst (fst m)) ms) -> norm_kept n ps (measurements ms).
Proof.
  intros H. unfold norm_kept, measurements. induction ms as [|m ms IH]; cbn [map] in *; [constructor|]. inversion H; subst. constructor; [|now apply IH]. split; [intros r; discriminate|]. cbn [fst]. intros g [= <-]. assumption.
Qed.
Lemma prob_sum n P psi : RtoC (prob n P psi) = Csum (2 ^ n) (fun i => (if P i then C1 else C0) * (psi i * Cconj (psi i)))%C.
Proof.
  unfold prob, Csum, Csuml. induction (seqN (2 ^ n)) as [|x l IH]; [reflexivity|]. cbn [filter fold_right]. rewrite <- IH. destruct (P x).
  - unfold Rsuml. cbn [fold_right]. unfold Cnorm2. destruct (psi x). c_eq; ring.
  - ring.
Qed.

Section Joint.
  Variables (n L L' : N) (ps : string -> option R) (c0 c : circuit) (p0 : program) (ms : list (N * N * bool)) (l0 : list (sgate * option cond)) (psi : state) (r0 : list bool) (vs : list bool).
  Hypotheses (Hn : n < 64) (HL : lanes_ok L) (HL' : lanes_ok L') (Hc : circuit_is c (p0 ++ measurements ms)) (Hk : norm_kept n ps p0) (Hs : sqnorm n psi = 1%R)
    (HF : Forall (fun q => q < n) (program_operands (p0 ++ measurements ms))) (Hl : instantiate ps p0 = Some l0) (Ho : orderly (length r0) [] (l0 ++ gates_of ms))
    (Hq : NoDup (map (fun m => fst (fst m)) ms)) (Hb : NoDup (map (fun m => snd (fst m)) ms)) (Hv : length vs = length ms).
  Let outcome := Csuml (fun r => wherever n (qubits_show ms vs) (channels l0 (pure psi r0) r)) (registers (length r0)).
  Lemma zero_in_here : In 0 (seqN (2 ^ n)).
  Proof. apply in_seqN. pose proof (N.pow_nonzero 2 n). lia. Qed.
  Lemma measured_range : Forall (fun q => q < n) (map (fun m => fst (fst m)) ms).
  Proof. unfold program_operands in HF. rewrite flat_map_app in HF. apply Forall_app in HF. destruct HF as [_ H]. change (Forall (fun q => q < n) (program_operands (measurements ms))) in H. now rewrite operands_measurements in H. Qed.
  Lemma joint_after : averaged (draws_list l0 + length ms) (run_gives n (circuit_update n L ps c) psi r0 (fun w => if bits_show ms vs (w_reg w) then C1 else C0)) outcome.
  Proof.
    set (l := l0 ++ gates_of ms). assert (Hl1 : instantiate ps (p0 ++ measurements ms) = Some l) by (apply instantiate_then; [assumption|apply instantiate_measurements]).
    assert (Hk1 : norm_kept n ps (p0 ++ measurements ms)) by (unfold norm_kept in *; apply Forall_app; split; [assumption|apply kept_measurements, measured_range]).
    assert (Hst : never_stops n ps (p0 ++ measurements ms) psi r0) by now apply orderly_never_stops with l.
    assert (Ed : (draws_list l0 + length ms)%nat = draws_list l) by (unfold l; now rewrite draws_then, draws_gates). rewrite Ed.
    assert (E : outcome = Csuml (fun r => (if bits_show ms vs r then C1 else C0) * Csum (2 ^ n) (fun i => channels l (pure psi r0) r i i))%C (registers (length r0))).
    { unfold outcome. transitivity (Csuml (fun r => if true then wherever n (qubits_show ms vs) (channels l0 (pure psi r0) r) else C0) (registers (length r0))); [reflexivity|].
      destruct (orderly_suffix _ _ _ _ Ho) as [used Hu]. rewrite <- (joint_channel n (length r0) ms vs _ (fun _ => true)); try assumption; [|apply measured_range|exact (orderly_bits _ _ _ Hu)|reflexivity].
      apply Csuml_ext. intros r _. unfold l. rewrite channels_then. unfold wherever. cbn [andb]. destruct (bits_show ms vs r); ring. }
    rewrite E. apply (average_same n _ psi r0 _ (fun w => Csuml (fun r => (if bits_show ms vs r then C1 else C0) * shows_register r w)%C (registers (length r0)))).
    - intros us w' w Hlen Ha Hr Hu Hstart Hrun. destruct (end_normalised n L ps c _ l psi r0 Hn HL Hc Hk1 Hs Hst Hl1 us w w' Hlen Ha Hr Hu Hstart Hrun) as [_ (us1 & us2 & s' & _ & Hx & _ & Hreg)].
      apply exec_reg_length in Hx. cbn [s_reg] in Hx. assert (Elen : length (w_reg w') = length r0) by (rewrite Hreg; exact Hx). rewrite <- Elen. destruct (registers_once (w_reg w')) as [Hnd Hin].
      rewrite (Csuml_single _ _ (w_reg w') Hnd Hin).
      + unfold shows_register. destruct (list_eq_dec bool_dec (w_reg w') (w_reg w')); [ring|congruence].
      + intros r _ Hne. unfold shows_register. destruct (list_eq_dec bool_dec (w_reg w') r); [congruence|ring].
    - apply (average_sum n _ psi r0 _ (fun r w => (if bits_show ms vs r then C1 else C0) * shows_register r w)%C _ _ r0 (proj2 (registers_once r0))). intros r _. apply average_times.
      exact (register_average n L ps c _ l psi r0 Hn HL Hc Hk1 Hs Hst Hl1 r).
  Qed.
  Lemma outcome_sum : outcome = Csum (2 ^ n) (fun i => (if qubits_show ms vs i then C1 else C0) * Csuml (fun r => channels l0 (pure psi r0) r i i) (registers (length r0)))%C.
  Proof.
    unfold outcome, wherever, Csum. rewrite Csuml_swap. apply Csuml_ext. intros i _. rewrite <- Csuml_mul_l. apply Csuml_ext. intros r _. destruct (qubits_show ms vs i); ring.
  Qed.
  Lemma joint_before : circuit_is c0 p0 -> averaged (draws_list l0) (run_gives n (circuit_update n L' ps c0) psi r0 (fun w => RtoC (prob n (qubits_show ms vs) (w_amp w)))) outcome.
  Proof.
    intros Hc0. assert (HF0 : Forall (fun q => q < n) (program_operands p0)) by (unfold program_operands in HF; rewrite flat_map_app in HF; apply Forall_app in HF; exact (proj1 HF)).
    assert (Hst : never_stops n ps p0 psi r0) by (apply orderly_never_stops with l0; try assumption; now apply orderly_prefix with (gates_of ms)).
    rewrite outcome_sum. eapply average_same; [intros us w' w _ _ _ _ _ _; symmetry; apply prob_sum|]. unfold Csum.
    apply (average_sum n _ psi r0 _ (fun i w => (if qubits_show ms vs i then C1 else C0) * (w_amp w i * Cconj (w_amp w i)))%C _ _ 0 zero_in_here). intros i Hi. apply in_seqN in Hi. apply average_times.
    exact (state_average n L' ps c0 p0 l0 psi r0 Hn HL' Hc0 Hk Hs Hst Hl i i Hi Hi).
  Qed.
  Theorem joint_law : circuit_is c0 p0 -> exists v,
    averaged (draws_list l0) (run_gives n (circuit_update n L' ps c0) psi r0 (fun w => RtoC (prob n (qubits_show ms vs) (w_amp w)))) v /\
    averaged (draws_list l0 + length ms) (run_gives n (circuit_update n L ps c) psi r0 (fun w => if bits_show ms vs (w_reg w) then C1 else C0)) v.
  Proof. intros Hc0. exists outcome. split; [now apply joint_before|apply joint_after]. Qed.
End Joint.
