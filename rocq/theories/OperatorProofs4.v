From Verif Require Export GatesProofs Prelude Cplx Spec Kernels GateSpec Operator OperatorSpec OperatorHist OperatorProofs OperatorProofs2 OperatorProofs3.

Lemma op_optimize_view o : o_view o = true -> op_optimize o = Throw.
Proof. intros H. unfold op_optimize. now rewrite H. Qed.
Lemma identity_act psi x : pauli_act (Pauli C1 0 0) psi x = psi x.
Proof.
  unfold pauli_act. cbn [p_bf p_pf p_coef]. change (bits (N.lor 0 0)) with (@nil N). unfold apply_mat. cbn. change (2 ^ N.of_nat 0) with 1. unfold Csum, seqN, Csuml. cbn. destruct (psi x). c_eq; ring.
Qed.
Theorem op_new_spec n : (forall psi x, op_act (op_new n) psi x = (RtoC (INR n) * psi x)%C) /\
  length (o_terms (op_new n)) = n /\ o_herm (op_new n) = true /\ o_view (op_new n) = false.
Proof.
  split; [|repeat split; apply repeat_length]. intros psi x. unfold op_act, terms_act, op_new. cbn [o_terms].
  induction n as [|n IH]; [cbn; destruct (psi x); c_eq; ring|]. cbn [repeat]. unfold Csuml in *. cbn [fold_right]. rewrite IH, identity_act, S_INR. destruct (psi x). c_eq; ring.
Qed.
(** Operators a program makes own their terms. *)
Definition owners (s : store) : Prop := forall x h, vars s x = Some h -> h_view h = false.
Lemma oeval_owner s e o : oeval s e = Some o -> o_view o = false.
Proof.
  destruct e; cbn [oeval]; intros H;
    repeat match type of H with
    | Some _ = Some _ => injection H as <-
    | option_map _ ?x = Some _ => destruct x; cbn [option_map] in H; [|discriminate]
    | obind ?x _ = Some _ => destruct x; cbn [obind] in H; [|discriminate]
    end; reflexivity.
Qed.
Lemma bind_owners s x h l : owners s -> h_view h = false -> owners (bind (Store l (vars s)) x h).
Proof. intros Hs Hh y h'. cbn [vars bind]. destruct (y =? x); [intros E; injection E as <-; exact Hh|apply Hs]. Qed.
Lemma ostep_owners s c : owners s -> owners (ostep s c).
Proof.
  intros Hs. destruct c as [x e|x y|x l|x|x c|x q|x]; cbn [ostep].
  - destruct (oeval s e) eqn:E; [|exact Hs]. apply bind_owners; [exact Hs|]. exact (oeval_owner _ _ _ E).
  - destruct (vars s y) eqn:E; [|exact Hs]. apply (bind_owners s x h (arrays s)); [exact Hs|exact (Hs _ _ E)].
  - destruct (vars s x) as [h|] eqn:E; [|exact Hs]. unfold op_load. destruct (Nat.eqb _ _); [|exact Hs]. apply bind_owners; [exact Hs|exact (Hs _ _ E)].
  - destruct (vars s x) as [h|] eqn:E; [|exact Hs]. unfold op_optimize. destruct (o_view (value s h)); [exact Hs|]. apply bind_owners; [exact Hs|reflexivity].
  - destruct (vars s x) as [h|] eqn:E; [|exact Hs]. apply bind_owners; [exact Hs|exact (Hs _ _ E)].
  - destruct (vars s x) as [h|] eqn:E; [|exact Hs]. apply bind_owners; [exact Hs|exact (Hs _ _ E)].
  - destruct (vars s x) as [h|] eqn:E; [|exact Hs]. apply bind_owners; [exact Hs|exact (Hs _ _ E)].
Qed.
Theorem programs_optimize l x o : lookup (orun l) x = Some o -> exists o', op_optimize o = Ok o' /\
  (forall psi a, op_act o' psi a = op_act o psi a) /\ distinct_strings (o_terms o').
Proof.
  intros H. apply op_optimize_correct.
  assert (Ho : owners (orun l)). { unfold orun. assert (H0 : owners empty_store) by (intros y h E; discriminate E). revert H0. clear. generalize empty_store. induction l as [|c l IH]; intros s Hs; [exact Hs|]. cbn [fold_left]. apply IH. now apply ostep_owners. }
  unfold lookup in H. destruct (vars (orun l) x) as [h|] eqn:E; [|discriminate]. injection H as <-. exact (Ho _ _ E).
Qed.
Lemma programs_optimize_example : exists o, lookup (orun [OSlet 0 (OEterms [Pauli Ci 5 3]); OSassign 1 0; OSlet 2 (OEadd 0 1); OSscale 2 Ci]) 2 = Some o /\ length (o_terms o) = 2%nat.
Proof. eexists. split; reflexivity. Qed.
