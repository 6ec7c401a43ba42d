(** update_quantum_state without a register. *)
From Verif Require Export CircuitProofs4.

Lemma has_classical_spec c : has_classical_instructions c = true <->
  (exists f, In (Some f) (c_conds c)) \/ exists t b r, In (IGate (CMeas t b r)) (c_gates c).
Proof.
  unfold has_classical_instructions. rewrite orb_true_iff, !existsb_exists. split.
  - intros [([f|] & Hin & E)|(i & Hin & E)]; [left; eauto|discriminate|]. destruct i as [[| t b r|]|]; try discriminate. right. eauto.
  - intros [[f Hin]|(t & b & r & Hin)]; [left; exists (Some f)|right; exists (IGate (CMeas t b r))]; auto.
Qed.
Lemma plain_rejects n L ps c w : ((exists f, In (Some f) (c_conds c)) \/ exists t b r, In (IGate (CMeas t b r)) (c_gates c)) ->
  runs (circuit_update_plain n L ps c) w (fun o => o = HThrown w).
Proof. intros H. apply has_classical_spec in H. unfold circuit_update_plain. rewrite H. apply runs_throw. reflexivity. Qed.
Lemma plain_runs n L ps c p w s : n < 64 -> lanes_ok L -> circuit_is c p -> same_state n (set_reg [] w) s ->
  (forall f, ~ In (Some f) (c_conds c)) -> (forall t b r, ~ In (IGate (CMeas t b r)) (c_gates c)) ->
  (forall k, unit_draw (w_rand w k)) ->
  (forall us, Forall unit_draw us -> ~ run_program watch_all n ps p us s SOutside) ->
  runs (circuit_update_plain n L ps c) w (fun o => exists us so, run_program watch_all n ps p us s so /\ used (set_reg [] w) us o /\ ends_as n o so).
Proof.
  intros Hn HL Hc Hs Hf Hm Hu Ho. unfold circuit_update_plain. destruct (has_classical_instructions c) eqn:E.
  { apply has_classical_spec in E. destruct E as [[f Hin]|(t & b & r & Hin)]; [now apply Hf in Hin|now apply Hm in Hin]. }
  destruct (circuit_runs n L ps c p (set_reg [] w) s Hn HL Hc Hs Hu Ho) as [H1 [o H2]]. split.
  - intros o' (o1 & E1 & H). unfold hmodify in E1. rewrite E1 in H. apply H1. exact H.
  - exists o. eexists. split; [reflexivity|exact H2].
Qed.
