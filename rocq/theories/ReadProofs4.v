(** Documents that are read, and documents that show what orderly asks for. *)
From Verif Require Export ReadProofs2.
From Coq Require Import Lia Lra ZifyBool ZifyN ZifyNat.
Open Scope N_scope.
Open Scope string_scope.

Definition x_document (target control value : list json) : json :=
  JObject [("type", JString "X"); ("target", JArray target); ("control", JArray control); ("control_value", JArray value)].
(** a controlled X gate whose target is written 0.5, as an alternative of a noise gate, then a gate of an unknown type *)
Definition noise_document : json :=
  JObject [("type", JString "Probabilistic"); ("distribution", JArray [JFloat 1]);
           ("gate_list", JArray [x_document [JFloat (1 / 2)] [JUnsigned 3] [JUnsigned 1; JNull]])].
Definition circuit_document : json :=
  JObject [("gate_list", JArray [JObject [("gate", noise_document)]; JObject [("gate", JObject [("type", JString "?")])]])].
Lemma circuit_document_orderly : orderly circuit_document.
Proof.
  unfold orderly, circuit_document, noise_document, x_document. cbn [everywhere fold_right snd orderly_object].
  repeat split; try (intros; cbn in *; intuition (subst; try discriminate); fail).
  - intros key v Hk H. cbn in Hk. destruct Hk as [<-|[<-|[<-|[<-|[<-|[<-|[]]]]]]]; cbn in H; try discriminate; injection H as <-; repeat constructor; cbn; lra.
  - intros cs vs H1 H2. injection H1 as <-. injection H2 as <-. cbn. lia.
  - intros cs c q H1 Hc Hq. injection H1 as <-. destruct Hc as [<-|[]]. injection Hq as <-. lia.
Qed.

(** ** Each condition is needed *)
Lemma too_small vf r : (r <= -1)%R -> gate_from_json vf (x_document [JFloat r] [] []) = UB.
Proof.
  intros Hr. assert (E : get_u64 (JFloat r) = UB) by (cbn; destruct (Rlt_dec (-1) r); [lra|reflexivity]).
  unfold gate_from_json, x_document. cbn - [get_u64]. rewrite E. destruct vf; reflexivity.
Qed.
Lemma far_control : gate_from_json true (x_document [JUnsigned 0] [JUnsigned 64] [JUnsigned 1]) = UB /\ gate_from_json false (x_document [JUnsigned 0] [JUnsigned 64] [JUnsigned 1]) = Throw.
Proof. split; vm_compute; reflexivity. Qed.
Lemma no_value vf : gate_from_json vf (x_document [JUnsigned 0] [JUnsigned 1] []) = UB.
Proof. destruct vf; vm_compute; reflexivity. Qed.
Lemma long_permutation vf : gate_from_json vf (JObject [("type", JString "Permutation"); ("dst", u64_list (seqN 64))]) = UB.
Proof. destruct vf; vm_compute; reflexivity. Qed.
Lemma half_coefficient r : pauli_from_json (JObject [("pauli_string", JString "X 0"); ("coef", JObject [("real", JFloat r)])]) = UB.
Proof. reflexivity. Qed.
Theorem each_needed : forall j, In j
    [x_document [JFloat (-1)] [] []; x_document [JUnsigned 0] [JUnsigned 64] [JUnsigned 1]; x_document [JUnsigned 0] [JUnsigned 1] [];
     JObject [("type", JString "Permutation"); ("dst", u64_list (seqN 64))]] -> gate_from_json true j = UB.
Proof.
  intros j [<-|[<-|[<-|[<-|[]]]]]; [apply too_small; lra|apply far_control|apply no_value|apply long_permutation].
Qed.
Theorem states_needed w : state_from_json (JObject [("n_qubits", JUnsigned 64); ("amplitudes", JArray [])]) w HUndefined /\ (forall r, state_from_json (JObject [("n_qubits", JUnsigned 0); ("amplitudes", JArray [JObject [("real", JFloat r)]])]) w HUndefined).
Proof.
  split.
  - exists (HDone (JUnsigned 64) w). split; [reflexivity|]. exists (HDone 64 w). split; [reflexivity|]. exists HUndefined. split; reflexivity.
  - intros r. exists (HDone (JUnsigned 0) w). split; [reflexivity|]. exists (HDone 0 w). split; [reflexivity|].
    destruct (set_zero_state_ok 0 w) as [Hd [o Ho]]. pose proof (Hd o Ho) as H. destruct o as [[] u|u|]; try contradiction.
    exists (HDone tt u). split; [exact Ho|]. eexists (HDone _ u). split; [reflexivity|]. exists HUndefined. split; reflexivity.
Qed.
Theorem density_needed w n h : n < 2 ^ 64 -> dm_from_json (JObject [("n_qubits", JUnsigned n); ("is_hermitian", JBool h); ("matrix", JArray [])]) w HUndefined.
Proof.
  intros _. exists (HDone (JUnsigned n) w). split; [reflexivity|]. exists (HDone n w). split; [reflexivity|]. exists (HDone (JBool h) w). split; [reflexivity|].
  exists (HDone h w). split; [reflexivity|]. exists (HDone (JArray []) w). split; [reflexivity|]. exists HUndefined. split; reflexivity.
Qed.
