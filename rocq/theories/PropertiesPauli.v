(** Properties of the text and list forms of PauliOperator (C15).

    [spells l items] (PauliTextSpec.v): the text [l] consists of the items, each a character and a number.
    [legal items]: every character is one of I X Y Z (either case), and the qubits of the letters other than I
    are below 64 and different.  [product_of l p]: p is the product of the listed single-qubit Paulis. *)
From Verif Require Import Prelude Cplx OperatorSpec PauliTextSpec PauliTextProofs PauliTextProofs2.

Theorem C15_round_trip : forall p, pauli_u64 p -> pauli_from_text (pauli_to_text p) (p_coef p) = Ok p.
Proof. exact text_round_trip. Qed.
Print Assumptions C15_round_trip.
Theorem C15_legal_text_accepted : forall l items coef, spells l items -> legal items ->
  exists p, pauli_from_text l coef = Ok p /\ p_coef p = coef /\ product_of (factors items) p.
Proof. exact text_accepts. Qed.
Print Assumptions C15_legal_text_accepted.
Theorem C15_illegal_text_rejected_partial : forall l items coef, spells l items -> ~ legal items -> pauli_from_text l coef = Throw.
Proof. exact text_rejects. Qed.
Print Assumptions C15_illegal_text_rejected_partial.
Theorem C15_malformed_text_rejected : forall l coef, (forall items, ~ spells l items) -> pauli_from_text l coef = Throw.
Proof. exact text_malformed. Qed.
Print Assumptions C15_malformed_text_rejected.
(** The qubits of I letters are not checked, so a text may name a qubit twice or above 63. *)
Theorem C15_identity_letters_refuted : exists items coef p, spells (to_text "I 100 X 0 I 0") items /\
  pauli_from_text (to_text "I 100 X 0 I 0") coef = Ok p /\ In 100 (map snd items) /\ ~ NoDup (map snd items).
Proof. exact text_identity_unchecked. Qed.
Print Assumptions C15_identity_letters_refuted.
(** A negative number is a qubit index modulo 2^64. *)
Theorem C15_negative_qubit_accepted : exists p, pauli_from_text (to_text "X -18446744073709551615") C1 = Ok p /\ product_of [(1, 1)] p.
Proof. exact text_negative_wraps. Qed.
Print Assumptions C15_negative_qubit_accepted.
(** The list constructors *)
Theorem C15_lists_accepted : forall ts ids coef, List.length ts = List.length ids -> legal_factors (combine ts ids) ->
  exists p, pauli_from_lists ts ids coef = Ok p /\ p_coef p = coef /\ product_of (nontrivial (combine ts ids)) p.
Proof. exact lists_accepts. Qed.
Print Assumptions C15_lists_accepted.
Theorem C15_lists_rejected : forall ts ids coef, ~ (List.length ts = List.length ids /\ legal_factors (combine ts ids)) ->
  pauli_from_lists ts ids coef = Throw.
Proof. exact lists_rejects. Qed.
Print Assumptions C15_lists_rejected.
(** One id per qubit: ids above 3 and letters beyond qubit 63 are rejected. *)
Theorem C15_ids_accepted : forall ids coef, Forall (fun id => id < 4) ids /\ (forall q, 64 <= q -> nth (N.to_nat q) ids 0 = 0) ->
  exists p, pauli_from_ids ids coef = Ok p /\ p_coef p = coef /\ p_bf p < two64 /\ p_pf p < two64 /\
    forall q, pauli_id_of (p_bf p) (p_pf p) q = nth (N.to_nat q) ids 0.
Proof. exact ids_accepts. Qed.
Print Assumptions C15_ids_accepted.
Theorem C15_ids_rejected : forall ids coef, ~ (Forall (fun id => id < 4) ids /\ (forall q, 64 <= q -> nth (N.to_nat q) ids 0 = 0)) ->
  pauli_from_ids ids coef = Throw.
Proof. exact ids_rejects. Qed.
Print Assumptions C15_ids_rejected.
Example C15_ids_example : pauli_from_ids [0; 1; 2; 3] C1 = Ok (Pauli C1 6 12) /\ pauli_from_ids [0; 4] C1 = Throw.
Proof. split; reflexivity. Qed.
Example C15_example : pauli_u64 (Pauli Ci (2 ^ 63 + 5) 4) /\ pauli_to_text (Pauli Ci (2 ^ 63 + 5) 4) = to_text "X 0 Y 2 X 63" /\
  pauli_from_text (to_text "z 3  x007 Y 5") C1 = Ok (Pauli C1 160 40) /\
  pauli_from_text (to_text "X 3 Y 3") C1 = Throw /\ pauli_from_text (to_text "X 64") C1 = Throw /\
  pauli_from_text (to_text "X") C1 = Throw /\ pauli_from_text (to_text "W 1") C1 = Throw.
Proof.
  split; [split; reflexivity|]. split; [vm_compute; reflexivity|]. repeat split; vm_compute; reflexivity.
Qed.
Example C15_lists_example : legal_factors (combine [3; 1; 1] [2; 0; 1]).
Proof.
  cbn [combine]. split; [|split].
  - constructor; [reflexivity|]. constructor; [reflexivity|]. constructor; [reflexivity|constructor].
  - cbn. constructor; [reflexivity|]. constructor; [reflexivity|constructor].
  - cbn. constructor; [|constructor; [|constructor]]; cbn; [intros [H|[]]; discriminate|intros []].
Qed.
