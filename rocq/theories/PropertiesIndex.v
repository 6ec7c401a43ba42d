(** Properties C01 and C02: the index enumeration every kernel relies on, and the conversions between qubit
    lists and operand masks. *)
From Verif Require Import Bits IndexProofs.
From Coq Require Import Permutation Sorted.

(** C01.  The iteration numbers of a kernel loop over a register of [n] qubits (or a batch of [B] such
    registers) with operand mask [mask] produce each index whose operand bits are zero exactly once, and
    nothing else. *)
Theorem C01_enumeration_exact : forall n B mask,
  n <= 64 -> B * 2 ^ n <= 2 ^ 64 -> mask < 2 ^ n ->
  Permutation
    (map (fun it => insert_zero_at_mask_positions it mask) (seqN (N.shiftr (B * 2 ^ n) (popcount mask))))
    (filter (fun i => N.land i mask =? 0) (seqN (B * 2 ^ n))).
Proof. exact enumeration_exact. Qed.
Print Assumptions C01_enumeration_exact.
Example C01_example : map (fun it => insert_zero_at_mask_positions it 5) (seqN (N.shiftr (2 * 2 ^ 3) (popcount 5)))
                      = [0; 2; 8; 10] /\ 3 <= 64 /\ 2 * 2 ^ 3 <= 2 ^ 64 /\ 5 < 2 ^ 3.
Proof. now vm_compute. Qed.
(** A 63-qubit register with the top qubit as operand: nothing wraps. *)
Example C01_example_top : insert_zero_at_mask_positions (2 ^ 62 - 1) (2 ^ 62) = 2 ^ 62 - 1.
Proof. now vm_compute. Qed.

(** C01 for the single-position variant used by the expectation-value loops. *)
Theorem C01_enumeration_one_exact : forall n k, n <= 63 -> k < n ->
  Permutation (map (fun it => insert_zero_to_basis_index it k) (seqN (N.shiftr (2 ^ n) 1)))
              (filter (fun i => negb (N.testbit i k)) (seqN (2 ^ n))).
Proof. exact enumeration_one_exact. Qed.
Print Assumptions C01_enumeration_one_exact.
Example C01_example_one : map (fun it => insert_zero_to_basis_index it 1) (seqN (N.shiftr (2 ^ 3) 1)) = [0; 1; 4; 5].
Proof. now vm_compute. Qed.

(** C02.  A list of indices is accepted exactly when all are below 64 and no two are equal ... *)
Theorem C02_list_accepted : forall l,
  (exists m, vector_to_mask l = Ok m) <-> (Forall (fun q => q < 64) l /\ NoDup l).
Proof. exact vector_to_mask_accepts. Qed.
Print Assumptions C02_list_accepted.
(** ... and otherwise an exception is thrown (never undefined behaviour). *)
Theorem C02_list_rejected : forall l,
  vector_to_mask l = Throw <-> ~ (Forall (fun q => q < 64) l /\ NoDup l).
Proof. exact vector_to_mask_rejects. Qed.
Print Assumptions C02_list_rejected.
Example C02_list_example : vector_to_mask [5; 0; 63] = Ok (2 ^ 63 + 33) /\ vector_to_mask [3; 1; 3] = Throw
                           /\ vector_to_mask [64] = Throw.
Proof. now vm_compute. Qed.

(** List to mask to list sorts the list. *)
Theorem C02_list_round_trip : forall l m, vector_to_mask l = Ok m ->
  StronglySorted N.lt (mask_to_vector m) /\ Permutation (mask_to_vector m) l.
Proof. exact list_mask_list. Qed.
Print Assumptions C02_list_round_trip.
(** Mask to list to mask is the identity. *)
Theorem C02_mask_round_trip : forall m, m < 2 ^ 64 -> vector_to_mask (mask_to_vector m) = Ok m.
Proof. exact BitsProofs.mask_to_vector_to_mask. Qed.
Print Assumptions C02_mask_round_trip.
Example C02_round_trip_example : mask_to_vector (2 ^ 63 + 33) = [0; 5; 63].
Proof. now vm_compute. Qed.

(** Control values: with one value per control, each 0 or 1, the pairs read back are the pairs given. *)
Theorem C02_control_values_read_back : forall l vs cm vm,
  length vs = length l -> Forall (fun v => v < 2) vs ->
  vector_to_mask l = Ok cm -> vector_to_mask_values l vs = Ok vm ->
  Permutation (combine (mask_to_vector cm) (mask_to_values cm vm)) (combine l vs).
Proof. exact control_values_read_back. Qed.
Print Assumptions C02_control_values_read_back.
(** Any other value is rejected, 0 and 1 are accepted. *)
Theorem C02_control_values_checked : forall l vs, Forall (fun q => q < 64) l -> length vs = length l ->
  ((exists vm, vector_to_mask_values l vs = Ok vm) <-> Forall (fun v => v = 0 \/ v = 1) vs) /\
  (vector_to_mask_values l vs = Throw <-> ~ Forall (fun v => v = 0 \/ v = 1) vs).
Proof. exact control_values_accepts. Qed.
Print Assumptions C02_control_values_checked.
Example C02_values_example :
  vector_to_mask_values [4; 1; 2] [1; 0; 1] = Ok 20 /\ mask_to_values 22 20 = [0; 1; 1] /\
  vector_to_mask_values [4; 1] [1; 2] = Throw.
Proof. now vm_compute. Qed.
(** Missing control values mean all ones; a wrong number of them is rejected. *)
Theorem C02_control_values_filled : forall l vs,
  resize_and_check_control_values l vs =
    match vs with
    | [] => Ok (repeat 1 (length l))
    | _ => if (length vs =? length l)%nat then Ok vs else Throw
    end.
Proof. exact resize_spec. Qed.
Print Assumptions C02_control_values_filled.
