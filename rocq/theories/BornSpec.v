(** Measuring several qubits, one after the other, into several bits. *)
From Verif Require Export ChannelSpec.

(** Each entry (q, bit, reset): measure qubit q into the bit, and put it to 0 if asked for. *)
Definition measurements (ms : list (N * N * bool)) : program := map (fun m => (SFixed (Meas (fst (fst m)) (snd (fst m)) (snd m)), None)) ms.
(** The bits show the values vs. *)
Definition bits_show (ms : list (N * N * bool)) (vs : list bool) (r : list bool) : bool :=
  forallb (fun mv => match nth_error r (N.to_nat (snd (fst (fst mv)))) with Some b => Bool.eqb b (snd mv) | None => false end) (combine ms vs).
(** In the basis state x the qubits show the values vs. *)
Definition qubits_show (ms : list (N * N * bool)) (vs : list bool) (x : N) : bool :=
  forallb (fun mv => shows_bit (fst (fst (fst mv))) (snd mv) x) (combine ms vs).
