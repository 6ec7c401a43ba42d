(** The distribution of samples: what sampling returns, averaged over the random numbers it uses. *)
From Verif Require Export NoiseMeanSpec Density DensitySpec.

(** The numbers us, [count] for each of [m] rounds. *)
Fixpoint rounds_of (m count : nat) (us : list R) : list (N -> R) :=
  match m with O => [] | S m => (fun i => nth (N.to_nat i) (firstn count us) 0%R) :: rounds_of m count (skipn count us) end.
(** The expected value of V of one basis state of n qubits, x coming up with probability p x. *)
Definition one_outcome (n : N) (p : N -> R) (V : N -> C) : C := Csuml (fun x => Cscale (p x) (V x)) (seqN (2 ^ n)).
(** Experiments that do not influence each other, one after the other. *)
Fixpoint jointly {T} (Es : list ((T -> C) -> C)) (V : list T -> C) : C :=
  match Es with [] => V [] | E :: Es => E (fun s => jointly Es (fun ss => V (s :: ss))) end.
(** f of what was returned, 0 if the numbers ran out before. *)
Definition if_done {T} (f : T -> C) (o : option T) : C := match o with Some l => f l | None => C0 end.
(** The probability that every element of the batch has its samples after m rounds. *)
Definition all_ended (n B : N) (psi : state) (count : N) (m : nat) : R :=
  fold_right Rmult 1%R (map (fun b => (1 - (1 - sqnorm n (batch n b psi)) ^ m) ^ N.to_nat count)%R (seqN B)).
(** How often x occurs. *)
Definition frequency (x : N) (l : list N) : C := RtoC (INR (count_occ N.eq_dec l x)).
