(** What noise simulation estimates.  The random indices drawn by std::discrete_distribution are independent, and
    index j comes up with its weight divided by the sum of the weights. *)
From Verif Require Export NoiseSpec ChannelSpec.
Local Open Scope nat_scope.

(** * Expected values over finitely many independent draws *)
(** The law of a draw lists the probabilities of 0, 1, 2, ...  The draws come one after the other. *)
Fixpoint expectation (laws : list (list R)) (V : list nat -> C) : C :=
  match laws with
  | [] => V []
  | d :: laws => Csuml (fun j => Cscale (nth j d 0%R) (expectation laws (fun js => V (j :: js)))) (seq 0 (length d))
  end.
(** [k] independent copies of an experiment with expected values E. *)
Fixpoint independently {T} (k : nat) (E : (T -> C) -> C) (V : list T -> C) : C :=
  match k with O => V [] | S k => E (fun s => independently k E (fun ss => V (s :: ss))) end.
(** The law of std::discrete_distribution with these weights. *)
Definition discrete (weights : list R) : list R := map (fun p => (p / Rsuml (fun p => p) weights)%R) weights.

(** * The draws of a run *)
(** circuit.cpp:517-571: for every gate in turn, one draw per sample from the distribution made of the gate's
    probabilities. *)
Definition noise_laws (c : circuit) (count : nat) : list (list R) :=
  flat_map (fun i => match noise_choices i with Ok (weights, _) => repeat (discrete weights) count | _ => [] end) (c_gates c).
(** The expected value of f of what simulate_noise returns is v: every run whose draws are possible returns
    normally, f of the result is a function of the draws, and its expected value is v. *)
Definition noise_expects (n L : N) (ps : string -> option R) (c : circuit) (psi : state) (count : nat)
    (f : list (state * nat) -> C) (v : C) : Prop :=
  let laws := noise_laws c count in
  exists V, (forall draws w, (forall k d, nth_error laws k = Some d -> draws k < length d) ->
              runs (simulate_noise n L ps c psi count draws) w (done (fun result _ => f result = V (map draws (seq 0 (length laws)))))) /\
            expectation laws V = v.
(** The states of a result, each as often as its multiplicity says. *)
Definition listed (result : list (state * nat)) : list state := flat_map (fun r => repeat (fst r) (snd r)) result.
(** The sum of Q over these. *)
Definition tally (Q : state -> C) (result : list (state * nat)) : C := Csuml (fun r => Cscale (INR (snd r)) (Q (fst r))) result.

(** * One sample *)
(** At every gate an alternative is chosen with the gate's probabilities. *)
Definition chances (g : sgate) : list R := match g with Choice l => discrete (map fst l) | _ => [1%R] end.
(** The state a way through the circuit leads to. *)
Definition ended (gs : list sgate) (psi : state) (path : list nat) : state :=
  match follow gs path psi with Some phi => phi | None => fun _ => C0 end.
(** Expected values for one sample. *)
Definition one_sample (gs : list sgate) (psi : state) (Q : state -> C) : C := expectation (map chances gs) (fun path => Q (ended gs psi path)).

(** A quantity of n-qubit states, and one of finite collections of them. *)
Definition of_states (n : N) (Q : state -> C) : Prop := forall a b, (forall x, (x < 2 ^ n)%N -> a x = b x) -> Q a = Q b.
Definition of_collections (n : N) (H : list state -> C) : Prop :=
  (forall l l', Permutation l l' -> H l = H l') /\
  (forall l l', Forall2 (fun a b => forall x, (x < 2 ^ n)%N -> a x = b x) l l' -> H l = H l').

(** The gate whose probabilities add up to 1. *)
Definition normalised (g : sgate) : sgate :=
  match g with Choice l => Choice (map (fun pg => ((fst pg / Rsuml fst l)%R, snd pg)) l) | g => g end.
