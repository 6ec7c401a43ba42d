(** C61: random states. *)
From Verif Require Import HaarSpec HaarProofs HaarProofs2.
Open Scope N_scope.

(** *** C61 *)

(** The parallel filling of the amplitudes cannot run for ever or get stuck: an execution has at most five
    steps for each amplitude, and until all are filled some iteration can go on. *)
Theorem C61_terminates : forall gens draw imag_first D junk k p, (0 < gens)%nat ->
  fill_exec gens draw imag_first D k (fill_start junk) p ->
  (k <= 5 * N.to_nat D)%nat /\ (fill_done D p \/ exists q, fill_step gens draw imag_first D p q).
Proof. exact fill_terminates. Qed.
Print Assumptions C61_terminates.

(** However the iterations are scheduled and whichever generators they get, set_Haar_random_state leaves the
    normalisation of numbers that are pairs of successive draws, none used twice.  Only if all of them are 0
    is the result not a number. *)
Theorem C61_any_schedule : forall gens draw imag_first n w, (0 < gens)%nat ->
  runs (set_Haar_random_state gens draw imag_first n) w (fun o =>
    exists raw, drawn_from gens draw imag_first (2 ^ n) raw /\
      match o with
      | HDone _ w' => normalised n raw (w_amp w') /\ w_home w' = w_home w /\ w_reg w' = w_reg w /\ w_rand w' = w_rand w
      | HThrown _ => False
      | HUndefined => sqnorm n raw = 0%R
      end).
Proof. exact (fun gens draw imf n w H => haar_ok gens draw imf H n w). Qed.
Print Assumptions C61_any_schedule.

(** The state has norm 1, unless a generator gives 0 twice in a row. *)
Theorem C61_unit_norm : forall gens draw imag_first n w, (0 < gens)%nat -> no_double_zero draw ->
  runs (set_Haar_random_state gens draw imag_first n) w (done (fun _ w' => exists raw,
    drawn_from gens draw imag_first (2 ^ n) raw /\ normalised n raw (w_amp w') /\
    returns (get_squared_norm n) w' 1%R /\ w_home w' = w_home w /\ w_reg w' = w_reg w /\ w_rand w' = w_rand w)).
Proof. exact (fun gens draw imf n w H => haar_done gens draw imf H n w). Qed.
Print Assumptions C61_unit_norm.

(** The random density matrix is that of such a state: trace 1, purity 1, marked Hermitian. *)
Theorem C61_density_matrix : forall gens draw imag_first n w, (0 < gens)%nat -> n < 64 -> no_double_zero draw ->
  runs (dm_set_Haar_random_state gens draw imag_first n) w (done (fun _ d =>
    (exists raw psi, drawn_from gens draw imag_first (2 ^ n) raw /\ normalised n raw psi /\ mat_eq (2 ^ n) (rho d) (pure psi)) /\
    d_herm d = true /\ yields (get_trace n) d C1 /\ yields (get_purity n) d 1%R)).
Proof. exact (fun gens draw imf n w H => dm_haar_ok gens draw imf H n w). Qed.
Print Assumptions C61_density_matrix.

(** A batch filled with set_same_state has one random state in every element. *)
Theorem C61_batch_same : forall gens draw imag_first B n w, (0 < gens)%nat -> no_double_zero draw ->
  runs (b_set_Haar_random_state gens draw imag_first B n true) w (done (fun _ w' => exists raw psi,
    drawn_from gens draw imag_first (2 ^ n) raw /\ normalised n raw psi /\ rows_become B n (fun _ => psi) w w')).
Proof. exact (fun gens draw imf B n w H => b_haar_same_ok gens draw imf H B n w). Qed.
Print Assumptions C61_batch_same.

(** Without it every element is normalised by itself, and no draw serves twice in the whole batch. *)
Theorem C61_batch_each : forall gens draw imag_first B n w, (0 < gens)%nat -> no_double_zero draw ->
  runs (b_set_Haar_random_state gens draw imag_first B n false) w (done (fun _ w' => exists raw,
    drawn_from gens draw imag_first (B * 2 ^ n) raw /\
    (forall b, b < B -> normalised n (batch n b raw) (batch n b (w_amp w'))) /\
    w_home w' = w_home w /\ w_reg w' = w_reg w /\ w_rand w' = w_rand w)).
Proof. exact (fun gens draw imf B n w H => b_haar_each_ok gens draw imf H B n w). Qed.
Print Assumptions C61_batch_each.

(** With one generator and a serial loop the seed determines the state: amplitude x comes from draws 2x and
    2x + 1. *)
Theorem C61_serial_seed : forall (draw : nat -> nat -> R) (imag_first : bool) n w,
  let raw : state := fun x : N =>
    let a := draw 0%nat (2 * N.to_nat x)%nat in let b := draw 0%nat (S (2 * N.to_nat x)) in
    if imag_first then (b, a) else (a, b) in
  sqnorm n raw <> 0%R ->
  sets (2 ^ n) (set_Haar_random_state_serial 1 draw imag_first n) w (fun x => Cscale (/ sqrt (sqnorm n raw)) (raw x)).
Proof. exact serial_ok. Qed.
Print Assumptions C61_serial_seed.

(** Otherwise it does not, against the documentation ("If same seed is specified, same vector is generated"):
    for some draws, even with one generator, two executions give orthogonal states. *)
Theorem C61_seed_refuted : exists draw, no_double_zero draw /\ forall imag_first w, exists w1 w2,
  set_Haar_random_state 1 draw imag_first 1 w (HDone tt w1) /\
  set_Haar_random_state 1 draw imag_first 1 w (HDone tt w2) /\
  inner 1 (w_amp w1) (w_amp w2) = C0.
Proof. exact (ex_intro _ four (conj four_nonzero orthogonal_seeds)). Qed.
Print Assumptions C61_seed_refuted.

(** If the draws are independent standard normal numbers, their joint density is the same at raw and at U raw
    for every unitary U, and U takes the state made from raw to the one made from U raw.  That the state is
    therefore distributed uniformly needs the change of variables in an integral, which is not formalised. *)
Theorem C61_invariant_partial : forall n U raw psi, unitary (2 ^ n) U ->
  gaussian_density n (mat_vec (2 ^ n) U raw) = gaussian_density n raw /\
  (normalised n raw psi -> normalised n (mat_vec (2 ^ n) U raw) (mat_vec (2 ^ n) U psi)).
Proof. exact (fun n U raw psi H => conj (density_invariant n U raw H) (normalised_unitary n U raw psi H)). Qed.
Print Assumptions C61_invariant_partial.

(** The hypotheses hold of some pool, and its executions do complete with a state of norm 1. *)
Example C61_example : no_double_zero four /\ forall w, exists w', set_Haar_random_state 1 four false 1 w (HDone tt w') /\
  w_amp w' 0 = Cscale (/ sqrt 4) (1, 1)%R /\ w_amp w' 1 = Cscale (/ sqrt 4) (1, -1)%R.
Proof. split; [exact four_nonzero|]. intros w. exact (two_seeds_raw false w 0 1 eq_refl eq_refl ltac:(discriminate)). Qed.
