(** What the runs of a circuit amount to on average: a quantum channel.  A mixed state together with the classical
    register is an ensemble, one (unnormalised) density matrix for every content of the register; each gate maps
    ensembles to ensembles, without any randomness.  Nothing here refers to the library's gate objects or to runs. *)
From Verif Require Export CircuitSpec.
From Coquelicot Require RInt Hierarchy.

(** * Averages *)
(** v is the mean of f over [0,1) (Riemann integral). *)
Definition mean (f : R -> R) (v : R) : Prop := @RInt.is_RInt Hierarchy.R_NormedModule f 0 1 v.
(** v is the mean of the quantity determined by [F] over k independent random numbers, uniform in [0,1): one
    integral after the other. *)
Fixpoint averaged (k : nat) (F : list R -> C -> Prop) (v : C) : Prop :=
  match k with
  | O => F [] v
  | S k => exists g : R -> C, (forall u, (0 <= u < 1)%R -> averaged k (fun us => F (u :: us)) (g u)) /\
                              mean (fun u => Re (g u)) (Re v) /\ mean (fun u => Im (g u)) (Im v)
  end.

(** * Ensembles *)
Definition ensemble : Type := list bool -> N -> N -> C.
(** The pure state psi with register r0. *)
Definition pure (psi : state) (r0 : list bool) : ensemble := fun r i j =>
  if list_eq_dec bool_dec r r0 then (psi i * Cconj (psi j))%C else C0.
Definition e_zero : ensemble := fun _ _ _ => C0.
Definition e_add (s t : ensemble) : ensemble := fun r i j => (s r i j + t r i j)%C.
Definition e_scale (a : R) (s : ensemble) : ensemble := fun r i j => Cscale a (s r i j).

(** * Gates *)
(** F rho F^+ for the linear map F: F on every column, then on every row. *)
Definition conjugated (F : state -> state) (rho : N -> N -> C) : N -> N -> C := fun i j =>
  Cconj (F (fun y => Cconj (F (fun x => rho x y) i)) j).
(** The part of rho where qubit q shows b, then qubit q is put to 0 if asked for. *)
Definition collapsed (q : N) (b reset : bool) (rho : N -> N -> C) : N -> N -> C := fun i j =>
  let m := if reset && b then 2 ^ q else 0 in
  let i := N.lxor i m in let j := N.lxor j m in
  if shows_bit q b i && shows_bit q b j then rho i j else C0.
(** Measuring: the outcome that the register now shows, and whatever the register showed before. *)
Definition measuring (q bit : N) (reset : bool) (s : ensemble) : ensemble := fun r =>
  match nth_error r (N.to_nat bit) with
  | Some b => collapsed q b reset (fun i j => (s (with_bit r bit false) i j + s (with_bit r bit true) i j)%C)
  | None => fun _ _ => C0
  end.
(** Weights of the alternatives of a random choice: the parts of [0,1) that their intervals, one after the other
    from a on, take up; the rest, if any, belongs to the last. *)
Definition clip (x : R) : R := Rmax 0 (Rmin 1 x).
Fixpoint mixture (a : R) (l : list (R * ensemble)) : ensemble :=
  match l with
  | [] => e_zero
  | [(_, s)] => e_scale (1 - clip a) s
  | (p, s) :: l => e_add (e_scale (clip (a + p) - clip a) s) (mixture (a + p) l)
  end.
Fixpoint channel (g : sgate) (s : ensemble) : ensemble :=
  match g with
  | Act _ f => fun r => conjugated f (s r)
  | Meas q bit reset => measuring q bit reset s
  | Choice l => mixture 0 (map (fun pg => (fst pg, channel (snd pg) s)) l)
  end.
(** When the register says so. *)
Definition conditioned (c : option cond) (T : ensemble -> ensemble) (s : ensemble) : ensemble :=
  e_add (T (fun r => match holds c r with Ok true => s r | _ => fun _ _ => C0 end))
        (fun r => match holds c r with Ok false => s r | _ => fun _ _ => C0 end).
Fixpoint channels (l : list (sgate * option cond)) (s : ensemble) : ensemble :=
  match l with [] => s | (g, c) :: l => channels l (conditioned c (channel g) s) end.

(** Random numbers that one run uses at most. *)
Fixpoint draws (g : sgate) : nat :=
  match g with Act _ _ => 0 | Meas _ _ _ => 1 | Choice l => S (fold_right Nat.max 0%nat (map (fun pg => draws (snd pg)) l)) end.
Fixpoint draws_list (l : list (sgate * option cond)) : nat := match l with [] => 0 | (g, _) :: l => draws g + draws_list l end.

(** * What is averaged *)
(** The numbers a run consumes come first. *)
Definition starts_with (w : world) (us : list R) : Prop := us = map (w_rand w) (seq 0 (length us)).
(** Every run of the host program [h] from the state psi with register r0 and the random numbers us ends normally,
    and then f of its final state is v. *)
Definition run_gives (n : N) (h : host world unit) (psi : state) (r0 : list bool) (f : world -> C) (us : list R) (v : C) : Prop :=
  forall w, (forall x, x < 2 ^ n -> w_amp w x = psi x) -> w_reg w = r0 -> (forall k, unit_draw (w_rand w k)) -> starts_with w us ->
    runs h w (done (fun _ w' => f w' = v)).
(** Entry (i, j) of |phi><phi| for the final state phi if the register then shows r, and 0 otherwise. *)
Definition entry (r : list bool) (i j : N) (w : world) : C :=
  if list_eq_dec bool_dec (w_reg w) r then (w_amp w i * Cconj (w_amp w j))%C else C0.
(** All contents of a register of m bits. *)
Fixpoint registers (m : nat) : list (list bool) :=
  match m with O => [[]] | S m => map (cons false) (registers m) ++ map (cons true) (registers m) end.
(** 1 if the register shows r, and 0 otherwise. *)
Definition shows_register (r : list bool) (w : world) : C := if list_eq_dec bool_dec (w_reg w) r then C1 else C0.
(** No run from this state is stopped by an exception. *)
Definition never_stops (n : N) (ps : string -> option R) (p : program) (psi : state) (r0 : list bool) : Prop :=
  forall us o, Forall unit_draw us -> run_program watch_all n ps p us (SState psi r0) o -> exists s, o = SDone s.
(** Circuits of which no run is stopped: measured bits exist, conditions can be evaluated, and no gate touches a
    qubit that may have been measured without being reset. *)
Fixpoint bits_exist (m : nat) (g : sgate) : Prop :=
  match g with
  | Act _ _ => True
  | Meas _ bit _ => bit < N.of_nat m
  | Choice l => fold_right (fun pg P => bits_exist m (snd pg) /\ P) True l
  end.
Fixpoint orderly (m : nat) (ms : list N) (l : list (sgate * option cond)) : Prop :=
  match l with
  | [] => True
  | (g, c) :: l => bits_exist m g /\ (forall r, length r = m -> exists b, holds c r = Ok b) /\ touches ms g = false /\ orderly m (unreset_after g ms) l
  end.
