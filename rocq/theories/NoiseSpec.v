(** What noise simulation means. *)
From Verif Require Export Noise.
From Coq Require Export Permutation.
Local Open Scope nat_scope.

(** ** Resolutions *)
(** A way through a circuit picks one alternative of every gate: a gate that is not probabilistic has one. *)
Definition ways (g : sgate) : nat := match g with Choice l => length l | _ => 1 end.
Definition way (g : sgate) (j : nat) : option (state -> state) :=
  match g with
  | Act _ f => if j =? 0 then Some f else None
  | Meas _ _ _ => None
  | Choice l => match nth_error l j with Some (_, Act _ f) => Some f | _ => None end
  end.
Fixpoint follow (gs : list sgate) (path : list nat) (psi : state) : option state :=
  match gs, path with
  | [], [] => Some psi
  | g :: gs, j :: path => match way g j with Some f => follow gs path (f psi) | None => None end
  | _, _ => None
  end.

(** ** Scope *)
(** Gates and probabilistic gates over gates and parametric rotations, neither measured nor nested; an
    inverted probabilistic gate has no visible type and is not among them. *)
Definition rotation (g : pgate) : Prop := match g with PProb _ _ _ => False | _ => True end.
Definition elementary (g : cgate) : Prop := match g with CElem _ => True | _ => False end.
Definition can_simulate (i : citem) : Prop :=
  match i with
  | IGate (CElem _) => True
  | IGate (CMeas _ _ _) => False
  | IGate (CProb known _ gs) => known = true /\ Forall elementary gs
  | IParam (PProb known _ gs) _ => known = true /\ Forall (fun g => match g with inl g => elementary g | inr g => rotation g end) gs
  | IParam _ _ => True
  end.
(** What std::discrete_distribution promises: the draws for the t-th gate are indices of its alternatives. *)
Definition draws_fit (gs : list sgate) (count : nat) (draws : nat -> nat) : Prop :=
  forall t g i, nth_error gs t = Some g -> i < count -> draws (t * count + i) < ways g.

(** ** The result *)
(** There are [count] samples, each a way through the circuit.  At every gate the [count] draws are handed out
    to the samples, one each.  Every way some sample took is listed once, with the state it leads to and the
    number of samples that took it. *)
Record noise_result (n : N) (gs : list sgate) (psi : state) (count : nat) (draws : nat -> nat)
    (samples : list (list nat)) (paths : list (list nat)) (result : list (state * nat)) : Prop := {
  nr_count : length samples = count;
  nr_ways : Forall (fun s => length s = length gs) samples;
  nr_draws : forall t, t < length gs ->
    Permutation (map (fun s => nth t s 0) samples) (map draws (seq (t * count) count));
  nr_paths : NoDup paths;
  nr_total : fold_right Nat.add 0 (map snd result) = count;
  nr_all : forall s, In s samples <-> In s paths;
  nr_states : Forall2 (fun path r => snd r = count_occ (list_eq_dec Nat.eq_dec) samples path /\
                exists phi, follow gs path psi = Some phi /\ forall x, (x < 2 ^ n)%N -> fst r x = phi x) paths result
}.
