(** Random (include/scaluq/util/random.hpp).  The engine is an arbitrary stream of 64-bit numbers. *)
From Coq Require Export NArith Arith List Permutation.
Export ListNotations.
Local Open Scope nat_scope.

Definition engine : Type := nat -> N.
Definition after (mt : engine) : engine := fun k => mt (S k).
(** random.hpp:32: mt() % UINT32_MAX *)
Definition int32 (mt : engine) : N := (mt 0%nat mod 4294967295)%N.

(** std::swap(shuffled[i], shuffled[j]) *)
Fixpoint put {T} (l : list T) (i : nat) (x : T) : list T :=
  match l, i with
  | [], _ => []
  | _ :: r, O => x :: r
  | y :: r, S i => y :: put r i x
  end.
Definition swap {T} (l : list T) (i j : nat) : list T :=
  match nth_error l i, nth_error l j with
  | Some x, Some y => put (put l i y) j x
  | _, _ => l
  end.
(** random.hpp:37-40: [k] is the number of indices still to visit, from the highest down *)
Fixpoint shuffle (k : nat) (l : list nat) (mt : engine) : list nat :=
  match k with
  | O => l
  | S i =>
    let j := N.to_nat (int32 mt mod (N.of_nat i + 1)) in
    shuffle i (if i =? j then l else swap l i j) (after mt)
  end.
(** random.hpp:34-42 *)
Definition permutation (n : nat) (mt : engine) : list nat := shuffle n (seq 0 n) mt.
(** std::mt19937_64 yields 64-bit numbers. *)
Definition engine_ok (mt : engine) : Prop := forall k, (mt k < 2 ^ 64)%N.
