(** Programs over Operator variables.

    Operator holds its terms in a Kokkos::View (operator.hpp:117-122), so copying an Operator object (copy
    construction, assignment, operator.hpp:85 unary plus) copies the reference, not the terms, while every object
    has its own _is_hermitian flag.  A store maps variables to handles, and handles refer to term arrays. *)
From Verif Require Export OperatorSpec.

Record handle : Type := Handle { h_ref : nat; h_herm : bool; h_view : bool }.
Record store : Type := Store { arrays : list (list pauli); vars : N -> option handle }.
Definition empty_store : store := Store [] (fun _ => None).
Definition array (s : store) (r : nat) : list pauli := nth r (arrays s) [].
(** the operator a variable denotes *)
Definition value (s : store) (h : handle) : operator := Op (array s (h_ref h)) (h_herm h) (h_view h).
Definition lookup (s : store) (x : N) : option operator := option_map (value s) (vars s x).
Definition bind (s : store) (x : N) (h : handle) : store :=
  Store (arrays s) (fun y => if y =? x then Some h else vars s y).
(** a newly allocated operator *)
Definition alloc (s : store) (x : N) (o : operator) : store :=
  bind (Store (arrays s ++ [o_terms o]) (vars s)) x (Handle (length (arrays s)) (o_herm o) (o_view o)).
(** the terms of the array overwritten, and the flag of this handle *)
Definition overwrite (s : store) (x : N) (h : handle) (o : operator) : store :=
  bind (Store (set_nth (h_ref h) (o_terms o) (arrays s)) (vars s)) x (Handle (h_ref h) (o_herm o) (o_view o)).

(** The expressions that return a new Operator (each modelled by the function of the same name in Operator.v) *)
Inductive oexpr : Type :=
| OEnew (k : nat)
| OEterms (l : list pauli)
| OEcopy (y : N)
| OEdagger (y : N)
| OEneg (y : N)
| OEscale (y : N) (c : C)
| OEadd (y z : N)
| OEsub (y z : N)
| OEaddp (y : N) (q : pauli)
| OEsubp (y : N) (q : pauli)
| OEmul (y z : N)
| OEmulp (y : N) (q : pauli).
Definition obind {T U} (o : option T) (f : T -> option U) : option U := match o with Some x => f x | None => None end.
Definition oeval (s : store) (e : oexpr) : option operator :=
  match e with
  | OEnew k => Some (op_new k)
  | OEterms l => Some (op_of_terms l)
  | OEcopy y => option_map op_copy (lookup s y)
  | OEdagger y => option_map op_dagger (lookup s y)
  | OEneg y => option_map op_neg (lookup s y)
  | OEscale y c => option_map (fun o => op_scale o c) (lookup s y)
  | OEadd y z => obind (lookup s y) (fun a => option_map (op_add a) (lookup s z))
  | OEsub y z => obind (lookup s y) (fun a => option_map (op_sub a) (lookup s z))
  | OEaddp y q => option_map (fun o => op_add_pauli o q) (lookup s y)
  | OEsubp y q => option_map (fun o => op_sub_pauli o q) (lookup s y)
  | OEmul y z => obind (lookup s y) (fun a => option_map (op_mul a) (lookup s z))
  | OEmulp y q => option_map (fun o => op_mul_pauli o q) (lookup s y)
  end.
Inductive ostmt : Type :=
| OSlet (x : N) (e : oexpr)          (* x = e *)
| OSassign (x y : N)                 (* x = y, x = +y *)
| OSload (x : N) (l : list pauli)    (* x.load(l) *)
| OSoptimize (x : N)                 (* x.optimize() *)
| OSscale (x : N) (c : C)            (* x *= c *)
| OSmulp (x : N) (q : pauli)         (* x *= q *)
| OSforce (x : N).                   (* x.force_hermitian() *)
(** One statement; an exception leaves the store as it was, a statement on an unset variable does nothing. *)
Definition ostep (s : store) (c : ostmt) : store :=
  match c with
  | OSlet x e => match oeval s e with Some o => alloc s x o | None => s end
  | OSassign x y => match vars s y with Some h => bind s x h | None => s end
  | OSload x l =>
    match vars s x with
    | Some h => match op_load (value s h) l with Ok o => overwrite s x h o | _ => s end
    | None => s
    end
  | OSoptimize x =>
    match vars s x with
    | Some h => match op_optimize (value s h) with Ok o => alloc s x o | _ => s end
    | None => s
    end
  | OSscale x c => match vars s x with Some h => overwrite s x h (op_scale_in_place (value s h) c) | None => s end
  | OSmulp x q => match vars s x with Some h => overwrite s x h (op_mul_pauli_in_place (value s h) q) | None => s end
  | OSforce x => match vars s x with Some h => overwrite s x h (op_force (value s h)) | None => s end
  end.
Definition orun (l : list ostmt) : store := fold_left ostep l empty_store.

(** Programs that form no products, do not force the flag, and change the terms of an operator in place only
    while no other variable shares them. *)
Definition exclusive (s : store) (x : N) : Prop :=
  forall h y h', vars s x = Some h -> y <> x -> vars s y = Some h' -> h_ref h' <> h_ref h.
Definition plain_expr (e : oexpr) : Prop := match e with OEmul _ _ | OEmulp _ _ => False | _ => True end.
Definition plain_step (s : store) (c : ostmt) : Prop :=
  match c with
  | OSlet _ e => plain_expr e
  | OSassign _ _ | OSoptimize _ => True
  | OSload x _ => exclusive s x
  | OSscale x c => exclusive s x \/ is_real c = true
  | OSmulp _ _ | OSforce _ => False
  end.
Fixpoint plain_run (s : store) (l : list ostmt) : Prop :=
  match l with [] => True | c :: r => plain_step s c /\ plain_run (ostep s c) r end.
