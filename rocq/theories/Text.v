(** Characters, decimal numbers, and formatted input from a stream. *)
From Verif Require Export Prelude.
From Coq Require Export Ascii String.
Local Open Scope N_scope.
Local Open Scope list_scope.

Definition text : Type := list ascii.
Definition ch (s : string) : ascii := match s with String c _ => c | EmptyString => zero end.
Definition to_text (s : string) : text := list_ascii_of_string s.

(** isspace in the "C" locale: space, \t, \n, \v, \f, \r *)
Definition is_space (c : ascii) : bool :=
  let k := N_of_ascii c in (k =? 32) || ((9 <=? k) && (k <=? 13)).
Definition is_digit (c : ascii) : bool := let k := N_of_ascii c in (48 <=? k) && (k <=? 57).
Definition digit_val (c : ascii) : N := N_of_ascii c - 48.
Definition digit_chr (d : N) : ascii := ascii_of_N (48 + d).
(** the number a digit string denotes *)
Definition dec_val (l : text) : N := fold_left (fun a c => 10 * a + digit_val c) l 0.

(** std::to_string of an unsigned number, with at most 20 digits *)
Fixpoint dec_loop (fuel : nat) (n : N) (acc : text) : text :=
  match fuel with
  | O => acc
  | S fuel => let acc' := digit_chr (n mod 10) :: acc in if n <? 10 then acc' else dec_loop fuel (n / 10) acc'
  end.
Definition dec (n : N) : text := dec_loop 20 n [].

(** std::istream with skipws: operator>>(char&) *)
Fixpoint skip_ws (l : text) : text :=
  match l with c :: r => if is_space c then skip_ws r else l | [] => [] end.
Definition read_char (l : text) : option (ascii * text) :=
  match skip_ws l with c :: r => Some (c, r) | [] => None end.
Fixpoint span_digits (l : text) : text * text :=
  match l with
  | c :: r => if is_digit c then let '(d, t) := span_digits r in (c :: d, t) else ([], l)
  | [] => ([], [])
  end.
(** operator>>(uint64_t&): an optional sign, then at least one decimal digit; a magnitude of 2^64 or more fails,
    and a minus sign negates modulo 2^64 (std::num_get and strtoull) *)
Definition read_sign (l : text) : bool * text :=
  match l with
  | c :: r => if Ascii.eqb c "-" then (true, r) else if Ascii.eqb c "+" then (false, r) else (false, l)
  | [] => (false, [])
  end.
Definition read_u64 (l : text) : option (N * text) :=
  let '(neg, l1) := read_sign (skip_ws l) in
  let '(d, t) := span_digits l1 in
  match d with
  | [] => None
  | _ => let v := dec_val d in
         if v <? two64 then Some (if neg then wrap (two64 - v) else v, t) else None
  end.
