(** The character and string functions qasm2.cpp uses, in the "C" locale. *)
From Verif Require Export Text.
From Coq Require Export Reals ZArith.
From Coq Require Import List.
Local Open Scope N_scope.

Notation txt := to_text.
Definition code (c : ascii) : N := N_of_ascii c.

(** std::isalpha, std::isalnum, std::tolower *)
Definition is_upper (c : ascii) : bool := (65 <=? code c) && (code c <=? 90).
Definition is_alpha (c : ascii) : bool := is_upper c || ((97 <=? code c) && (code c <=? 122)).
Definition is_alnum (c : ascii) : bool := is_alpha c || is_digit c.
Definition to_lower (c : ascii) : ascii := if is_upper c then ascii_of_N (code c + 32) else c.
Definition is_word (c : ascii) : bool := is_alnum c || Ascii.eqb c "_".

Fixpoint drop_while (p : ascii -> bool) (s : text) : text :=
  match s with [] => [] | c :: r => if p c then drop_while p r else s end.
Fixpoint take_while (p : ascii -> bool) (s : text) : text :=
  match s with [] => [] | c :: r => if p c then c :: take_while p r else [] end.
(** qasm2.cpp:115-120 *)
Definition trim (s : text) : text := rev (drop_while is_space (rev (drop_while is_space s))).
(** qasm2.cpp:122-128 *)
Definition lower (s : text) : text := map to_lower s.
Fixpoint starts_with (s word : text) : bool :=
  match word, s with
  | [], _ => true
  | w :: word, c :: s => Ascii.eqb c w && starts_with s word
  | _ :: _, [] => false
  end.
(** qasm2.cpp:130-136 *)
Definition starts_with_word (s word : text) : bool :=
  starts_with s word && match skipn (length word) s with [] => true | c :: _ => negb (is_word c) end.
(** operator== *)
Fixpoint text_eqb (s t : text) : bool :=
  match s, t with
  | [], [] => true
  | c :: s, d :: t => Ascii.eqb c d && text_eqb s t
  | _, _ => false
  end.
(** s.find(c): std::string::npos is None *)
Fixpoint find_char (c : ascii) (s : text) : option nat :=
  match s with
  | [] => None
  | d :: r => if Ascii.eqb d c then Some 0%nat else option_map S (find_char c r)
  end.
(** s.find("->") *)
Fixpoint find_text (t s : text) : option nat :=
  if starts_with s t then Some 0%nat
  else match s with [] => None | _ :: r => option_map S (find_text t r) end.
(** s.substr(b, n) where b is at most s.size() *)
Definition substr (s : text) (b n : nat) : text := firstn n (skipn b s).

(** ** Numbers *)
(** std::strtoull(s, &end, 10): the value and the text from [end] on; None when no conversion is done.  Values
    that do not fit become ULLONG_MAX; a minus sign negates modulo 2^64. *)
Definition strtoull (s : text) : option (N * text) :=
  let s := drop_while is_space s in
  let '(neg, s) := match s with
                   | c :: r => if Ascii.eqb c "-" then (true, r) else if Ascii.eqb c "+" then (false, r) else (false, s)
                   | [] => (false, s)
                   end in
  match take_while is_digit s with
  | [] => None
  | ds =>
    let v := dec_val ds in
    Some (if 2 ^ 64 <=? v then 2 ^ 64 - 1 else if neg then (2 ^ 64 - v) mod 2 ^ 64 else v, drop_while is_digit s)
  end.
(** end != begin && *end == '\0': the text of a std::string ends with a NUL, and may contain others *)
Definition parse_u64 (s : text) : option N :=
  match strtoull s with
  | Some (v, []) => Some v
  | Some (v, c :: _) => if code c =? 0 then Some v else None
  | None => None
  end.

(** std::strtod.  It is called on texts that start neither with a space nor with a sign nor with a letter, so
    neither leading spaces and signs nor "inf" and "nan" are modelled.  The value is the exact number written:
    rounding to double and overflow to infinity are not modelled. *)
Definition is_e (c : ascii) : bool := Ascii.eqb c "e" || Ascii.eqb c "E".
Definition is_p (c : ascii) : bool := Ascii.eqb c "p" || Ascii.eqb c "P".
Definition is_x (c : ascii) : bool := Ascii.eqb c "x" || Ascii.eqb c "X".
Definition hex_val (c : ascii) : option N :=
  if is_digit c then Some (code c - 48)
  else let l := code (to_lower c) in if (97 <=? l) && (l <=? 102) then Some (l - 87) else None.
Definition is_hex (c : ascii) : bool := match hex_val c with Some _ => true | None => false end.
Definition hex_num (ds : text) : N := fold_left (fun a c => a * 16 + match hex_val c with Some v => v | None => 0 end) ds 0.
(** digits, optionally a point and digits *)
Definition mantissa (dig : ascii -> bool) (s : text) : text * text * text :=
  let ip := take_while dig s in
  let r := drop_while dig s in
  match r with
  | c :: r' => if Ascii.eqb c "." then (ip, take_while dig r', drop_while dig r') else (ip, [], r)
  | [] => (ip, [], r)
  end.
(** an exponent mark, an optional sign and digits; nothing when the digits are missing *)
Definition exponent (mark : ascii -> bool) (s : text) : Z * text :=
  match s with
  | c :: r =>
    if mark c then
      let '(neg, r') := match r with
                        | d :: r' => if Ascii.eqb d "-" then (true, r') else if Ascii.eqb d "+" then (false, r') else (false, r)
                        | [] => (false, r)
                        end in
      match take_while is_digit r' with
      | [] => (0%Z, s)
      | ds => ((if neg : bool then - Z.of_N (dec_val ds) else Z.of_N (dec_val ds))%Z, drop_while is_digit r')
      end
    else (0%Z, s)
  | [] => (0%Z, s)
  end.
Definition decimal_value (ip fp : text) (e : Z) : R :=
  (IZR (Z.of_N (dec_val (ip ++ fp))) * powerRZ 10 (e - Z.of_nat (length fp)))%R.
Definition hex_value (ip fp : text) (e : Z) : R :=
  (IZR (Z.of_N (hex_num (ip ++ fp))) * powerRZ 2 (e - 4 * Z.of_nat (length fp)))%R.
Definition strtod_decimal (s : text) : option (R * text) :=
  let '(ip, fp, r) := mantissa is_digit s in
  match ip ++ fp with
  | [] => None
  | _ => let '(e, r) := exponent is_e r in Some (decimal_value ip fp e, r)
  end.
Definition strtod (s : text) : option (R * text) :=
  match s with
  | z :: x :: r =>
    if Ascii.eqb z "0" && is_x x then
      let '(ip, fp, r') := mantissa is_hex r in
      match ip ++ fp with
      | [] => strtod_decimal s
      | _ => let '(e, r') := exponent is_p r' in Some (hex_value ip fp e, r')
      end
    else strtod_decimal s
  | _ => strtod_decimal s
  end.
