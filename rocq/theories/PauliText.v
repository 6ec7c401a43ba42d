(** The text form of PauliOperator: src/operator/pauli_operator.cpp. *)
From Verif Require Export Text Pauli.

(** pauli_operator.cpp:19-25 letter to PauliID *)
Definition letter_id (c : ascii) : option N :=
  if Ascii.eqb c "I" || Ascii.eqb c "i" then Some 0
  else if Ascii.eqb c "X" || Ascii.eqb c "x" then Some 1
  else if Ascii.eqb c "Y" || Ascii.eqb c "y" then Some 2
  else if Ascii.eqb c "Z" || Ascii.eqb c "z" then Some 3
  else None.
(** pauli_operator.cpp:8-29 PauliOperator(pauli_string, coef).  Each turn of the loop consumes a character, so the
    length of the text bounds the number of turns. *)
Fixpoint parse_pauli (fuel : nat) (l : text) (p : pauli) : res pauli :=
  match fuel with
  | O => UB
  | S fuel =>
    match read_char l with
    | None => Ok p
    | Some (c, l1) =>
      match read_u64 l1 with
      | None => Throw
      | Some (target, l2) =>
        match letter_id c with
        | None => Throw
        | Some id =>
          if id =? 0 then parse_pauli fuel l2 p
          else p' <- add_single_pauli p target id ;; parse_pauli fuel l2 p'
        end
      end
    end
  end.
Definition pauli_from_text (l : text) (coef : C) : res pauli := parse_pauli (S (List.length l)) l (Pauli coef 0 0).

(** pauli_operator.cpp:101-128 get_pauli_string *)
Definition id_letter (id : N) : ascii :=
  match id with 0 => "I" | 1 => "X" | 2 => "Y" | _ => "Z" end%char.
Fixpoint join_items (l : list (N * N)) : text :=
  match l with
  | [] => []
  | [(q, id)] => id_letter id :: " "%char :: dec q
  | (q, id) :: r => id_letter id :: " "%char :: dec q ++ " "%char :: join_items r
  end.
Definition pauli_to_text (p : pauli) : text := join_items (combine (pauli_target_list p) (pauli_id_list p)).
