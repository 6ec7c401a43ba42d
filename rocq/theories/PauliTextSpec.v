(** The grammar of Pauli strings and what they denote. *)
From Verif Require Export PauliText PauliSpec.

Definition spaces (w : text) : Prop := Forall (fun c => is_space c = true) w.
(** a sign, possibly empty, and digits; [v] is the 64-bit number they denote *)
Inductive number : text -> N -> Prop :=
| num_plain (sg d : text) : sg = [] \/ sg = ["+"%char] -> d <> [] -> Forall (fun c => is_digit c = true) d -> dec_val d < two64 ->
    number (sg ++ d) (dec_val d)
| num_neg (d : text) : d <> [] -> Forall (fun c => is_digit c = true) d -> dec_val d < two64 ->
    number ("-"%char :: d) ((two64 - dec_val d) mod two64).
(** A text is a sequence of items: a character and a number, with white space around them. *)
Inductive spells : text -> list (ascii * N) -> Prop :=
| spells_nil (w : text) : spaces w -> spells w []
| spells_cons (w1 w2 num rest : text) (c : ascii) (v : N) (items : list (ascii * N)) :
    spaces w1 -> is_space c = false -> spaces w2 -> number num v ->
    (match rest with r :: _ => is_digit r = false | [] => True end) -> spells rest items ->
    spells (w1 ++ c :: w2 ++ num ++ rest) ((c, v) :: items).

(** the letters other than I, with the qubits they act on *)
Definition letter_of (c : ascii) : option N :=
  match nat_of_ascii c with
  | 73%nat | 105%nat => Some 0 (* I i *) | 88%nat | 120%nat => Some 1 (* X x *)
  | 89%nat | 121%nat => Some 2 (* Y y *) | 90%nat | 122%nat => Some 3 (* Z z *)
  | _ => None
  end.
Definition factors (items : list (ascii * N)) : list (N * N) :=
  flat_map (fun it => match letter_of (fst it) with Some 0 | None => [] | Some id => [(snd it, id)] end) items.
(** the item list is a legal Pauli string *)
Definition legal (items : list (ascii * N)) : Prop :=
  Forall (fun it => letter_of (fst it) <> None) items /\
  Forall (fun f => fst f < 64) (factors items) /\ NoDup (map fst (factors items)).
(** p is the tensor product of these factors: the letter at qubit q is the listed one, or I *)
Definition product_of (l : list (N * N)) (p : pauli) : Prop :=
  p_bf p < two64 /\ p_pf p < two64 /\
  forall q id, In (q, id) l \/ (id = 0 /\ ~ In q (map fst l)) -> pauli_id_of (p_bf p) (p_pf p) q = id.
(** factors given as lists of qubits and Pauli ids: no id above 3, no qubit of a non-identity factor above 63 or
    listed twice *)
Definition nontrivial (l : list (N * N)) : list (N * N) := filter (fun f => negb (snd f =? 0)) l.
Definition legal_factors (l : list (N * N)) : Prop :=
  Forall (fun f => snd f < 4) l /\ Forall (fun f => fst f < 64) (nontrivial l) /\ NoDup (map fst (nontrivial l)).
