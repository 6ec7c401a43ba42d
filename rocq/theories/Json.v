(** The conversions to and from JSON: to_json and from_json of gates, circuits, Pauli operators, operators, batched
    operators, state vectors and density matrices.  The JSON library (nlohmann) is not modelled beyond the operations
    used here; in particular its text format is not.  Floating point numbers are exact reals. *)
From Verif Require Export Circuit Operator OperatorBatched Density PauliText.
Open Scope string_scope.
Open Scope list_scope.
Open Scope N_scope.

(** A JSON value.  An object is its list of members; the library sorts them by name, which only iterating over an
    object could tell. *)
Inductive json : Type :=
| JNull
| JBool (b : bool)
| JUnsigned (n : N)       (* number_unsigned *)
| JInteger (z : Z)        (* number_integer *)
| JFloat (r : R)          (* number_float *)
| JString (s : string)
| JArray (l : list json)
| JObject (l : list (string * json)).

(** ** Access *)
Fixpoint member (key : string) (l : list (string * json)) : option json :=
  match l with [] => None | (k, v) :: r => if String.eqb k key then Some v else member key r end.
(** j.at(key): throws type_error or out_of_range *)
Definition at_key (j : json) (key : string) : res json :=
  match j with JObject l => match member key l with Some v => Ok v | None => Throw end | _ => Throw end.
(** j[key] on a const object: type_error on anything else, undefined behaviour when the key is missing *)
Definition const_index (j : json) (key : string) : res json :=
  match j with JObject l => match member key l with Some v => Ok v | None => UB end | _ => Throw end.
Definition contains (j : json) (key : string) : bool :=
  match j with JObject l => match member key l with Some _ => true | None => false end | _ => false end.
(** for (x : j) *)
Definition elements (j : json) : list json :=
  match j with JNull => [] | JArray l => l | JObject l => map snd l | _ => [j] end.
(** j.size() *)
Definition json_size (j : json) : N :=
  match j with JNull => 0 | JArray l => N.of_nat (length l) | JObject l => N.of_nat (length l) | _ => 1 end.
(** get<std::uint64_t>(): integers convert modulo 2^64; a double outside the range is undefined behaviour *)
Definition get_u64 (j : json) : res N :=
  match j with
  | JUnsigned n => Ok n
  | JInteger z => Ok (Z.to_N (z mod 2 ^ 64))
  | JFloat r => if Rlt_dec (-1) r then if Rlt_dec r (2 ^ 64) then Ok (Z.to_N (Int_part r)) else UB else UB
  | JBool b => Ok (N.b2n b)
  | _ => Throw
  end.
(** get<double>() *)
Definition get_double (j : json) : res R :=
  match j with
  | JUnsigned n => Ok (IZR (Z.of_N n))
  | JInteger z => Ok (IZR z)
  | JFloat r => Ok r
  | JBool b => Ok (if b then 1%R else 0%R)
  | _ => Throw
  end.
Definition get_string (j : json) : res string := match j with JString s => Ok s | _ => Throw end.
Definition get_bool (j : json) : res bool := match j with JBool b => Ok b | _ => Throw end.
(** get<std::vector<T>>() *)
Definition get_vector {T} (get : json -> res T) (j : json) : res (list T) :=
  match j with JArray l => collectR get l | _ => Throw end.

Definition u64_list (l : list N) : json := JArray (map JUnsigned l).
Definition double_list (l : list R) : json := JArray (map JFloat l).

(** ** Complex numbers and matrices (types.hpp:82-185) *)
Definition complex_to_json (c : C) : json := JObject [("real", JFloat (fst c)); ("imag", JFloat (snd c))].
Definition complex_from_json (j : json) : res C :=
  re <- const_index j "real" ;; re <- get_double re ;;
  im <- const_index j "imag" ;; im <- get_double im ;; Ok (re, im).
(** types.hpp:110-119.  The row and column numbers are ints; they are not bounded here. *)
Definition matrix_to_json (M : dmat) : json :=
  JArray (map (fun r => JArray (map (fun c => complex_to_json (m_at M r c)) (seqN (m_cols M)))) (seqN (m_rows M))).
(** types.hpp:120-135.  j[0] of an empty array does not exist; a row that is longer than the first is written outside
    the matrix, a shorter one leaves entries without a value: both are undefined here. *)
Definition row_from_json (cols : N) (j : json) : res (list C) :=
  if N.of_nat (length (elements j)) =? cols then collectR complex_from_json (elements j) else UB.
Definition matrix_from_json (j : json) : res dmat :=
  match j with
  | JArray [] => UB
  | JArray (r0 :: r) =>
    rows <- collectR (row_from_json (json_size r0)) (r0 :: r) ;;
    Ok (DMat (N.of_nat (length (r0 :: r))) (json_size r0) (fun r c => nth (N.to_nat c) (nth (N.to_nat r) rows []) C0))
  | _ => Throw
  end.
(** types.hpp:138-152, of the matrix SparseMatrixGateImpl::get_sparse_matrix returns *)
Definition csr_row_entries (A : csr) (r : N) : list (N * C) :=
  let b := nth (N.to_nat r) (csr_row_ptr A) 0 in
  let e := nth (N.to_nat (r + 1)) (csr_row_ptr A) 0 in
  firstn (N.to_nat (e - b)) (skipn (N.to_nat b) (combine (csr_col_idx A) (csr_vals A))).
Definition sparse_to_json (A : csr) : json :=
  JObject [("rows", JUnsigned (csr_rows A)); ("cols", JUnsigned (csr_rows A));
           ("triplets", JArray (flat_map (fun r => map (fun e => JObject [("row", JUnsigned r); ("col", JUnsigned (fst e)); ("val", complex_to_json (snd e))])
                                                       (csr_row_entries A r)) (seqN (csr_rows A))))].

(** ** Pauli operators and operators *)
(** pauli_operator.hpp:117-123 *)
Definition pauli_to_json (p : pauli) : json :=
  JObject [("pauli_string", JString (string_of_list_ascii (pauli_to_text p))); ("coef", complex_to_json (p_coef p))].
(** The order in which the two arguments are evaluated is not specified; here the string comes first. *)
Definition pauli_from_json (j : json) : res pauli :=
  s <- at_key j "pauli_string" ;; s <- get_string s ;;
  c <- at_key j "coef" ;; c <- complex_from_json c ;;
  pauli_from_text (to_text s) c.
(** operator.hpp:92-108 *)
Definition op_to_json (o : operator) : json := JObject [("terms", JArray (map pauli_to_json (o_terms o)))].
Definition op_from_json (j : json) : res operator :=
  ts <- at_key j "terms" ;; l <- collectR pauli_from_json (elements ts) ;; Ok (op_of_terms l).
(** operator_batched.hpp:120-132; get_operators (operator_batched.cpp:379-386).  emplace_back(item) converts the
    item to an Operator. *)
Definition ob_to_json (o : opbatch) : res json :=
  os <- ob_get_operators o ;; Ok (JObject [("Operators", JArray (map op_to_json os))]).
Definition ob_from_json (j : json) : res opbatch :=
  os <- at_key j "Operators" ;; l <- collectR op_from_json (elements os) ;; Ok (ob_of_operators l).

(** ** Gates *)
(** The members every controlled gate writes *)
Definition with_operands (type : string) (b : base) (more : list (string * json)) : json :=
  JObject (("type", JString type) :: ("target", u64_list (mask_to_vector (g_t b))) :: ("control", u64_list (mask_to_vector (g_c b))) ::
           ("control_value", u64_list (mask_to_values (g_c b) (g_cv b))) :: more).
Definition with_controls (type : string) (b : base) (more : list (string * json)) : json :=
  JObject (("type", JString type) :: ("control", u64_list (mask_to_vector (g_c b))) ::
           ("control_value", u64_list (mask_to_values (g_c b) (g_cv b))) :: more).
(** gate_standard.hpp get_as_json of the one-target classes: the type and the parameters *)
Definition std1_json (k : std1) : string * list (string * json) :=
  match k with
  | GX => ("X", []) | GY => ("Y", []) | GZ => ("Z", []) | GH => ("H", []) | GS => ("S", []) | GSdag => ("Sdag", [])
  | GT => ("T", []) | GTdag => ("Tdag", []) | GSqrtX => ("SqrtX", []) | GSqrtXdag => ("SqrtXdag", [])
  | GSqrtY => ("SqrtY", []) | GSqrtYdag => ("SqrtYdag", []) | GP0 => ("P0", []) | GP1 => ("P1", [])
  | GRX a => ("RX", [("angle", JFloat a)]) | GRY a => ("RY", [("angle", JFloat a)]) | GRZ a => ("RZ", [("angle", JFloat a)])
  | GU1 l => ("U1", [("lambda", JFloat l)])
  | GU2 p l => ("U2", [("lambda", JFloat l); ("phi", JFloat p)])
  | GU3 t p l => ("U3", [("lambda", JFloat l); ("phi", JFloat p); ("theta", JFloat t)])
  end.
(** gate_standard.hpp, gate_pauli.hpp, gate_matrix.hpp get_as_json *)
Definition egate_to_json (g : egate) : json :=
  match g with
  | EI => JObject [("type", JString "I")]
  | EGlobalPhase b phase => with_operands "GlobalPhase" b [("phase", JFloat phase)]
  | EStd k b => with_operands (fst (std1_json k)) b (snd (std1_json k))
  | ESwap b => with_operands "Swap" b []
  | EEcr b pc pt => with_operands "Ecr" b [("physical_control", u64_list (mask_to_vector pc)); ("physical_target", u64_list (mask_to_vector pt))]
  | EPermutation b dst _ => JObject [("type", JString "Permutation"); ("target", u64_list (mask_to_vector (g_t b))); ("dst", u64_list dst)]
  | EPauli b p => with_controls "Pauli" b [("pauli", pauli_to_json p)]
  | EPauliRotation b p angle => with_controls "PauliRotation" b [("pauli", pauli_to_json p); ("angle", JFloat angle)]
  | EDense b M _ => with_operands "DenseMatrix" b [("matrix", matrix_to_json M)]
  | ESparse b A => with_operands "SparseMatrix" b [("matrix", sparse_to_json A)]
  end.
(** gate.hpp:624, gate_measurement.hpp:46-51, gate_probabilistic.hpp:85-89.  The type of the pointer plays no role. *)
Fixpoint gate_to_json (g : cgate) : json :=
  match g with
  | CElem (_, g) => egate_to_json g
  | CMeas t bit reset => JObject [("type", JString "Measurement"); ("target", u64_list (mask_to_vector t)); ("classical_bit", JUnsigned bit); ("reset", JBool reset)]
  | CProb _ dist gs => JObject [("type", JString "Probabilistic"); ("gate_list", JArray (map gate_to_json gs)); ("distribution", double_list dist)]
  end.
Definition rot_type (k : rot) : string := match k with RotX => "ParamRX" | RotY => "ParamRY" | RotZ => "ParamRZ" end.
(** param_gate.hpp:363, param_gate_standard.hpp, param_gate_pauli.hpp, param_gate_probabilistic.hpp get_as_json *)
Fixpoint param_gate_to_json (g : pgate) : json :=
  match g with
  | PRot _ k b pcoef => with_operands (rot_type k) b [("param_coef", JFloat pcoef)]
  | PPauliRotation _ b p pcoef => with_controls "ParamPauliRotation" b [("pauli", pauli_to_json p); ("param_coef", JFloat pcoef)]
  | PProb _ dist gs =>
    JObject [("type", JString "ParamProbabilistic");
             ("gate_list", JArray (map (fun g => match g with inl g => gate_to_json g | inr g => param_gate_to_json g end) gs));
             ("distribution", double_list dist)]
  end.

(** Reading.  The arguments of make_shared are evaluated in an unspecified order.  As for the factories, [vf] tells
    whether the control values come first; arguments that are not masks are evaluated after them. *)
Section Reading.
  Variable vf : bool.
  Definition masks_from_json (j : json) (t : res N) : res (N * N * N) :=
    cs <- at_key j "control" ;; cs <- get_vector get_u64 cs ;;
    vs <- at_key j "control_value" ;; vs <- get_vector get_u64 vs ;;
    mask_args vf t cs vs.
  Definition mask_of_key (j : json) (key : string) : res N :=
    l <- at_key j key ;; l <- get_vector get_u64 l ;; vector_to_mask l.
  Definition base_from_json (j : json) : res base :=
    m <- masks_from_json j (mask_of_key j "target") ;; let '(t, c, cv) := m in make_base t c cv.
  Definition double_of_key (j : json) (key : string) : res R := v <- at_key j key ;; get_double v.
  (** gate_standard.cpp:1452-1545 X ... SqrtYdag, RX, RY, RZ, U1, U2, U3: what follows the masks *)
  Definition std1_from_json (type : string) (j : json) : option (res std1) :=
    if String.eqb type "X" then Some (Ok GX) else if String.eqb type "Y" then Some (Ok GY)
    else if String.eqb type "Z" then Some (Ok GZ) else if String.eqb type "H" then Some (Ok GH)
    else if String.eqb type "S" then Some (Ok GS) else if String.eqb type "Sdag" then Some (Ok GSdag)
    else if String.eqb type "T" then Some (Ok GT) else if String.eqb type "Tdag" then Some (Ok GTdag)
    else if String.eqb type "SqrtX" then Some (Ok GSqrtX) else if String.eqb type "SqrtXdag" then Some (Ok GSqrtXdag)
    else if String.eqb type "SqrtY" then Some (Ok GSqrtY) else if String.eqb type "SqrtYdag" then Some (Ok GSqrtYdag)
    else if String.eqb type "RX" then Some (a <- double_of_key j "angle" ;; Ok (GRX a))
    else if String.eqb type "RY" then Some (a <- double_of_key j "angle" ;; Ok (GRY a))
    else if String.eqb type "RZ" then Some (a <- double_of_key j "angle" ;; Ok (GRZ a))
    else if String.eqb type "U1" then Some (l <- double_of_key j "lambda" ;; Ok (GU1 l))
    else if String.eqb type "U2" then Some (p <- double_of_key j "phi" ;; l <- double_of_key j "lambda" ;; Ok (GU2 p l))
    else if String.eqb type "U3" then
      Some (t <- double_of_key j "theta" ;; p <- double_of_key j "phi" ;; l <- double_of_key j "lambda" ;; Ok (GU3 t p l))
    else None.
  (** gate.hpp:626-659 from_json without Measurement and Probabilistic; None: no such type.
      gate_standard.cpp:1432-1590, gate_pauli.cpp:88-108 *)
  Definition egate_from_json (type : string) (j : json) : option (res egate) :=
    match std1_from_json type j with
    | Some k => Some (m <- masks_from_json j (mask_of_key j "target") ;; k <- k ;; let '(t, c, cv) := m in b <- make_base t c cv ;; Ok (EStd k b))
    | None =>
      if String.eqb type "I" then Some (Ok EI)
      else if String.eqb type "GlobalPhase" then
        Some (m <- masks_from_json j (Ok 0) ;; phase <- double_of_key j "phase" ;; let '(t, c, cv) := m in b <- make_base t c cv ;; Ok (EGlobalPhase b phase))
      else if String.eqb type "Swap" then Some (b <- base_from_json j ;; Ok (ESwap b))
      else if String.eqb type "Ecr" then
        Some (m <- masks_from_json j (mask_of_key j "target") ;;
              pc <- mask_of_key j "physical_control" ;; pt <- mask_of_key j "physical_target" ;;
              let '(t, c, cv) := m in b <- make_base t c cv ;; Ok (EEcr b pc pt))
      else if String.eqb type "Permutation" then
        Some (l <- at_key j "dst" ;; l <- get_vector get_u64 l ;; make_permutation_impl l)
      else if String.eqb type "Pauli" then
        Some (m <- masks_from_json j (Ok 0) ;; p <- at_key j "pauli" ;; p <- pauli_from_json p ;;
              let '(_, c, cv) := m in b <- make_pauli_base p c cv ;; Ok (EPauli b p))
      else if String.eqb type "PauliRotation" then
        Some (m <- masks_from_json j (Ok 0) ;; p <- at_key j "pauli" ;; p <- pauli_from_json p ;; a <- double_of_key j "angle" ;;
              let '(_, c, cv) := m in b <- make_pauli_base p c cv ;; Ok (EPauliRotation b p a))
      else None
    end.
  (** gate_measurement.cpp:89-96 *)
  Definition measurement_from_json (j : json) : res cgate :=
    reset <- (if contains j "reset" then r <- at_key j "reset" ;; get_bool r else Ok false) ;;
    t <- mask_of_key j "target" ;; bit <- at_key j "classical_bit" ;; bit <- get_u64 bit ;;
    b <- make_base t 0 0 ;; Ok (CMeas (g_t b) bit reset).
  (** gate.hpp:626-659, gate_probabilistic.cpp:132-136.  [fuel] bounds the nesting; [gate_from_json] gives enough. *)
  Fixpoint gate_from_json_rec (fuel : nat) (j : json) : res cgate :=
    match fuel with
    | O => UB
    | S fuel =>
      type <- at_key j "type" ;; type <- get_string type ;;
      match egate_from_json type j with
      | Some g => g <- g ;; Ok (CElem (true, g))
      | None =>
        if String.eqb type "Measurement" then measurement_from_json j
        else if String.eqb type "Probabilistic" then
          d <- at_key j "distribution" ;; d <- get_vector get_double d ;;
          l <- at_key j "gate_list" ;; l <- get_vector (gate_from_json_rec fuel) l ;;
          make_probabilistic d l
        else Throw
      end
    end.
  Fixpoint json_depth (j : json) : nat :=
    match j with
    | JArray l => S (fold_right (fun x m => Nat.max (json_depth x) m) O l)
    | JObject l => S (fold_right (fun x m => Nat.max (json_depth (snd x)) m) O l)
    | _ => O
    end.
  Definition gate_from_json (j : json) : res cgate := gate_from_json_rec (S (json_depth j)) j.

  (** param_gate_standard.cpp:328-343 *)
  Definition rot_from_json (k : rot) (j : json) : res pgate :=
    m <- masks_from_json j (mask_of_key j "target") ;; a <- double_of_key j "param_coef" ;;
    let '(t, c, cv) := m in b <- make_base t c cv ;; Ok (PRot true k b a).
  (** std::string::starts_with *)
  Definition string_starts_with (p s : string) : bool := String.eqb (String.substring 0 (String.length p) s) p.
  (** param_gate.hpp:365-376, param_gate_pauli.cpp:140-148, param_gate_probabilistic.cpp:199-210 *)
  Fixpoint param_gate_from_json_rec (fuel : nat) (j : json) : res pgate :=
    match fuel with
    | O => UB
    | S fuel =>
      type <- at_key j "type" ;; type <- get_string type ;;
      if String.eqb type "ParamRX" then rot_from_json RotX j
      else if String.eqb type "ParamRY" then rot_from_json RotY j
      else if String.eqb type "ParamRZ" then rot_from_json RotZ j
      else if String.eqb type "ParamPauliRotation" then
        m <- masks_from_json j (Ok 0) ;; p <- at_key j "pauli" ;; p <- pauli_from_json p ;; a <- double_of_key j "param_coef" ;;
        let '(_, c, cv) := m in b <- make_pauli_base p c cv ;; Ok (PPauliRotation true b p a)
      else if String.eqb type "ParamProbabilistic" then
        d <- at_key j "distribution" ;; d <- get_vector get_double d ;;
        l <- at_key j "gate_list" ;;
        l <- collectR (fun x => type <- at_key x "type" ;; type <- get_string type ;;
                                if string_starts_with "Param" type then g <- param_gate_from_json_rec fuel x ;; Ok (inr g)
                                else g <- gate_from_json x ;; Ok (inl g)) (elements l) ;;
        make_param_probabilistic d l
      else Throw
    end.
  Definition param_gate_from_json (j : json) : res pgate := param_gate_from_json_rec (S (json_depth j)) j.

  (** ** Circuits (circuit.hpp:154-181) *)
  Definition item_to_json (i : citem) : json :=
    match i with
    | IGate g => JObject [("gate", gate_to_json g)]
    | IParam g key => JObject [("gate", param_gate_to_json g); ("key", JString key)]
    end.
  Definition circuit_to_json (c : circuit) : res json :=
    l <- collectR (fun gc => match snd gc with Some _ => Throw | None => Ok (item_to_json (fst gc)) end) (combine (c_gates c) (c_conds c)) ;;
    Ok (JObject [("gate_list", JArray l)]).
  Definition item_from_json (j : json) : res citem :=
    if contains j "key" then
      g <- at_key j "gate" ;; g <- param_gate_from_json g ;;
      k <- at_key j "key" ;; k <- get_string k ;; Ok (IParam g k)
    else g <- at_key j "gate" ;; g <- gate_from_json g ;; Ok (IGate g).
  Definition circuit_from_json (j : json) : res circuit :=
    l <- at_key j "gate_list" ;; items <- collectR item_from_json (elements l) ;;
    Ok (Circuit items (map (fun _ => None) items)).
End Reading.

(** ** States *)
(** state_vector.hpp:106-112; [n]: the number of qubits of the object *)
Definition state_to_json (n : N) : host world json :=
  l <~ get_amplitudes n;; hret (JObject [("n_qubits", JUnsigned n); ("amplitudes", JArray (map complex_to_json l))]).
(** The result: the number of qubits of the new object.  1 << n is undefined for n >= 64. *)
Definition state_from_json (j : json) : host world N :=
  v <~ hlift (at_key j "n_qubits");; n <~ hlift (get_u64 v);;
  (if 64 <=? n then hundefined else set_zero_state n);~
  v <~ hlift (at_key j "amplitudes");; l <~ hlift (get_vector complex_from_json v);;
  load n l;~ hret n.
(** state_vector_batched.cpp:235-245 *)
Definition b_get_amplitudes (n B : N) : host world (list (list C)) :=
  hget (fun w => map (fun b => map (fun i => w_amp w (at_row n b i)) (seqN (2 ^ n))) (seqN B)).
(** state_vector_batched.hpp:110-120; [n], [B]: the number of qubits and the batch size of the object *)
Definition states_to_json (n B : N) : host world json :=
  l <~ b_get_amplitudes n B;;
  hret (JObject [("n_qubits", JUnsigned n); ("batch_size", JUnsigned B); ("amplitudes", JArray (map (fun l => JArray (map complex_to_json l)) l))]).
(** The result: the number of qubits and the batch size of the new object *)
Definition states_from_json (j : json) : host world (N * N) :=
  v <~ hlift (at_key j "batch_size");; B <~ hlift (get_u64 v);;
  v <~ hlift (at_key j "n_qubits");; n <~ hlift (get_u64 v);;
  (if 64 <=? n then hundefined else b_set_zero_state B n);~
  v <~ hlift (at_key j "amplitudes");; l <~ hlift (get_vector (get_vector complex_from_json) v);;
  b_load B n l;~ hret (n, B).
(** density_matrix.hpp:95-106; uninitialized_state leaves the entries of the matrix without a value, here what the
    world held before *)
Definition dm_to_json (n : N) : host dmw json :=
  M <~ get_dm_matrix n;; h <~ hget d_herm;;
  hret (JObject [("n_qubits", JUnsigned n); ("is_hermitian", JBool h); ("matrix", matrix_to_json M)]).
Definition dm_from_json (j : json) : host dmw N :=
  v <~ hlift (at_key j "n_qubits");; n <~ hlift (get_u64 v);;
  v <~ hlift (at_key j "is_hermitian");; h <~ hlift (get_bool v);;
  v <~ hlift (at_key j "matrix");; M <~ hlift (matrix_from_json v);;
  (if 64 <=? n then hundefined else hret tt);~
  dm_load_matrix n M h;~ hret n.
