(** The ground-state solvers: Operator::calculate_default_mu, solve_ground_state_by_power_method and
    solve_ground_state_by_arnoldi_method (src/operator/operator.cpp:446-555).  Floating point numbers are exact reals. *)
From Verif Require Export Operator State.
Open Scope N_scope.
Open Scope list_scope.

(** The amplitudes of the world are those of the local variable [state]; the argument of a solver is not changed
    because the solvers work on copies.  [n]: the number of qubits of the initial state. *)
Section Solvers.
  Variables (o : operator) (n : N).
  Notation D := (2 ^ n).

  (** operator.cpp:106-114 apply_to_state(state); a sum that is not computed is undefined behaviour *)
  Definition apply_to_state : host world unit := fun w out =>
    exists scheds trees, (forall i, reduction_of (seqN (N.of_nat (length (o_terms o)))) (trees i)) /\
      match op_apply_to_state o D (w_amp w) scheds trees with
      | Finished r => out = HDone tt (set_amp (fun i => match r i with Some v => v | None => C0 end) w)
      | Unfinished => False
      | OutOfBounds | DataRace => out = HUndefined
      end.
  (** operator.cpp:116-160 get_expectation_value(state) *)
  Definition expectation_value : host world C := fun w out =>
    exists t, reduction_of (op_iters o D) t /\
      out = match op_expectation o D (w_amp w) t with Some v => HDone v w | None => HUndefined end.
  (** operator.cpp:446-460 calculate_default_mu *)
  Definition default_mu : host world R := fun w out =>
    exists t, reduction_of (o_terms o) t /\
      out = match reduce 0%R Rplus (fun p => Some (Rabs (fst (p_coef p)))) t with Some v => HDone v w | None => HUndefined end.
  (** mu.value_or(calculate_default_mu()): the argument of value_or is always computed *)
  Definition realized_mu (mu : option C) : host world C :=
    d <~ default_mu;; hret (match mu with Some m => m | None => RtoC d end).

  (** operator.cpp:482-488 *)
  Fixpoint power_loop (mu : C) (iter_count : nat) : host world unit :=
    match iter_count with
    | O => hret tt
    | S k =>
      tmp_state <~ hget w_amp;;
      apply_to_state;~
      add_state_vector_with_coef n (- mu)%C false D tmp_state;~
      normalize n;~
      power_loop mu k
    end.
  (** operator.cpp:462-490: the eigenvalue; the state of the result is the local variable *)
  Definition solve_ground_state_by_power_method (iter_count : nat) (mu : option C) : host world C :=
    hcheck (negb (N.of_nat (length (o_terms o)) =? 0));~
    hcheck (o_herm o);~
    mu_realized <~ realized_mu mu;;
    power_loop mu_realized iter_count;~
    expectation_value.

  (** operator.cpp:515-520: the inner product has the basis vector on the left (utility.hpp:106-120) *)
  Fixpoint orthogonalize (basis : list state) : host world (list C) :=
    match basis with
    | [] => hret []
    | q :: r =>
      coef <~ hsum C0 Cadd D D (fun i => RRd i (fun a => RVal (Cconj (q i) * a)%C));;
      add_state_vector_with_coef n (- coef)%C false D q;~
      coefs <~ orthogonalize r;;
      hret (coef :: coefs)
    end.
  (** operator.cpp:509-528.  [basis]: krylov_space_basis without its last vector; [last]: that vector, None when it was
      divided by a norm 0 and is NaN, which makes every number computed from it NaN.  Column i of the Hessenberg matrix is
      the list of the coefficients and the norm. *)
  Fixpoint arnoldi_loop (mu : C) (iterations_left : nat) (basis : list state) (last : option state) (columns : list (list C * R)) :
      host world (list state * list (list C * R)) :=
    match iterations_left with
    | O => hret (basis, columns)
    | S k =>
      match last with
      | None => hundefined
      | Some q =>
        hmodify (set_amp q);~
        apply_to_state;~
        add_state_vector_with_coef n (- mu)%C false D q;~
        coefs <~ orthogonalize (basis ++ [q]);;
        s <~ get_squared_norm n;;
        let norm := sqrt s in
        if Req_EM_T norm 0 then arnoldi_loop mu k (basis ++ [q]) None (columns ++ [(coefs, norm)])
        else
          multiply_coef n (RtoC (1 / norm));~
          v <~ hget w_amp;;
          arnoldi_loop mu k (basis ++ [q]) (Some v) (columns ++ [(coefs, norm)])
      end
    end.
  Definition hessenberg (columns : list (list C * R)) : matrix := fun j i =>
    let col := nth (N.to_nat i) columns ([], 0%R) in
    if j <=? i then nth (N.to_nat j) (fst col) C0 else if j =? i + 1 then RtoC (snd col) else C0.
  (** std::ranges::min_element: the first of the smallest *)
  Fixpoint min_element (best : C * (N -> C)) (l : list (C * (N -> C))) : C * (N -> C) :=
    match l with
    | [] => best
    | e :: r => min_element (if Rlt_dec (fst (fst e)) (fst (fst best)) then e else best) r
    end.
  (** operator.cpp:549-552 *)
  Fixpoint combine_basis (coefs : N -> C) (i : N) (basis : list state) : host world unit :=
    match basis with
    | [] => hret tt
    | q :: r => add_state_vector_with_coef n (coefs i) false D q;~ combine_basis coefs (i + 1) r
    end.
  (** operator.cpp:492-555.  [solver]: Eigen::ComplexEigenSolver on a matrix of the given size; the pairs of eigenvalues
      and eigenvectors, or None when it fails.  eigenvalues[0] of an empty vector does not exist. *)
  Variable solver : nat -> matrix -> option (list (C * (N -> C))).
  Definition solve_ground_state_by_arnoldi_method (iter_count : nat) (mu : option C) : host world C :=
    hcheck (negb (N.of_nat (length (o_terms o)) =? 0));~
    mu_realized <~ realized_mu mu;;
    initial <~ hget w_amp;;
    bc <~ arnoldi_loop mu_realized iter_count [] (Some initial) [];;
    match solver iter_count (hessenberg (snd bc)) with
    | None => hthrow
    | Some [] => hundefined
    | Some (e :: r) =>
      let m := min_element e r in
      set_zero_norm_state n;~
      combine_basis (snd m) 0 (fst bc);~
      normalize n;~
      hret (fst m + mu_realized)%C
    end.
End Solvers.
