(** Model of the bit-level helpers of include/scaluq/util/utility.hpp. *)
From Verif Require Export Prelude.

(** std::popcount *)
Fixpoint popcount_pos (p : positive) : N :=
  match p with
  | xH => 1
  | xO q => popcount_pos q
  | xI q => 1 + popcount_pos q
  end.
Definition popcount (x : N) : N := match x with 0 => 0 | Npos p => popcount_pos p end.

(** std::countr_zero on a non-zero argument (the only way the code calls it). *)
Fixpoint ctz_pos (p : positive) : N :=
  match p with
  | xO q => 1 + ctz_pos q
  | _ => 0
  end.
Definition ctz (x : N) : N := match x with 0 => 64 | Npos p => ctz_pos p end.

(** Kokkos::bit_width *)
Definition bit_width (x : N) : N := match x with 0 => 0 | _ => 1 + N.log2 x end.

(** utility.hpp:22-27 insert_zero_to_basis_index.  insert_index + 1 >= 64 shifts by 64 or more,
    which is undefined; the callers' side conditions exclude it. *)
Definition insert_zero_to_basis_index (basis_index insert_index : N) : N :=
  let mask := sub64 (shl64 1 insert_index) 1 in
  let temp_basis := shl64 (N.shiftr basis_index insert_index) (insert_index + 1) in
  N.lor temp_basis (N.land basis_index mask).

(** utility.hpp:34-43 insert_zero_at_mask_positions.  The loop runs once per set bit of the mask, so
    64 iterations always suffice ([insert_zero_loop_fuel] in BitsProofs.v). *)
Fixpoint insert_zero_loop (fuel : nat) (bit_mask basis_index : N) : N :=
  match fuel with
  | O => basis_index
  | S f =>
    if N.eqb bit_mask 0 then basis_index
    else
      let lower_mask := N.land (not64 bit_mask) (sub64 bit_mask 1) in
      let upper_mask := not64 lower_mask in
      insert_zero_loop f (N.land bit_mask (sub64 bit_mask 1))
        (N.lor (shl64 (N.land basis_index upper_mask) 1) (N.land basis_index lower_mask))
  end.
Definition insert_zero_at_mask_positions (basis_index insert_mask : N) : N :=
  insert_zero_loop 64 insert_mask basis_index.

(** utility.hpp:46-61 vector_to_mask<true> (validating). *)
Fixpoint vector_to_mask_aux (mask : N) (indices : list N) : res N :=
  match indices with
  | [] => Ok mask
  | x :: rest =>
    if 64 <=? x then Throw
    else if N.testbit mask x then Throw
    else vector_to_mask_aux (N.lor mask (shl64 1 x)) rest
  end.
Definition vector_to_mask (indices : list N) : res N := vector_to_mask_aux 0 indices.

(** utility.hpp:46-61 vector_to_mask<false>: an index >= 64 shifts out of range. *)
Fixpoint vector_to_mask_novalidate_aux (mask : N) (indices : list N) : res N :=
  match indices with
  | [] => Ok mask
  | x :: rest =>
    if 64 <=? x then UB else vector_to_mask_novalidate_aux (N.lor mask (shl64 1 x)) rest
  end.
Definition vector_to_mask_novalidate (indices : list N) : res N :=
  vector_to_mask_novalidate_aux 0 indices.

(** utility.hpp:64-76 vector_to_mask(indices, values).  Reading values[i] past the end and shifting by
    64 or more are undefined. *)
Fixpoint vector_to_mask_values_aux (mask : N) (indices values : list N) : res N :=
  match indices with
  | [] => Ok mask
  | x :: rest =>
    match values with
    | [] => UB
    | v :: vs =>
      if v =? 1 then
        (if 64 <=? x then UB else vector_to_mask_values_aux (N.lor mask (shl64 1 x)) rest vs)
      else if v =? 0 then vector_to_mask_values_aux mask rest vs
      else Throw
    end
  end.
Definition vector_to_mask_values (indices values : list N) : res N :=
  vector_to_mask_values_aux 0 indices values.

(** utility.hpp:79-85 mask_to_vector(mask) *)
Fixpoint mask_to_vector_loop (fuel : nat) (sub_mask : N) : list N :=
  match fuel with
  | O => []
  | S f =>
    if sub_mask =? 0 then []
    else ctz sub_mask :: mask_to_vector_loop f (N.land sub_mask (sub64 sub_mask 1))
  end.
Definition mask_to_vector (mask : N) : list N := mask_to_vector_loop 64 mask.

(** utility.hpp:88-94 mask_to_vector(indices_mask, mask) *)
Fixpoint mask_to_values_loop (fuel : nat) (sub_mask mask : N) : list N :=
  match fuel with
  | O => []
  | S f =>
    if sub_mask =? 0 then []
    else N.b2n (N.testbit mask (ctz sub_mask))
           :: mask_to_values_loop f (N.land sub_mask (sub64 sub_mask 1)) mask
  end.
Definition mask_to_values (indices_mask mask : N) : list N := mask_to_values_loop 64 indices_mask mask.

(** utility.hpp:96-104 resize_and_check_control_values: the (possibly filled in) control values. *)
Definition resize_and_check_control_values (controls control_values : list N) : res (list N) :=
  let cvs := match control_values with
             | [] => repeat 1 (length controls)
             | _ => control_values
             end in
  if Nat.eqb (length controls) (length cvs) then Ok cvs else Throw.

(** The positions of the set bits of a mask, in increasing order (used by the proofs and the
    specifications, not code). *)
Fixpoint bits_pos (k : N) (p : positive) : list N :=
  match p with
  | xH => [k]
  | xO q => bits_pos (k + 1) q
  | xI q => k :: bits_pos (k + 1) q
  end.
Definition bits (x : N) : list N := match x with 0 => [] | Npos p => bits_pos 0 p end.
