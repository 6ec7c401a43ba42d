(** Reading a sparse matrix from JSON. *)
From Verif Require Export Json.

(** Eigen::Triplet stores its row and column as int: the conversion of a std::uint64_t is modulo 2^32.  A negative index,
    or one outside the matrix, is out of bounds for setFromTriplets. *)
Definition triplet_index (bound : N) (j : json) : res N :=
  x <- get_u64 j ;;
  let y := x mod 2 ^ 32 in
  if (y <? 2 ^ 31) && (y <? bound) then Ok y else UB.
(** types.hpp:159-164; the range check is that of setFromTriplets, line 165 *)
Definition triplet_from_json (rows cols : N) (j : json) : res (N * N * C) :=
  r <- const_index j "row" ;; r <- triplet_index rows r ;;
  c <- const_index j "col" ;; c <- triplet_index cols c ;;
  v <- const_index j "val" ;; v <- complex_from_json v ;; Ok (r, c, v).
(** types.hpp:153-166.  The result: the size and the triplets handed to setFromTriplets, which adds up those of the same
    cell.  Sizes are ptrdiff_t in Eigen; they are not bounded here. *)
Record sparse : Type := Sparse { sp_rows : N; sp_cols : N; sp_triplets : list (N * N * C) }.
Definition sparse_from_json (j : json) : res sparse :=
  rows <- const_index j "rows" ;; rows <- get_u64 rows ;;
  cols <- const_index j "cols" ;; cols <- get_u64 cols ;;
  ts <- const_index j "triplets" ;;
  ts <- collectR (triplet_from_json rows cols) (elements ts) ;;
  Ok (Sparse rows cols ts).
Definition sp_at (S : sparse) : matrix := fun r c =>
  Csuml (fun t => if (fst (fst t) =? r) && (snd (fst t) =? c) then snd t else C0) (sp_triplets S).
