(** Two names of one density matrix. *)
From Verif Require Export Density.
(** density_matrix.hpp:9-33: the implicit copy of a DensityMatrix copies the Kokkos::View, a reference to the matrix, and the
    flag _is_hermitian, a bool.  A method called through the first name changes the matrix of both and the flag of the first. *)
Record dpair : Type := DPair { dp_raw : N * N -> C; dp_first : bool; dp_second : bool }.
Definition on_first {T} (p : host dmw T) : host dpair T := fun w o =>
  exists o', p (DM (dp_raw w) (dp_first w)) o' /\
    o = match o' with
        | HDone t w' => HDone t (DPair (d_raw w') (d_herm w') (dp_second w))
        | HThrown w' => HThrown (DPair (d_raw w') (d_herm w') (dp_second w))
        | HUndefined => HUndefined
        end.
