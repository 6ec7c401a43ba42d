(** C20: the circuits a program can put together from factory gates, also by taking inverses.

    Gates: what the factories return, other than measurements, probabilistic gates and gates without inverse;
    with them whatever get_inverse() returns, any number of times.
    Circuits: the empty one; adding such a gate, with or without a parameter or a condition; adding one
    circuit to another; copies; whatever Circuit::get_inverse() returns. *)
From Verif Require Export CircuitSpec.
Open Scope N_scope.

Inductive undoable : citem -> Prop :=
| u_factory i : factory_made i -> undoable i
| u_inverse i i' : undoable i -> item_inverse i = Ok i' -> undoable i'.

Inductive put_together : circuit -> Prop :=
| t_new : put_together c_new
| t_gate c g : put_together c -> undoable (IGate g) -> put_together (add_gate c g)
| t_param c g key : put_together c -> undoable (IParam g key) -> put_together (add_param_gate c g key)
| t_cond_gate c g f : put_together c -> undoable (IGate g) -> put_together (add_conditional_gate c g f)
| t_cond_param c g key f : put_together c -> undoable (IParam g key) -> put_together (add_conditional_param_gate c g key f)
| t_circuit c d : put_together c -> put_together d -> put_together (add_circuit c d)
| t_copy c : put_together c -> put_together (circuit_copy c)
| t_inverse c c' : put_together c -> circuit_inverse c = Ok c' -> put_together c'.
