(** C64: a simulation in rounded arithmetic, from the circuit to the numbers read from the state. *)
From Verif Require Import FloatProofs20.
Open Scope R_scope.

(** After the gates of a circuit the state is as close to the exact one as C62 says; what is read from it then, with rounded
    sums, differs from the exact numbers of the exact state by at most the sum of both errors.  There is a run, and the
    claims hold for every run. *)
Theorem C64_runs : forall u eta A n L ks gs psi, simulation_ok u eta A n L ks gs psi -> exists rho, f_run A n 1 L gs psi rho.
Proof. exact simulation_exists. Qed.
Print Assumptions C64_runs.
Theorem C64_norm : forall u eta A n L ks gs psi rho h w, simulation_ok u eta A n L ks gs psi -> f_run A n 1 L gs psi rho -> height_ok u n h -> w_amp w = rho ->
  returns_about (f_get_squared_norm A (shallow h) n) w 1 (3 * run_error u eta n ks + sum_error u eta n h 9 4).
Proof. intros u eta A n L ks gs psi rho h w (H1 & H2 & H3 & H4 & H5) Hr. exact (run_norm u eta A n L ks gs psi H1 H2 H3 H4 H5 rho Hr h w). Qed.
Print Assumptions C64_norm.
Theorem C64_zero_probability : forall u eta A n L ks gs psi rho h q w, simulation_ok u eta A n L ks gs psi -> f_run A n 1 L gs psi rho ->
  height_ok u n h -> (q < n)%N -> w_amp w = rho ->
  returns_about (f_get_zero_probability A (shallow h) n q) w (prob n (fun x => negb (N.testbit x q)) (exact_after ks psi)) (3 * run_error u eta n ks + sum_error u eta n h 9 4).
Proof. intros u eta A n L ks gs psi rho h q w (H1 & H2 & H3 & H4 & H5) Hr. exact (run_zero_probability u eta A n L ks gs psi H1 H2 H3 H4 H5 rho Hr h q w). Qed.
Print Assumptions C64_zero_probability.
Theorem C64_marginal : forall u eta A n L ks gs psi rho h vs w, simulation_ok u eta A n L ks gs psi -> f_run A n 1 L gs psi rho ->
  height_ok u n h -> N.of_nat (length vs) = n -> Forall (fun v => (v <= 2)%N) vs -> w_amp w = rho ->
  returns_about (f_get_marginal_probability A (shallow h) n vs) w (prob n (shows vs) (exact_after ks psi)) (3 * run_error u eta n ks + sum_error u eta n h 9 4).
Proof. intros u eta A n L ks gs psi rho h vs w (H1 & H2 & H3 & H4 & H5) Hr. exact (run_marginal u eta A n L ks gs psi H1 H2 H3 H4 H5 rho Hr h vs w). Qed.
Print Assumptions C64_marginal.
Theorem C64_expectation : forall u eta A n L ks gs psi rho o t h, simulation_ok u eta A n L ks gs psi -> f_run A n 1 L gs psi rho ->
  (0 < n)%N -> op_fits n o -> reduction_of (op_iters o (2 ^ n)) t -> (tree_height t <= h)%nat -> 3 / 2 * INR h * u <= 1 ->
  exists v, f_op_expectation A (2 ^ n) o rho t = Some v /\
    sqrt (Cnorm2 (v - inner n (exact_after ks psi) (op_act o (exact_after ks psi)))%C) <=
      3 * coef_weight (o_terms o) * run_error u eta n ks + expect_error u eta n h (coef_weight (o_terms o)) (length (o_terms o)) 4.
Proof. intros u eta A n L ks gs psi rho o t h (H1 & H2 & H3 & H4 & H5) Hr. exact (run_expectation u eta A n L ks gs psi H1 H2 H3 H4 H5 rho Hr o t h). Qed.
Print Assumptions C64_expectation.
Theorem C64_sampling : forall u eta A n L ks gs psi rho k chunks count rounds l, simulation_ok u eta A n L ks gs psi -> f_run A n 1 L gs psi rho ->
  chunks_ok (2 ^ n) k chunks -> 3 / 2 * INR (length chunks + 2 * k) * u <= 1 -> rounds_ok A rounds -> f_sampling A n chunks rho count rounds = Some l ->
  length l = N.to_nat count /\
  forall b, In b l -> (b < 2 ^ n)%N /\ exists draw i, In draw rounds /\
    selects_about (3 * run_error u eta n ks + draw_error u eta n (length chunks) k 4) (exact_after ks psi) (draw i) b.
Proof. intros u eta A n L ks gs psi rho k chunks count rounds l (H1 & H2 & H3 & H4 & H5) Hr. exact (run_sampling u eta A n L ks gs psi H1 H2 H3 H4 H5 rho Hr k chunks count rounds l). Qed.
Print Assumptions C64_sampling.

(** Double precision, up to 40 qubits: gates of total weight W (m gates of weight 300 have W = 300 m) and sums of height h
    give errors of (W + 3 h + 5) / 10^15. *)
Theorem C64_double : forall A n L ks gs psi, double_ok A n L ks gs psi -> simulation_ok (unit_of 53) (tiny_of (-1074)) A n L ks gs psi.
Proof. exact double_simulation. Qed.
Print Assumptions C64_double.
Theorem C64_double_probability : forall A n L ks gs psi rho h q w, double_ok A n L ks gs psi -> f_run A n 1 L gs psi rho ->
  (N.to_nat n < h <= 10 ^ 6)%nat -> (q < n)%N -> w_amp w = rho ->
  returns_about (f_get_zero_probability A (shallow h) n q) w (prob n (fun x => negb (N.testbit x q)) (exact_after ks psi)) ((total_weight ks + 3 * INR h + 5) / 10 ^ 15).
Proof. intros A n L ks gs psi rho h q w (H1 & H2 & H3 & H4 & H5 & H6). exact (double_probability A n L ks gs psi H1 H2 H3 H4 H5 H6 rho h q w). Qed.
Print Assumptions C64_double_probability.
Theorem C64_double_marginal : forall A n L ks gs psi rho h vs w, double_ok A n L ks gs psi -> f_run A n 1 L gs psi rho ->
  (N.to_nat n < h <= 10 ^ 6)%nat -> N.of_nat (length vs) = n -> Forall (fun v => (v <= 2)%N) vs -> w_amp w = rho ->
  returns_about (f_get_marginal_probability A (shallow h) n vs) w (prob n (shows vs) (exact_after ks psi)) ((total_weight ks + 3 * INR h + 5) / 10 ^ 15).
Proof. intros A n L ks gs psi rho h vs w (H1 & H2 & H3 & H4 & H5 & H6). exact (double_marginal A n L ks gs psi H1 H2 H3 H4 H5 H6 rho h vs w). Qed.
Print Assumptions C64_double_marginal.
Theorem C64_double_expectation : forall A n L ks gs psi rho o t h, double_ok A n L ks gs psi -> f_run A n 1 L gs psi rho ->
  (0 < n)%N -> op_fits n o -> reduction_of (op_iters o (2 ^ n)) t -> (tree_height t <= h <= 10 ^ 6)%nat ->
  exists v, f_op_expectation A (2 ^ n) o rho t = Some v /\
    sqrt (Cnorm2 (v - inner n (exact_after ks psi) (op_act o (exact_after ks psi)))%C) <=
      (coef_weight (o_terms o) * (total_weight ks + 3 * INR h + 20) + INR (length (o_terms o))) / 10 ^ 15.
Proof. intros A n L ks gs psi rho o t h (H1 & H2 & H3 & H4 & H5 & H6). exact (double_expectation A n L ks gs psi H1 H2 H3 H4 H5 H6 rho o t h). Qed.
Print Assumptions C64_double_expectation.
Theorem C64_double_sampling : forall A n L ks gs psi rho k chunks count rounds l, double_ok A n L ks gs psi -> f_run A n 1 L gs psi rho ->
  chunks_ok (2 ^ n) k chunks -> 3 / 2 * INR (length chunks + 2 * k) * unit_of 53 <= 1 ->
  (forall draw i, In draw rounds -> unit_draw (draw i)) -> f_sampling A n chunks rho count rounds = Some l ->
  length l = N.to_nat count /\
  forall b, In b l -> (b < 2 ^ n)%N /\ exists draw i, In draw rounds /\
    selects_about ((total_weight ks + 3 * INR (length chunks + 2 * k) + 6) / 10 ^ 15) (exact_after ks psi) (draw i) b.
Proof. intros A n L ks gs psi rho k chunks count rounds l (H1 & H2 & H3 & H4 & H5 & H6). exact (double_sampling A n L ks gs psi H1 H2 H3 H4 H5 H6 rho k chunks count rounds l). Qed.
Print Assumptions C64_double_sampling.

(** Nine gates of every kind on three qubits *)
Example C64_example : exists gs, double_ok (correctly_rounded 53 (-1074)) 3 4 example_calls gs (basis 5).
Proof. exact simulation_example. Qed.
