(** Property theorems: numbers read from a state in rounded arithmetic. *)
From Verif Require Import FloatProofs18.
Open Scope R_scope.

(** ** C63: norms, probabilities, inner products, expectation values, normalize() and sampling() under rounding *)
(** Sums whose chains of additions are at most [h] long ([shallow h]: about log2 of the size for a balanced tree) err by
    about 5 h + c units of rounding, relative to what is added up. *)
Theorem C63_norm : forall u eta A n h w, accurate u eta A -> height_ok u n h ->
  returns_about (f_get_squared_norm A (shallow h) n) w (sqnorm n (w_amp w)) (sum_error u eta n h 9 (sqnorm n (w_amp w))).
Proof. intros u eta A n h w HA Hh. exact (squared_norm_about u eta A HA n h Hh w). Qed.
Print Assumptions C63_norm.
Theorem C63_zero_probability : forall u eta A n h q w, accurate u eta A -> height_ok u n h -> (n < 64)%N -> (q < n)%N ->
  let x := prob n (fun x => negb (N.testbit x q)) (w_amp w) in
  returns_about (f_get_zero_probability A (shallow h) n q) w x (sum_error u eta n h 9 x).
Proof. intros u eta A n h q w HA Hh. exact (zero_probability_about u eta A HA n h Hh q w). Qed.
Print Assumptions C63_zero_probability.
Theorem C63_marginal : forall u eta A n h vs w, accurate u eta A -> height_ok u n h -> (n < 64)%N ->
  N.of_nat (length vs) = n -> Forall (fun v => (v <= 2)%N) vs ->
  let x := prob n (shows vs) (w_amp w) in
  returns_about (f_get_marginal_probability A (shallow h) n vs) w x (sum_error u eta n h 9 x).
Proof. intros u eta A n h vs w HA Hh. exact (marginal_about u eta A HA n h Hh vs w). Qed.
Print Assumptions C63_marginal.
Theorem C63_inner_product : forall u eta A n h other w, accurate u eta A -> height_ok u n h ->
  returns_aboutC (f_inner_product A (shallow h) n n other) w (inner n (w_amp w) other) (sum_error u eta n h 15 (vnorm n (w_amp w) * vnorm n other)).
Proof. intros u eta A n h other w HA Hh. exact (inner_product_about u eta A HA n h Hh other w). Qed.
Print Assumptions C63_inner_product.
(** normalize() ends near the normalised state. *)
Theorem C63_normalize : forall u eta A n h w, accurate u eta A -> height_ok u n h ->
  0 < sqnorm n (w_amp w) -> sum_error u eta n h 9 (sqnorm n (w_amp w)) <= sqnorm n (w_amp w) / 4 ->
  leaves_about n (f_normalize A (shallow h) n) w (fun x => Cscale (/ vnorm n (w_amp w)) (w_amp w x)) (normalize_error u eta n h (sqnorm n (w_amp w))).
Proof. intros u eta A n h w HA Hh. exact (normalize_about u eta A HA n h Hh w). Qed.
Print Assumptions C63_normalize.
(** Expectation values, for every tree of additions *)
Theorem C63_pauli_expectation : forall u eta A n p psi t h, accurate u eta A -> odd_rounding A -> (n <= 63)%N -> pauli_fits n p ->
  reduction_of (expect_iters p (2 ^ n)) t -> (tree_height t <= h)%nat -> 3 / 2 * INR h * u <= 1 ->
  exists v, f_pauli_expectation A (2 ^ n) p psi t = Some v /\
    sqrt (Cnorm2 (v - inner n psi (pauli_act p psi))%C) <= expect_error u eta n h (coef_weight [p]) 1 (sqnorm n psi).
Proof.
  intros u eta A n p psi t h HA Ho Hn. replace (coef_weight [p]) with (Cmod (p_coef p)) by (unfold coef_weight, Rsuml; cbn; symmetry; apply Rplus_0_r).
  exact (pauli_expectation_about u eta A HA n Hn p psi t h Ho).
Qed.
Print Assumptions C63_pauli_expectation.
Theorem C63_operator_expectation : forall u eta A n o psi t h, accurate u eta A -> (0 < n <= 63)%N -> op_fits n o ->
  reduction_of (op_iters o (2 ^ n)) t -> (tree_height t <= h)%nat -> 3 / 2 * INR h * u <= 1 ->
  exists v, f_op_expectation A (2 ^ n) o psi t = Some v /\
    sqrt (Cnorm2 (v - inner n psi (op_act o psi))%C) <= expect_error u eta n h (coef_weight (o_terms o)) (length (o_terms o)) (sqnorm n psi).
Proof. intros u eta A n o psi t h HA [H0 Hn]. exact (op_expectation_about u eta A HA n Hn o psi t h H0). Qed.
Print Assumptions C63_operator_expectation.
(** Sampling: every sample is one the exact distribution function selects for the number drawn, up to the error of a sum. *)
Theorem C63_sampling : forall u eta A psi n k chunks count rounds l, accurate u eta A -> chunks_ok (2 ^ n) k chunks ->
  3 / 2 * INR (length chunks + 2 * k) * u <= 1 -> rounds_ok A rounds -> f_sampling A n chunks psi count rounds = Some l ->
  length l = N.to_nat count /\
  forall b, In b l -> (b < 2 ^ n)%N /\ exists draw i, In draw rounds /\ selects_about (draw_error u eta n (length chunks) k (sqnorm n psi)) psi (draw i) b.
Proof. intros u eta A psi n k chunks count rounds l HA. exact (sampling_about u eta A HA psi n k chunks count rounds l). Qed.
Print Assumptions C63_sampling.
(** ... one round of numbers is enough unless one is as large as the norm, up to that error, *)
Theorem C63_sampling_ends : forall u eta A psi n k chunks count draw rest, accurate u eta A -> chunks_ok (2 ^ n) k chunks ->
  3 / 2 * INR (length chunks + 2 * k) * u <= 1 -> rounds_ok A [draw] ->
  (forall i, (i < count)%N -> draw i < sqnorm n psi - draw_error u eta n (length chunks) k (sqnorm n psi)) ->
  exists l, f_sampling A n chunks psi count (draw :: rest) = Some l /\ length l = N.to_nat count /\
    forall i, (i < count)%N -> (nth (N.to_nat i) l 0 < 2 ^ n)%N /\
      selects_about (draw_error u eta n (length chunks) k (sqnorm n psi)) psi (draw i) (nth (N.to_nat i) l 0%N).
Proof. intros u eta A psi n k chunks count draw rest HA. exact (sampling_ends u eta A HA psi n k chunks count draw rest). Qed.
Print Assumptions C63_sampling_ends.
(** ... and with a single chunk no basis state of amplitude zero is ever returned. *)
Theorem C63_sampling_nonzero : forall u eta A psi n count rounds l, accurate u eta A -> rounds_ok A rounds ->
  f_sampling A n [seqN (2 ^ n)] psi count rounds = Some l -> forall b, In b l -> (b < 2 ^ n)%N /\ psi b <> C0.
Proof. intros u eta A psi n count rounds l HA. exact (sampling_one_nonzero u eta A HA psi n count rounds l). Qed.
Print Assumptions C63_sampling_nonzero.
(** Kokkos::Serial adds in order, so that the chain is as long as the state: the bound holds while 2^n is below the
    precision ... *)
Theorem C63_norm_in_order : forall u eta A n w, accurate u eta A -> 3 / 2 * INR (N.to_nat (2 ^ n)) * u <= 1 ->
  returns_about (f_get_squared_norm A in_order n) w (sqnorm n (w_amp w)) (sum_error u eta n (N.to_nat (2 ^ n)) 9 (sqnorm n (w_amp w))).
Proof. exact serial_norm. Qed.
Print Assumptions C63_norm_in_order.
(** ... and beyond it the sum stalls.  In every binary type of precision [prec] the squared norm of the uniform
    superposition of n >= prec qubits is reported as 2^(prec - n). *)
Theorem C63_norm_stalls : forall prec emin A m w, binary prec emin A -> (8 <= prec <= Z.of_N (2 * m))%Z -> (emin <= - Z.of_N (2 * m))%Z -> w_amp w = uniform m ->
  sqnorm (2 * m) (w_amp w) = 1 /\ returns (f_get_squared_norm A in_order (2 * m)) w (powerRZ 2 (prec - Z.of_N (2 * m))).
Proof.
  intros prec emin A m w [HA _] [Hp Hn] He Hw. split; [rewrite Hw; apply uniform_norm|]. exact (stall_norm prec emin A m HA Hp He Hn w Hw).
Qed.
Print Assumptions C63_norm_stalls.
(** The full claims fail: F32 with 26 qubits, Kokkos::Serial. *)
Theorem C63_norm_refuted : exists A w, binary 24 (-149) A /\ sqnorm 26 (w_amp w) = 1 /\ returns (f_get_squared_norm A in_order 26) w (/ 4).
Proof. exact norm_refuted. Qed.
Print Assumptions C63_norm_refuted.
(** normalize() makes a normalised state four times too large. *)
Theorem C63_normalize_refuted : exists A w, binary 24 (-149) A /\ sqnorm 26 (w_amp w) = 1 /\
  runs (f_normalize A in_order 26) w (done (fun _ w' => sqnorm 26 (w_amp w') = 4)).
Proof. exact normalize_refuted. Qed.
Print Assumptions C63_normalize_refuted.
(** sampling() never returns three quarters of the basis states of the uniform superposition. *)
Theorem C63_sampling_refuted : exists A psi, binary 24 (-149) A /\ sqnorm 26 psi = 1 /\ (forall x, psi x = uniform 13 x) /\
  forall count rounds l, (forall draw i, In draw rounds -> unit_draw (draw i)) ->
  f_sampling A 26 [seqN (2 ^ 26)] psi count rounds = Some l -> forall x, In x l -> (x < 2 ^ 24)%N.
Proof. exact sampling_refuted. Qed.
Print Assumptions C63_sampling_refuted.
(** With several threads sampling() can return a basis state whose amplitude is exactly zero (BF16, 3 qubits). *)
Theorem C63_sampling_nonzero_refuted : exists A, binary 8 (-133) A /\ sqnorm 3 bad_state = 1 /\ bad_state 3%N = C0 /\ chunks_ok (2 ^ 3) 5 bad_chunks /\
  f_sampling A 3 bad_chunks bad_state 1 [fun _ => / 4] = Some [3%N].
Proof. exact zero_refuted. Qed.
Print Assumptions C63_sampling_nonzero_refuted.

(** F32 and 30 qubits satisfy the hypotheses with balanced trees, and normalize() those on its error; every binary type
    has odd rounding and draws that stay nonnegative. *)
Example C63_example_height : height_ok (unit_of 24) 30 31.
Proof. exact height_example. Qed.
Example C63_example_numbers : accurate (unit_of 24) (tiny_of (-149)) (correctly_rounded 24 (-149)) /\ odd_rounding (correctly_rounded 24 (-149)).
Proof. exact numbers_example. Qed.
Example C63_example_normalize : sum_error (unit_of 24) (tiny_of (-149)) 30 31 9 1 <= 1 / 4.
Proof. exact normalize_example. Qed.
Example C63_example_chunks : chunks_ok (2 ^ 3) 5 bad_chunks /\ 3 / 2 * INR (length bad_chunks + 2 * 5) * unit_of 8 <= 1.
Proof. exact chunks_example. Qed.
Example C63_example_rounds : forall draw, (forall i, unit_draw (draw i)) -> rounds_ok (correctly_rounded 24 (-149)) [draw].
Proof. exact rounds_example. Qed.
