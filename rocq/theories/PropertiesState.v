(** State vectors and classical registers: C30, C31, C49, C50 and C51. *)
From Verif Require Import GateSpec State StateSpec.
From Verif Require StateProofs4 RowProofs.

(** C30: probabilities.  64 qubits are out of reach of the 64-bit index. *)
Theorem C30_zero_probability : forall n q w, n < 64 -> q < n ->
  returns (get_zero_probability n q) w (prob n (fun x => negb (N.testbit x q)) (w_amp w)).
Proof. exact StateProofs.zero_probability_ok. Qed.
Print Assumptions C30_zero_probability.
Theorem C30_marginal : forall n vs w, n < 64 -> N.of_nat (length vs) = n -> Forall (fun v => v <= 2) vs ->
  returns (get_marginal_probability n vs) w (prob n (shows vs) (w_amp w)).
Proof. exact StateProofs.marginal_ok. Qed.
Print Assumptions C30_marginal.
Theorem C30_invalid_throws : forall n q vs w,
  (n <= q -> throws (get_zero_probability n q) w) /\
  (N.of_nat (length vs) <> n \/ ~ Forall (fun v => v <= 2) vs -> throws (get_marginal_probability n vs) w).
Proof. exact (fun n q vs w => conj (StateProofs.zero_probability_throws n q w) (StateProofs.marginal_throws n vs w)). Qed.
Print Assumptions C30_invalid_throws.
(** the two outcomes of a qubit add up to the marginal that leaves it out, *)
Theorem C30_complement : forall n l1 l2 w, n < 64 -> N.of_nat (length l1 + 1 + length l2) = n -> Forall (fun v => v <= 2) (l1 ++ l2) ->
  exists p p0 p1, returns (get_marginal_probability n (l1 ++ 2 :: l2)) w p /\
    returns (get_marginal_probability n (l1 ++ 0 :: l2)) w p0 /\ returns (get_marginal_probability n (l1 ++ 1 :: l2)) w p1 /\
    p = (p0 + p1)%R.
Proof. exact StateProofs4.marginal_split. Qed.
Print Assumptions C30_complement.
(** and the marginal of nothing is the squared norm *)
Theorem C30_total : forall n w, n < 64 ->
  exists s, returns (get_marginal_probability n (repeat 2 (N.to_nat n))) w s /\ returns (get_squared_norm n) w s.
Proof. exact StateProofs4.marginal_total. Qed.
Print Assumptions C30_total.
Theorem C30_zero_is_marginal : forall n q w, n < 64 -> q < n ->
  exists p, returns (get_zero_probability n q) w p /\
    returns (get_marginal_probability n (repeat 2 (N.to_nat q) ++ 0 :: repeat 2 (N.to_nat (n - q - 1)))) w p.
Proof. exact StateProofs4.zero_is_marginal. Qed.
Print Assumptions C30_zero_is_marginal.
Theorem C30_batched : forall B n q vs w, n < 64 ->
  returns (b_get_squared_norm B n) w (elementwise B n (sqnorm n) (w_amp w)) /\
  (q < n -> returns (b_get_zero_probability B n q) w (elementwise B n (prob n (fun x => negb (N.testbit x q))) (w_amp w))) /\
  (n <= q -> throws (b_get_zero_probability B n q) w) /\
  (N.of_nat (length vs) = n -> Forall (fun v => v <= 2) vs ->
     returns (b_get_marginal_probability B n vs) w (elementwise B n (prob n (shows vs)) (w_amp w))) /\
  (N.of_nat (length vs) <> n \/ ~ Forall (fun v => v <= 2) vs -> throws (b_get_marginal_probability B n vs) w).
Proof. exact (fun B n q vs w Hn => conj (StateProofs3.b_squared_norm_ok B n w) (conj (StateProofs3.b_zero_probability_ok B n q w Hn)
  (conj (StateProofs3.b_zero_probability_throws B n q w) (conj (StateProofs3.b_marginal_ok B n vs w Hn) (StateProofs3.b_marginal_throws B n vs w))))). Qed.
Print Assumptions C30_batched.
(** qubits 0 and 3 measured as 1 and 0, of 4 *)
Example C30_example : N.of_nat (length [1; 2; 2; 0]) = 4 /\ Forall (fun v => v <= 2) [1; 2; 2; 0] /\
  filter (shows [1; 2; 2; 0]) (seqN (2 ^ 4)) = [1; 3; 5; 7].
Proof. repeat split; repeat constructor; discriminate. Qed.

(** C31: sampling; [rounds] are the numbers drawn in the successive rounds of the rejection loop. *)
Theorem C31_sampling : forall n psi count rounds l, (forall draw i, In draw rounds -> unit_draw (draw i)) ->
  sampling n psi count rounds = Some l ->
  length l = N.to_nat count /\
  forall x, In x l -> x < 2 ^ n /\ exists draw i, In draw rounds /\ selects psi (draw i) x.
Proof. exact StateProofs2.sampling_sound. Qed.
Print Assumptions C31_sampling.
Theorem C31_unique : forall psi r x y, selects psi r x -> selects psi r y -> x = y.
Proof. exact StateProofs2.selects_unique. Qed.
Print Assumptions C31_unique.
Theorem C31_zero_probability : forall psi r x, selects psi r x -> Cnorm2 (psi x) <> 0%R.
Proof. exact (fun psi r x H => not_eq_sym (Rlt_not_eq _ _ (StateProofs2.selects_positive psi r x H))). Qed.
Print Assumptions C31_zero_probability.
(** numbers below the squared norm are never rejected: the k-th sample is what the k-th number selects.  With norm 1 these are all numbers of [0,1). *)
Theorem C31_accepted : forall n psi count draw rest, (forall i, 0 <= draw i < sqnorm n psi)%R ->
  exists l, sampling n psi count (draw :: rest) = Some l /\ length l = N.to_nat count /\
    forall k, k < count -> selects psi (draw k) (nth (N.to_nat k) l 0).
Proof. exact StateProofs2.sampling_one_round. Qed.
Print Assumptions C31_accepted.
Theorem C31_batched : forall B n psi count rounds l, (forall draw i, In draw rounds -> unit_draw (draw i)) ->
  b_sampling B n psi count rounds = Some l ->
  length l = N.to_nat B /\
  forall b, b < B -> length (nth (N.to_nat b) l []) = N.to_nat count /\
    forall x, In x (nth (N.to_nat b) l []) -> x < 2 ^ n /\ exists draw i, In draw rounds /\ selects (batch n b psi) (draw i) x.
Proof. exact StateProofs2.b_sampling_sound. Qed.
Print Assumptions C31_batched.
(** The norm must not be zero: otherwise no sequence of numbers makes sampling return. *)
Theorem C31_zero_norm_never_returns : forall n psi count rounds, sqnorm n psi = 0%R -> 0 < count ->
  (forall draw i, In draw rounds -> unit_draw (draw i)) -> sampling n psi count rounds = None.
Proof. exact StateProofs2.sampling_zero. Qed.
Print Assumptions C31_zero_norm_never_returns.
(** |01> with 0.25, 0.5: both samples are basis state 1 *)
Example C31_example : exists l, sampling 2 (fun x => if x =? 1 then C1 else C0) 2 [fun i => if i =? 0 then (1 / 4)%R else (1 / 2)%R] = Some l /\ length l = 2%nat.
Proof. exact StateProofs4.sampling_example. Qed.

(** C49: a state is the vector its calls describe, up to the first call that throws; nothing else changes. *)
Theorem C49_history : forall n l psi w, (forall a, a < 2 ^ n -> w_amp w a = psi a) -> sops_ok n l psi ->
  runs (run_sops n l) w (fun o =>
    match o with
    | HDone _ w' => snd (vector_ops n l psi) = false /\ only_amplitudes (2 ^ n) (fst (vector_ops n l psi)) w w'
    | HThrown w' => snd (vector_ops n l psi) = true /\ only_amplitudes (2 ^ n) (fst (vector_ops n l psi)) w w'
    | HUndefined => False
    end).
Proof. exact StateProofs2.run_sops_ok. Qed.
Print Assumptions C49_history.
Theorem C49_batched_history : forall B n l f w, (forall b i, b < B -> i < 2 ^ n -> batch n b (w_amp w) i = f b i) -> bops_ok B n l f ->
  runs (run_bops B n l) w (fun o =>
    match o with
    | HDone _ w' => snd (family_ops B n l f) = false /\ rows_become B n (fst (family_ops B n l f)) w w'
    | HThrown w' => snd (family_ops B n l f) = true /\ rows_become B n (fst (family_ops B n l f)) w w'
    | HUndefined => False
    end).
Proof. exact StateProofs3.run_bops_ok. Qed.
Print Assumptions C49_batched_history.
Theorem C49_amplitudes : forall n i w, returns (get_amplitudes n) w (map (w_amp w) (seqN (2 ^ n))) /\
  (i < 2 ^ n -> returns (get_amplitude_at n i) w (w_amp w i)).
Proof. exact (fun n i w => conj (StateProofs.get_amps_ok n w) (StateProofs.get_amp_ok n i w)). Qed.
Print Assumptions C49_amplitudes.
Theorem C49_load_get : forall n l w, N.of_nat (length l) = 2 ^ n -> runs (load n l;~ get_amplitudes n) w (done (fun r _ => r = l)).
Proof. exact StateProofs4.load_get. Qed.
Print Assumptions C49_load_get.
Theorem C49_normalized : forall n w, sqnorm n (w_amp w) <> 0%R ->
  runs (normalize n) w (done (fun _ w' => returns (get_squared_norm n) w' 1%R)).
Proof. exact StateProofs4.normalize_unit. Qed.
Print Assumptions C49_normalized.
Theorem C49_inner_product : forall n m other w,
  (n = m -> returns (inner_product n m other) w (Csum (2 ^ n) (fun x => (Cconj (w_amp w x) * other x)%C))) /\
  (n <> m -> throws (inner_product n m other) w).
Proof. exact StateProofs4.inner_product_both. Qed.
Print Assumptions C49_inner_product.
(** linear in the second state, conjugate symmetric *)
Theorem C49_inner_product_algebra : forall n w phi chi c,
  exists v1 v2 v3 v4, returns (inner_product n n phi) w v1 /\ returns (inner_product n n chi) w v2 /\
    returns (inner_product n n (fun x => (phi x + c * chi x)%C)) w v3 /\ v3 = (v1 + c * v2)%C /\
    returns (inner_product n n (w_amp w)) (set_amp phi w) v4 /\ v4 = Cconj v1.
Proof. exact StateProofs4.inner_product_algebra. Qed.
Print Assumptions C49_inner_product_algebra.
(** one row of a batch, and no row past the end *)
Theorem C49_row : forall B n b w,
  (b < B -> runs (b_get_state_vector_at B n b) w
     (fun o => exists psi, o = HDone psi w /\ forall i, i < 2 ^ n -> psi i = batch n b (w_amp w) i)) /\
  (B <= b -> throws (b_get_state_vector_at B n b) w).
Proof. exact RowProofs.row_ok. Qed.
Print Assumptions C49_row.
Theorem C49_reduced_state : forall B n w,
  returns (b_get_reduced_state B n) w (map (fun i => Csuml (fun b => batch n b (w_amp w) i) (seqN B)) (seqN (2 ^ n))).
Proof. exact StateProofs3.b_reduced_ok. Qed.
Print Assumptions C49_reduced_state.
(** [sops_ok] is needed: neither the index of an amplitude nor the size of a summand is checked. *)
Theorem C49_unchecked_index_refuted : forall n i c w, 2 ^ n <= i ->
  undefined (set_amplitude_at n i c) w /\ undefined (get_amplitude_at n i) w.
Proof. exact StateProofs4.unchecked_index. Qed.
Print Assumptions C49_unchecked_index_refuted.
Theorem C49_unchecked_size_refuted : exists n m other w, m < n /\ add_state_vector_with_coef n C1 false (2 ^ m) other w HUndefined.
Proof. exact StateProofs4.unchecked_size. Qed.
Print Assumptions C49_unchecked_size_refuted.
(** |10>, doubled, twice added to itself with coefficient i, then a call that throws *)
Example C49_example : sops_ok 2 [SBasis 2; SMultiply (2, 0)%R; SAdd Ci true 2 (fun _ => C0); SNormalize; SBasis 4] (fun _ => C0).
Proof. exact StateProofs4.history_example. Qed.

(** C50: classical registers. *)
Theorem C50_register : forall size l i, i < size ->
  N.of_nat (length (run_rops l (reg_new size))) = size /\ reg_read (run_rops l (reg_new size)) i = Ok (last_written i l).
Proof. exact StateProofs3.run_rops_spec. Qed.
Print Assumptions C50_register.
(** calls with an index in range succeed, others throw and change nothing *)
Theorem C50_bounds : forall size l i o, (o = RRead i \/ exists b, o = RWrite i b) ->
  let r := run_rops l (reg_new size) in
  (i < size -> snd (run_rop o r) = false) /\ (size <= i -> run_rop o r = (r, true)).
Proof. exact StateProofs4.register_bounds. Qed.
Print Assumptions C50_bounds.
Theorem C50_batched : forall size nb l b i, b < nb -> i < size ->
  breg_read (run_brops l (breg_new size nb)) b i = Ok (last_given size b i l).
Proof. exact (fun size nb l b i Hb Hi => proj2 (StateProofs3.run_brops_spec size nb l b i Hb Hi)). Qed.
Print Assumptions C50_batched.
Theorem C50_batched_bounds : forall size nb l b i v x,
  let r := run_brops l (breg_new size nb) in
  (nb <= b \/ size <= i -> run_brop (BWrite b i v) r = (r, true) /\ breg_read r b i = Throw) /\
  (nb <= b \/ N.of_nat (length x) <> size -> run_brop (BAssign b x) r = (r, true)) /\
  (b < nb -> i < size -> snd (run_brop (BWrite b i v) r) = false) /\
  (b < nb -> N.of_nat (length x) = size -> snd (run_brop (BAssign b x) r) = false).
Proof. exact StateProofs4.batched_bounds. Qed.
Print Assumptions C50_batched_bounds.
Example C50_example : last_written 1 [RWrite 1 true; RReset; RWrite 0 true; RWrite 1 true; RWrite 7 false; RRead 1] = true /\
  last_given 2 1 0 [BWrite 1 0 true; BAssign 1 [false; true]; BWrite 0 0 true] = false.
Proof. split; reflexivity. Qed.

(** C51: the entropy of the basis-state distribution, 0 log 0 being 0. *)
Theorem C51_entropy_partial : forall n w, returns (get_computational_basis_entropy n) w
  (Rsuml (fun x => if Rlt_dec 0 (Cnorm2 (w_amp w x)) then (- Cnorm2 (w_amp w x) * (ln (Cnorm2 (w_amp w x)) / ln 2))%R else 0%R) (seqN (2 ^ n))).
Proof. exact StateProofs.entropy_ok. Qed.
Print Assumptions C51_entropy_partial.
(** The batched version raises small probabilities to 1e-15 and so does not agree: wrong for |0>. *)
Theorem C51_batched_entropy_refuted : exists n w v v', returns (get_computational_basis_entropy n) w v /\
  returns (b_get_computational_basis_entropy 1 n) w [v'] /\ v <> v'.
Proof. exact StateProofs4.b_entropy_wrong. Qed.
Print Assumptions C51_batched_entropy_refuted.
Example C51_example : exists w, Cnorm2 (w_amp w 0) = (1 / 2)%R /\ Cnorm2 (w_amp w 1) = 0%R.
Proof. exact StateProofs4.entropy_example. Qed.
