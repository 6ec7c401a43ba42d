(** What a user expects of a random state, without the pool. *)
From Verif Require Export StateSpec DensitySpec Haar.
Open Scope N_scope.

(** The D numbers are pairs of successive draws: number x is made of the draws 2k and 2k+1 of one generator,
    no pair serves twice, and no earlier pair of that generator is skipped. *)
Definition drawn_from (gens : nat) (draw : nat -> nat -> R) (imag_first : bool) (D : N) (raw : state) : Prop :=
  exists from : N -> nat * nat,
    (forall x, x < D -> (fst (from x) < gens)%nat) /\
    (forall x y, x < D -> y < D -> from x = from y -> x = y) /\
    (forall x k, x < D -> (k < snd (from x))%nat -> exists y, y < D /\ from y = (fst (from x), k)) /\
    (forall x, x < D ->
       let a := draw (fst (from x)) (2 * snd (from x))%nat in
       let b := draw (fst (from x)) (S (2 * snd (from x))) in
       raw x = if imag_first then (b, a) else (a, b)).

(** [psi] is [raw] divided by its norm *)
Definition normalised (n : N) (raw psi : state) : Prop :=
  sqnorm n raw <> 0%R /\ forall x, x < 2 ^ n -> psi x = Cscale (/ sqrt (sqnorm n raw)) (raw x).
(** the generators never give 0 twice in a row *)
Definition no_double_zero (draw : nat -> nat -> R) : Prop :=
  forall g k, draw g k <> 0%R \/ draw g (S k) <> 0%R.

(** the density of 2 * 2^n independent standard normal numbers at the real and imaginary parts of raw *)
Definition normal_density (t : R) : R := (/ sqrt (2 * PI) * exp (- (t * t) / 2))%R.
Definition gaussian_density (n : N) (raw : state) : R :=
  fold_right (fun x acc => (normal_density (fst (raw x)) * normal_density (snd (raw x)) * acc)%R) 1%R (seqN (2 ^ n)).
