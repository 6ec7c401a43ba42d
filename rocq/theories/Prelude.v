(** Common definitions: outcomes of C++ calls, 64-bit arithmetic, list helpers. *)
From Coq Require Export NArith ZArith List Bool Lia.
Export ListNotations.
Open Scope N_scope.
Global Arguments N.pow : simpl never.
Global Arguments N.add : simpl never.
Global Arguments N.sub : simpl never.
Global Arguments N.mul : simpl never.
Global Arguments N.div : simpl never.
Global Arguments N.modulo : simpl never.
Global Arguments N.shiftl : simpl never.
Global Arguments N.shiftr : simpl never.
Global Arguments N.land : simpl never.
Global Arguments N.lor : simpl never.
Global Arguments N.lxor : simpl never.
Global Arguments N.ldiff : simpl never.
Global Arguments N.testbit : simpl never.
Global Arguments N.ones : simpl never.
Global Arguments N.of_nat : simpl never.
Global Arguments N.to_nat : simpl never.
Global Arguments N.eqb : simpl never.
Global Arguments N.ltb : simpl never.
Global Arguments N.leb : simpl never.

(** Outcome of a C++ call: a value, a thrown exception, or undefined behaviour.
    The text of exceptions is not modelled, only that one is thrown. *)
Inductive res (A : Type) : Type :=
| Ok (a : A)
| Throw
| UB.
Arguments Ok {A} a.
Arguments Throw {A}.
Arguments UB {A}.

Definition bindR {A B} (x : res A) (f : A -> res B) : res B :=
  match x with Ok a => f a | Throw => Throw | UB => UB end.
Definition mapR {A B} (f : A -> B) (x : res A) : res B :=
  match x with Ok a => Ok (f a) | Throw => Throw | UB => UB end.
Notation "x <- e ;; k" := (bindR e (fun x => k)) (at level 61, e at next level, right associativity).
Notation "' p <- e ;; k" := (bindR e (fun p => k)) (at level 61, p pattern, e at next level, right associativity).

Lemma bindR_ok {A B} (x : res A) (f : A -> res B) b :
  bindR x f = Ok b -> exists a, x = Ok a /\ f a = Ok b.
Proof. destruct x; simpl; intros; try discriminate; eauto. Qed.

(** std::uint64_t: an [N] below 2^64.  Wrap-around is written explicitly. *)
Definition two64 : N := 2 ^ 64.
Definition is_u64 (x : N) : Prop := x < two64.
Definition wrap (x : N) : N := x mod two64.
(** ~x *)
Definition not64 (x : N) : N := N.lxor x (N.ones 64).
(** a - b *)
Definition sub64 (a b : N) : N := wrap (a + (two64 - b)).
(** -x *)
Definition neg64 (x : N) : N := wrap (two64 - x).
(** a << k.  C++ leaves k >= 64 undefined: callers must show k < 64. *)
Definition shl64 (a k : N) : N := wrap (N.shiftl a k).
Definition add64 (a b : N) : N := wrap (a + b).
Definition mul64 (a b : N) : N := wrap (a * b).

Lemma wrap_small x : x < two64 -> wrap x = x.
Proof. intros; unfold wrap; apply N.mod_small; assumption. Qed.

Lemma testbit_high x n i : x < 2 ^ n -> n <= i -> N.testbit x i = false.
Proof.
  intros Hx Hi. destruct (N.eq_dec x 0) as [->|Hnz]; [apply N.bits_0|].
  apply N.bits_above_log2. apply N.log2_lt_pow2; [lia|].
  eapply N.lt_le_trans; [exact Hx|]. apply N.pow_le_mono_r; lia.
Qed.

Lemma lt_pow2_testbit x n : (forall i, n <= i -> N.testbit x i = false) -> x < 2 ^ n.
Proof.
  intros H. destruct (N.eq_dec x 0) as [->|Hnz].
  - apply N.neq_0_lt_0, N.pow_nonzero; lia.
  - apply N.log2_lt_pow2; [lia|]. destruct (N.lt_ge_cases (N.log2 x) n); [assumption|].
    specialize (H _ H0). rewrite N.bit_log2 in H by assumption. discriminate.
Qed.

Lemma lt_pow2_iff x n : x < 2 ^ n <-> (forall i, n <= i -> N.testbit x i = false).
Proof. split; [intros; eapply testbit_high; eauto | apply lt_pow2_testbit]. Qed.

Lemma wrap_testbit x i : N.testbit (wrap x) i = (i <? 64) && N.testbit x i.
Proof.
  unfold wrap, two64. destruct (N.ltb_spec i 64); simpl.
  - apply N.mod_pow2_bits_low; assumption.
  - apply N.mod_pow2_bits_high; assumption.
Qed.

Lemma not64_testbit x i : N.testbit (not64 x) i = xorb (N.testbit x i) (i <? 64).
Proof.
  unfold not64. rewrite N.lxor_spec. f_equal.
  destruct (N.ltb_spec i 64).
  - rewrite N.ones_spec_low; auto.
  - rewrite N.ones_spec_high; auto.
Qed.

(** [seqN a n] = a, a+1, ..., a+n-1 *)
Definition seqN (n : N) : list N := map N.of_nat (seq 0 (N.to_nat n)).

Lemma in_seqN i n : In i (seqN n) <-> i < n.
Proof.
  unfold seqN. rewrite in_map_iff. split.
  - intros [k [<- H]]. apply in_seq in H. lia.
  - intros H. exists (N.to_nat i). split; [lia|]. apply in_seq. lia.
Qed.

Lemma NoDup_map_inj {A B} (f : A -> B) l :
  (forall x y, In x l -> In y l -> f x = f y -> x = y) -> NoDup l -> NoDup (map f l).
Proof.
  induction l as [|a l IH]; intros Hf Hnd; simpl; constructor.
  - rewrite in_map_iff. intros [y [Hy Hin]]. inversion Hnd; subst.
    apply Hf in Hy; [subst; contradiction| now right | now left].
  - inversion Hnd; subst. apply IH; auto. intros; apply Hf; auto; now right.
Qed.

Lemma NoDup_seqN n : NoDup (seqN n).
Proof. unfold seqN. apply NoDup_map_inj; [intros; lia | apply seq_NoDup]. Qed.

Lemma length_seqN n : length (seqN n) = N.to_nat n.
Proof. unfold seqN. now rewrite map_length, seq_length. Qed.

Lemma nth_seqN n k d : (k < N.to_nat n)%nat -> nth k (seqN n) d = N.of_nat k.
Proof.
  intros. unfold seqN. rewrite (nth_indep _ d (N.of_nat 0)) by (rewrite map_length, seq_length; lia).
  rewrite map_nth, seq_nth by assumption. reflexivity.
Qed.
