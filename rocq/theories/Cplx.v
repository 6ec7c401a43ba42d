(** Complex numbers over the standard library's reals, and finite sums.

    Models Complex<Prec> (include/scaluq/type/complex.hpp) with exact arithmetic: rounding is not modelled. *)
From Verif Require Export Prelude.
From Coq Require Export Reals Lra.
From Coq Require Import Permutation.
Open Scope N_scope.
Delimit Scope R_scope with R.

Definition C : Type := (R * R)%type.
Declare Scope C_scope.
Delimit Scope C_scope with C.
Bind Scope C_scope with C.

Definition Re (z : C) : R := fst z.
Definition Im (z : C) : R := snd z.
Definition RtoC (x : R) : C := (x, 0%R).
Definition C0 : C := (0, 0)%R.
Definition C1 : C := (1, 0)%R.
Definition Ci : C := (0, 1)%R.
(** complex.hpp: operator+, -, *, conj, squared_norm *)
Definition Cadd (a b : C) : C := (fst a + fst b, snd a + snd b)%R.
Definition Copp (a : C) : C := (- fst a, - snd a)%R.
Definition Csub (a b : C) : C := (fst a - fst b, snd a - snd b)%R.
Definition Cmul (a b : C) : C := (fst a * fst b - snd a * snd b, fst a * snd b + snd a * fst b)%R.
Definition Cscale (r : R) (a : C) : C := (r * fst a, r * snd a)%R.
Definition Cconj (a : C) : C := (fst a, - snd a)%R.
Definition Cnorm2 (a : C) : R := (fst a * fst a + snd a * snd a)%R.
(** e^{i t} = cos t + i sin t, as Kokkos::polar(1, t) *)
Definition Cexpi (t : R) : C := (cos t, sin t).

Infix "+" := Cadd : C_scope.
Infix "-" := Csub : C_scope.
Infix "*" := Cmul : C_scope.
Notation "- x" := (Copp x) : C_scope.

Lemma C_eq (a b : C) : fst a = fst b -> snd a = snd b -> a = b.
Proof. destruct a, b; simpl; intros; subst; reflexivity. Qed.

Ltac Cunfold := unfold Cadd, Csub, Cmul, Copp, Cscale, Cconj, Cnorm2, RtoC, C0, C1, Ci, Cexpi, Re, Im in *.
Ltac Csolve := intros; apply C_eq; Cunfold; simpl; try ring; try lra.

Lemma C_ring : ring_theory C0 C1 Cadd Cmul Csub Copp (@eq C).
Proof. constructor; Csolve. Qed.
Add Ring C_ring_inst : C_ring.

Lemma Cadd_comm a b : (a + b)%C = (b + a)%C. Proof. ring. Qed.
Lemma Cadd_assoc a b c : (a + (b + c))%C = ((a + b) + c)%C. Proof. ring. Qed.
Lemma Cadd_0_l a : (C0 + a)%C = a. Proof. ring. Qed.
Lemma Cmul_0_l a : (C0 * a)%C = C0. Proof. ring. Qed.
Lemma Cmul_0_r a : (a * C0)%C = C0. Proof. ring. Qed.
Lemma Cmul_1_l a : (C1 * a)%C = a. Proof. ring. Qed.
Lemma Cmul_1_r a : (a * C1)%C = a. Proof. ring. Qed.

Lemma Cconj_mul a b : Cconj (a * b) = (Cconj a * Cconj b)%C. Proof. Csolve. Qed.
Lemma Cconj_add a b : Cconj (a + b) = (Cconj a + Cconj b)%C. Proof. Csolve. Qed.
Lemma Cconj_sub a b : Cconj (a - b) = (Cconj a - Cconj b)%C. Proof. Csolve. Qed.
Lemma Cconj_opp a : Cconj (- a) = (- Cconj a)%C. Proof. Csolve. Qed.
Lemma Cconj_invol a : Cconj (Cconj a) = a. Proof. Csolve. Qed.
Lemma Cconj_0 : Cconj C0 = C0. Proof. Csolve. Qed.
Lemma Cconj_1 : Cconj C1 = C1. Proof. Csolve. Qed.
Lemma Cconj_i : Cconj Ci = (- Ci)%C. Proof. Csolve. Qed.
Lemma Cconj_R r : Cconj (RtoC r) = RtoC r. Proof. Csolve. Qed.
Lemma Cconj_expi t : Cconj (Cexpi t) = Cexpi (- t).
Proof. apply C_eq; Cunfold; simpl; [symmetry; apply cos_neg|now rewrite sin_neg]. Qed.
Lemma Cnorm2_conj a : RtoC (Cnorm2 a) = (Cconj a * a)%C. Proof. Csolve. Qed.
Lemma Cnorm2_mul a b : Cnorm2 (a * b)%C = (Cnorm2 a * Cnorm2 b)%R.
Proof. Cunfold; simpl. ring. Qed.
Lemma Cnorm2_nonneg a : (0 <= Cnorm2 a)%R.
Proof. Cunfold. nra. Qed.
Lemma Cnorm2_zero a : Cnorm2 a = 0%R -> a = C0.
Proof. intros H. Cunfold. apply C_eq; simpl; nra. Qed.
Lemma Cscale_mul r a : Cscale r a = (RtoC r * a)%C. Proof. Csolve. Qed.
Lemma Ci_sq : (Ci * Ci)%C = (- C1)%C. Proof. Csolve. Qed.
Lemma Cexpi_0 : Cexpi 0 = C1.
Proof. apply C_eq; Cunfold; simpl; [apply cos_0|apply sin_0]. Qed.
Lemma Cexpi_add s t : Cexpi (s + t) = (Cexpi s * Cexpi t)%C.
Proof. apply C_eq; Cunfold; simpl; [apply cos_plus|rewrite sin_plus; ring]. Qed.
Lemma Cexpi_norm t : Cnorm2 (Cexpi t) = 1%R.
Proof. Cunfold; simpl. pose proof (sin2_cos2 t). unfold Rsqr in H. lra. Qed.
Lemma Cexpi_inv t : (Cexpi t * Cexpi (- t))%C = C1.
Proof. rewrite <- Cexpi_add. replace (t + - t)%R with 0%R by ring. apply Cexpi_0. Qed.
Lemma RtoC_add a b : RtoC (a + b) = (RtoC a + RtoC b)%C. Proof. Csolve. Qed.
Lemma RtoC_mul a b : RtoC (a * b) = (RtoC a * RtoC b)%C. Proof. Csolve. Qed.
Lemma RtoC_opp a : RtoC (- a) = (- RtoC a)%C. Proof. Csolve. Qed.
Lemma RtoC_inj a b : RtoC a = RtoC b -> a = b. Proof. now intros [=]. Qed.

(** ** Finite sums *)
Definition Csuml {T} (f : T -> C) (l : list T) : C := fold_right (fun x acc => (f x + acc)%C) C0 l.
(** Sum of [f i] for i < n. *)
Definition Csum (n : N) (f : N -> C) : C := Csuml f (seqN n).

Lemma Csuml_app {T} (f : T -> C) l1 l2 : Csuml f (l1 ++ l2) = (Csuml f l1 + Csuml f l2)%C.
Proof. induction l1; simpl; [ring|]. rewrite IHl1. ring. Qed.
Lemma Csuml_perm {T} (f : T -> C) l1 l2 : Permutation l1 l2 -> Csuml f l1 = Csuml f l2.
Proof. induction 1; simpl; try congruence; try ring. Qed.
Lemma Csuml_ext {T} (f g : T -> C) l : (forall x, In x l -> f x = g x) -> Csuml f l = Csuml g l.
Proof.
  induction l; simpl; intros H; [reflexivity|]. rewrite H by now left. rewrite IHl; [reflexivity|].
  intros; apply H; now right.
Qed.
Lemma Csuml_add {T} (f g : T -> C) l : Csuml (fun x => (f x + g x)%C) l = (Csuml f l + Csuml g l)%C.
Proof. induction l; simpl; [ring|]. rewrite IHl. ring. Qed.
Lemma Csuml_mul_l {T} c (f : T -> C) l : Csuml (fun x => (c * f x)%C) l = (c * Csuml f l)%C.
Proof. induction l; simpl; [ring|]. rewrite IHl. ring. Qed.
Lemma Csuml_mul_r {T} c (f : T -> C) l : Csuml (fun x => (f x * c)%C) l = (Csuml f l * c)%C.
Proof. induction l; simpl; [ring|]. rewrite IHl. ring. Qed.
Lemma Csuml_zero {T} (f : T -> C) l : (forall x, In x l -> f x = C0) -> Csuml f l = C0.
Proof.
  induction l; simpl; intros H; [reflexivity|]. rewrite H by now left. rewrite IHl by (intros; apply H; now right). ring.
Qed.
Lemma Csuml_map {T U} (h : U -> T) (f : T -> C) l : Csuml f (map h l) = Csuml (fun x => f (h x)) l.
Proof. induction l; simpl; congruence. Qed.
Lemma Csuml_swap {T U} (f : T -> U -> C) l1 l2 :
  Csuml (fun x => Csuml (fun y => f x y) l2) l1 = Csuml (fun y => Csuml (fun x => f x y) l1) l2.
Proof.
  induction l1; simpl.
  - symmetry. apply Csuml_zero. reflexivity.
  - rewrite IHl1. rewrite <- Csuml_add. reflexivity.
Qed.
Lemma Csuml_single {T} (f : T -> C) l a : NoDup l -> In a l -> (forall x, In x l -> x <> a -> f x = C0) ->
  Csuml f l = f a.
Proof.
  induction l as [|b l IH]; intros Hnd Hin Hz; [destruct Hin|]. inversion Hnd; subst. simpl.
  destruct Hin as [->|Hin].
  - rewrite Csuml_zero; [ring|]. intros x Hx. apply Hz; [now right|]. intros ->. contradiction.
  - rewrite IH; auto.
    + rewrite Hz; [ring|now left|]. intros ->. contradiction.
    + intros; apply Hz; [now right|assumption].
Qed.
Lemma Csuml_filter {T} (f : T -> C) (p : T -> bool) l :
  Csuml (fun x => if p x then f x else C0) l = Csuml f (filter p l).
Proof. induction l; simpl; [reflexivity|]. destruct (p a); simpl; rewrite IHl; [reflexivity|ring]. Qed.
Lemma Csuml_conj {T} (f : T -> C) l : Cconj (Csuml f l) = Csuml (fun x => Cconj (f x)) l.
Proof. induction l; simpl; [apply Cconj_0|]. rewrite Cconj_add, IHl. reflexivity. Qed.
Lemma Csuml_opp {T} (f : T -> C) l : Csuml (fun x => (- f x)%C) l = (- Csuml f l)%C.
Proof. induction l; simpl; [ring|]. rewrite IHl. ring. Qed.

Lemma seqN_0 : seqN 0 = []. Proof. reflexivity. Qed.
Lemma seqN_succ n : seqN (N.succ n) = seqN n ++ [n].
Proof.
  unfold seqN. rewrite N2Nat.inj_succ, seq_S, map_app. simpl. now rewrite N2Nat.id.
Qed.
Lemma Csum_0 f : Csum 0 f = C0. Proof. reflexivity. Qed.
Lemma Csum_succ n f : Csum (N.succ n) f = (Csum n f + f n)%C.
Proof. unfold Csum. rewrite seqN_succ, Csuml_app. simpl. ring. Qed.
Lemma Csum_ext n f g : (forall i, i < n -> f i = g i) -> Csum n f = Csum n g.
Proof. intros H. apply Csuml_ext. intros x Hx. apply H. now apply in_seqN. Qed.
Lemma Csum_zero n f : (forall i, i < n -> f i = C0) -> Csum n f = C0.
Proof. intros H. apply Csuml_zero. intros x Hx. apply H. now apply in_seqN. Qed.
Lemma Csum_single n f a : a < n -> (forall i, i < n -> i <> a -> f i = C0) -> Csum n f = f a.
Proof.
  intros Ha Hz. apply Csuml_single; [apply NoDup_seqN|now apply in_seqN|].
  intros x Hx. apply Hz. now apply in_seqN.
Qed.
Lemma Csum_mul_l n c f : Csum n (fun i => (c * f i)%C) = (c * Csum n f)%C.
Proof. apply Csuml_mul_l. Qed.
Lemma Csum_mul_r n c f : Csum n (fun i => (f i * c)%C) = (Csum n f * c)%C.
Proof. apply Csuml_mul_r. Qed.
Lemma Csum_add n f g : Csum n (fun i => (f i + g i)%C) = (Csum n f + Csum n g)%C.
Proof. apply Csuml_add. Qed.
Lemma Csum_swap n m f : Csum n (fun i => Csum m (fun j => f i j)) = Csum m (fun j => Csum n (fun i => f i j)).
Proof. apply Csuml_swap. Qed.
Lemma Csum_conj n f : Cconj (Csum n f) = Csum n (fun i => Cconj (f i)).
Proof. apply Csuml_conj. Qed.
Lemma Csum_1 f : Csum 1 f = f 0.
Proof. change 1 with (N.succ 0). rewrite Csum_succ, Csum_0. ring. Qed.
Lemma Csum_2 f : Csum 2 f = (f 0 + f 1)%C.
Proof. change 2 with (N.succ 1). rewrite Csum_succ, Csum_1. ring. Qed.
Lemma Csum_4 f : Csum 4 f = (f 0 + f 1 + f 2 + f 3)%C.
Proof. change 4 with (N.succ (N.succ 2)). rewrite !Csum_succ, Csum_2. reflexivity. Qed.
(** Reindexing along a bijection of [0,n). *)
Lemma Csum_reindex n m (h : N -> N) f :
  (forall i, i < n -> h i < m) ->
  (forall i j, i < n -> j < n -> h i = h j -> i = j) ->
  (forall k, k < m -> exists i, i < n /\ h i = k) ->
  Csum n (fun i => f (h i)) = Csum m f.
Proof.
  intros H1 H2 H3. unfold Csum. rewrite <- (Csuml_map h). apply Csuml_perm.
  apply NoDup_Permutation.
  - apply NoDup_map_inj; [|apply NoDup_seqN]. intros x y Hx Hy. apply in_seqN in Hx, Hy. auto.
  - apply NoDup_seqN.
  - intros k. rewrite in_map_iff, in_seqN. split.
    + intros [i [<- Hi]]. apply H1. now apply in_seqN.
    + intros Hk. destruct (H3 k Hk) as (i & Hi & <-). exists i. split; [reflexivity|now apply in_seqN].
Qed.
