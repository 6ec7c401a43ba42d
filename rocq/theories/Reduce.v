(** Kokkos::parallel_reduce.

    The iterations are distributed over threads in an unspecified way; each thread accumulates its iterations
    into a private sum that starts at zero, and the partial sums are joined in an unspecified order.  That
    freedom is a tree whose leaves list iterations.  An iteration only reads memory; reading outside the valid
    addresses is undefined behaviour ([None]). *)
From Verif Require Export Cplx.
From Coq Require Import Permutation.

Section Reduce.
  Context {V A T I : Type}.
  (** one iteration: reads, then the value added to the sum *)
  Inductive rprog : Type :=
  | RVal (t : T)
  | RRd (a : A) (k : V -> rprog).
  Fixpoint rrun (valid : A -> bool) (m : A -> V) (p : rprog) : option T :=
    match p with
    | RVal t => Some t
    | RRd a k => if valid a then rrun valid m (k (m a)) else None
    end.

  Inductive rtree : Type :=
  | RLeaf (l : list I)
  | RJoin (a b : rtree).
  Fixpoint leaves (t : rtree) : list I :=
    match t with RLeaf l => l | RJoin a b => leaves a ++ leaves b end.

  Variables (zero : T) (add : T -> T -> T).
  Definition oadd (a b : option T) : option T :=
    match a, b with Some x, Some y => Some (add x y) | _, _ => None end.
  Fixpoint reduce (f : I -> option T) (t : rtree) : option T :=
    match t with
    | RLeaf l => fold_left (fun s i => oadd s (f i)) l (Some zero)
    | RJoin a b => oadd (reduce f a) (reduce f b)
    end.
  (** every iteration of the loop occurs exactly once *)
  Definition reduction_of (iters : list I) (t : rtree) : Prop := Permutation (leaves t) iters.

  Definition msum (f : I -> T) (l : list I) : T := fold_right (fun i s => add (f i) s) zero l.

  Hypothesis add_comm : forall a b, add a b = add b a.
  Hypothesis add_assoc : forall a b c, add a (add b c) = add (add a b) c.
  Hypothesis add_0 : forall a, add zero a = a.

  Lemma msum_app f l1 l2 : msum f (l1 ++ l2) = add (msum f l1) (msum f l2).
  Proof. induction l1 as [|x l IH]; simpl; [now rewrite add_0|]. now rewrite IH, add_assoc. Qed.
  Lemma msum_perm f l1 l2 : Permutation l1 l2 -> msum f l1 = msum f l2.
  Proof.
    induction 1; simpl; [reflexivity|congruence| |congruence]. now rewrite !add_assoc, (add_comm (f y)).
  Qed.
  Lemma reduce_leaf f g l : (forall i, In i l -> f i = Some (g i)) -> forall s,
    fold_left (fun s i => oadd s (f i)) l (Some s) = Some (add s (msum g l)).
  Proof.
    induction l as [|x l IH]; intros H s; simpl.
    - now rewrite add_comm, add_0.
    - rewrite (H x) by now left. simpl. rewrite IH by (intros; apply H; now right). now rewrite add_assoc.
  Qed.
  Lemma reduce_leaves f g t : (forall i, In i (leaves t) -> f i = Some (g i)) -> reduce f t = Some (msum g (leaves t)).
  Proof.
    induction t as [l|a IHa b IHb]; intros H; simpl.
    - rewrite (reduce_leaf f g l H). now rewrite add_0.
    - rewrite IHa, IHb by (intros; apply H; simpl; apply in_app_iff; auto). simpl. now rewrite msum_app.
  Qed.
  (** Whatever the distribution, the result is the sum over all iterations. *)
  Lemma reduce_correct f g iters t : reduction_of iters t -> (forall i, In i iters -> f i = Some (g i)) ->
    reduce f t = Some (msum g iters).
  Proof.
    intros HP H. rewrite (reduce_leaves f g t).
    - f_equal. now apply msum_perm.
    - intros i Hi. apply H. eapply Permutation_in; eassumption.
  Qed.
  Lemma reduction_exists iters : reduction_of iters (RLeaf iters).
  Proof. apply Permutation_refl. Qed.
End Reduce.
Arguments rprog V A T : clear implicits.
Arguments rtree I : clear implicits.

(** complex and real sums *)
Definition creduce {I} : (I -> option C) -> rtree I -> option C := reduce C0 Cadd.
Definition rreduce {I} : (I -> option R) -> rtree I -> option R := reduce 0%R Rplus.
Lemma msum_C {I} (f : I -> C) l : msum C0 Cadd f l = Csuml f l.
Proof. induction l; simpl; [reflexivity|]. now rewrite IHl. Qed.
Lemma msum_R {I} (f : I -> R) l : RtoC (msum 0%R Rplus f l) = Csuml (fun i => RtoC (f i)) l.
Proof. induction l; simpl; [reflexivity|]. now rewrite <- IHl, <- RtoC_add. Qed.
Lemma creduce_correct {I} (f : I -> option C) g iters t : reduction_of iters t -> (forall i, In i iters -> f i = Some (g i)) ->
  creduce f t = Some (Csuml g iters).
Proof.
  intros HP H. rewrite <- msum_C. unfold creduce. apply reduce_correct; auto; intros; ring.
Qed.
Lemma rreduce_correct {I} (f : I -> option R) g iters t : reduction_of iters t -> (forall i, In i iters -> f i = Some (g i)) ->
  exists v, rreduce f t = Some v /\ RtoC v = Csuml (fun i => RtoC (g i)) iters.
Proof.
  intros HP H. exists (msum 0%R Rplus g iters). split; [|apply msum_R]. unfold rreduce. apply reduce_correct; auto; intros; ring.
Qed.
