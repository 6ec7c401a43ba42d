(** Expected values over finitely many draws; samples in any order. *)
From Verif Require Import NoiseMeanSpec.
From Coq Require Import FunctionalExtensionality Lia Lra.
Local Open Scope nat_scope.

Definition fits (laws : list (list R)) (js : list nat) : Prop := Forall2 (fun d j => j < length d) laws js.

Lemma exp_ext laws : forall V W, (forall js, fits laws js -> V js = W js) -> expectation laws V = expectation laws W.
Proof.
  induction laws as [|d laws IH]; intros V W H; cbn [expectation]; [apply H; constructor|].
  apply Csuml_ext. intros j Hj. apply in_seq in Hj. f_equal. apply IH. intros js Hjs. apply H. constructor; [lia|exact Hjs].
Qed.
Lemma exp_same laws V W : (forall js, V js = W js) -> expectation laws V = expectation laws W.
Proof. intros H. apply exp_ext. auto. Qed.
Lemma exp_app l1 : forall l2 V, expectation (l1 ++ l2) V = expectation l1 (fun a => expectation l2 (fun b => V (a ++ b))).
Proof. induction l1 as [|d l1 IH]; intros l2 V; cbn [app expectation]; [reflexivity|]. apply Csuml_ext. intros j _. f_equal. apply IH. Qed.
Lemma exp_add laws : forall V W, expectation laws (fun js => V js + W js)%C = (expectation laws V + expectation laws W)%C.
Proof.
  induction laws as [|d laws IH]; intros V W; cbn [expectation]; [reflexivity|].
  rewrite <- Csuml_add. apply Csuml_ext. intros j _. rewrite IH. Csolve.
Qed.
Lemma exp_mul laws : forall c V, expectation laws (fun js => c * V js)%C = (c * expectation laws V)%C.
Proof.
  induction laws as [|d laws IH]; intros c V; cbn [expectation]; [reflexivity|].
  rewrite <- Csuml_mul_l. apply Csuml_ext. intros j _. rewrite IH. Csolve.
Qed.
Lemma exp_zero laws : expectation laws (fun _ => C0) = C0.
Proof. induction laws as [|d laws IH]; cbn [expectation]; [reflexivity|]. apply Csuml_zero. intros j _. rewrite IH. Csolve. Qed.
Lemma exp_sum {T} laws (f : T -> list nat -> C) l : expectation laws (fun js => Csuml (fun x => f x js) l) = Csuml (fun x => expectation laws (f x)) l.
Proof.
  induction l as [|x l IH]; cbn [Csuml fold_right]; [apply exp_zero|]. rewrite exp_add. f_equal. exact IH.
Qed.
Lemma scale_mul r z : Cscale r z = (RtoC r * z)%C. Proof. Csolve. Qed.
Lemma exp_fubini l1 : forall l2 (V : list nat -> list nat -> C), expectation l1 (fun a => expectation l2 (fun b => V a b)) = expectation l2 (fun b => expectation l1 (fun a => V a b)).
Proof.
  induction l1 as [|d l1 IH]; intros l2 V; cbn [expectation]; [reflexivity|].
  rewrite exp_sum. apply Csuml_ext. intros j _. rewrite IH. rewrite scale_mul, <- exp_mul. apply exp_same. intros b. now rewrite scale_mul.
Qed.
Lemma exp_const laws v : Forall (fun d => Rsuml (fun p => p) d = 1%R) laws -> expectation laws (fun _ => v) = v.
Proof.
  induction 1 as [|d laws Hd H IH]; cbn [expectation]; [reflexivity|]. rewrite IH.
  assert (E : forall s, Csuml (fun j => Cscale (nth (j - s) d 0%R) v) (seq s (length d)) = Cscale (Rsuml (fun p => p) d) v).
  { clear. induction d as [|p d IH]; intros s; cbn [length seq Csuml fold_right Rsuml]; [Csolve|].
    rewrite Nat.sub_diag. cbn [nth]. specialize (IH (S s)). unfold Csuml, Rsuml in IH |- *.
    transitivity (Cscale p v + Cscale (fold_right (fun x acc => (x + acc)%R) 0%R d) v)%C; [|Csolve]. f_equal. rewrite <- IH.
    change (Csuml (fun j => Cscale (nth (j - s) (p :: d) 0%R) v) (seq (S s) (length d)) = Csuml (fun j => Cscale (nth (j - S s) d 0%R) v) (seq (S s) (length d))).
    apply Csuml_ext. intros j Hj. apply in_seq in Hj. replace (j - s) with (S (j - S s)) by lia. reflexivity. }
  specialize (E 0). rewrite Hd in E. transitivity (Cscale 1 v); [|Csolve]. rewrite <- E. apply Csuml_ext. intros j _. now rewrite Nat.sub_0_r.
Qed.
Lemma fits_length laws js : fits laws js -> length js = length laws.
Proof. induction 1; simpl; auto. Qed.

(** * Samples *)
Definition zipw (X : list (list nat)) (js : list nat) : list (list nat) := map (fun sj => fst sj ++ [snd sj]) (combine X js).
(** all samples take their next alternative, gate after gate *)
Fixpoint stages (ds : list (list R)) (V : list (list nat) -> C) (X : list (list nat)) : C :=
  match ds with [] => V X | d :: ds => expectation (repeat d (length X)) (fun js => stages ds V (zipw X js)) end.
(** one sample after the other, each all the way *)
Fixpoint spread (ds : list (list R)) (X : list (list nat)) (V : list (list nat) -> C) : C :=
  match X with [] => V [] | s :: X => expectation ds (fun p => spread ds X (fun ss => V ((s ++ p) :: ss))) end.
Definition symmetric (V : list (list nat) -> C) : Prop := forall X X', Permutation X X' -> V X = V X'.

Lemma zip_perm d X X' : Permutation X X' -> forall W, symmetric W ->
  expectation (repeat d (length X)) (fun js => W (zipw X js)) = expectation (repeat d (length X')) (fun js => W (zipw X' js)).
Proof.
  induction 1 as [|s X X' H IH|s t X|X1 X2 X3 H1 IH1 H2 IH2]; intros W HW; cbn [length repeat expectation].
  - reflexivity.
  - apply Csuml_ext. intros j _. f_equal. apply (IH (fun l => W ((s ++ [j]) :: l))). intros l l' Hl. apply HW. now constructor.
  - rewrite <- (map_id (seq 0 (length d))) at 1. set (w := fun j => nth j d 0%R). set (E := fun f => expectation (repeat d (length X)) f).
    assert (Hsw : forall G, Csuml (fun i => Cscale (w i) (Csuml (fun j => Cscale (w j) (G i j)) (seq 0 (length d)))) (seq 0 (length d)) =
                       Csuml (fun i => Cscale (w i) (Csuml (fun j => Cscale (w j) (G j i)) (seq 0 (length d)))) (seq 0 (length d))).
    { intros G. rewrite (Csuml_ext _ (fun i => Csuml (fun j => Cscale (w i) (Cscale (w j) (G i j))) (seq 0 (length d)))).
      2:{ intros i _. rewrite scale_mul, <- Csuml_mul_l. apply Csuml_ext. intros j _. now rewrite <- scale_mul. }
      rewrite (Csuml_ext (fun i => Cscale (w i) (Csuml (fun j => Cscale (w j) (G j i)) _)) (fun i => Csuml (fun j => Cscale (w i) (Cscale (w j) (G j i))) (seq 0 (length d)))).
      2:{ intros i _. rewrite scale_mul, <- Csuml_mul_l. apply Csuml_ext. intros j _. now rewrite <- scale_mul. }
      generalize (seq 0 (length d)) at 2 3. intros l. generalize (seq 0 (length d)). intros l'. revert l'. induction l as [|i l IHl]; intros l'; cbn [Csuml fold_right].
      - symmetry. apply Csuml_zero. reflexivity.
      - unfold Csuml in IHl |- *. rewrite IHl. change (Csuml (fun j => Cscale (w i) (Cscale (w j) (G i j))) l' + Csuml (fun i => Csuml (fun j => Cscale (w i) (Cscale (w j) (G j i))) l) l' =
          Csuml (fun i0 => Cscale (w i0) (Cscale (w i) (G i i0)) + Csuml (fun j => Cscale (w i0) (Cscale (w j) (G j i0))) l) l')%C.
        rewrite Csuml_add. f_equal. apply Csuml_ext. intros j _. Csolve. }
    rewrite map_id. etransitivity; [exact (Hsw (fun i j => E (fun js => W (zipw (t :: s :: X) (i :: j :: js)))))|]. apply Csuml_ext. intros i _. f_equal. apply Csuml_ext. intros j _. f_equal.
    apply exp_same. intros js. apply HW. unfold zipw. cbn [combine map fst snd]. apply perm_swap.
  - rewrite IH1 by exact HW. now apply IH2.
Qed.
Lemma stages_perm ds V : symmetric V -> symmetric (stages ds V).
Proof.
  intros HV. induction ds as [|d ds IH]; intros X X' H; cbn [stages]; [now apply HV|]. now apply zip_perm.
Qed.
Lemma stages_spread ds : forall V X, stages ds V X = spread ds X V.
Proof.
  induction ds as [|d ds IH]; intros V X; cbn [stages].
  - revert V. induction X as [|s X IHS]; intros V; cbn [spread expectation]; [reflexivity|]. rewrite app_nil_r. apply (IHS (fun ss => V (s :: ss))).
  - rewrite (exp_same _ _ (fun js => spread ds (zipw X js) V)) by (intros js; apply IH). clear IH. revert V. induction X as [|s X IHS]; intros V; cbn [length repeat]; [reflexivity|].
    cbn [spread expectation]. apply Csuml_ext. intros j _. f_equal.
    change (fun js => spread ds (zipw (s :: X) (j :: js)) V) with (fun js => expectation ds (fun p => spread ds (zipw X js) (fun ss => V (((s ++ [j]) ++ p) :: ss)))).
    rewrite exp_fubini. apply exp_same. intros p. rewrite IHS. rewrite <- app_assoc. reflexivity.
Qed.
Lemma spread_start ds k : forall V, spread ds (repeat [] k) V = independently k (expectation ds) V.
Proof. induction k as [|k IH]; intros V; cbn [repeat spread independently]; [reflexivity|]. apply exp_same. intros p. apply (IH (fun ss => V (p :: ss))). Qed.

(** * Sums over independent samples *)
Section Independent.
  Context (ds : list (list R)) (Hds : Forall (fun d => Rsuml (fun p => p) d = 1%R) ds).
  Let E := expectation ds.
  Lemma ind_ext k : forall V W, (forall ss, Forall (fits ds) ss -> length ss = k -> V ss = W ss) -> independently k E V = independently k E W.
  Proof.
    induction k as [|k IH]; intros V W H; cbn [independently]; [apply H; [constructor|reflexivity]|]. apply exp_ext. intros s Hs. apply IH.
    intros ss Hss Hl. apply H; [now constructor|simpl; lia].
  Qed.
  Lemma ind_add k : forall V W, independently k E (fun ss => V ss + W ss)%C = (independently k E V + independently k E W)%C.
  Proof. induction k as [|k IH]; intros V W; cbn [independently]; [reflexivity|]. unfold E in *. rewrite <- exp_add. apply exp_same. intros s. apply IH. Qed.
  Lemma ind_mul k : forall c V, independently k E (fun ss => c * V ss)%C = (c * independently k E V)%C.
  Proof. induction k as [|k IH]; intros c V; cbn [independently]; [reflexivity|]. unfold E in *. rewrite <- exp_mul. apply exp_same. intros s. apply IH. Qed.
  Lemma ind_const k v : independently k E (fun _ => v) = v.
  Proof. induction k as [|k IH]; cbn [independently]; [reflexivity|]. unfold E in *. rewrite (exp_same _ _ (fun _ => v)) by (intros s; apply IH). now apply exp_const. Qed.
  Lemma ind_sum k (q : list nat -> C) : independently k E (Csuml q) = Cscale (INR k) (E q).
  Proof.
    induction k as [|k IH]; cbn [independently].
    - cbn. Csolve.
    - transitivity (E (fun s => q s + Cscale (INR k) (E q))%C).
      + apply exp_same. intros s. change (fun ss => Csuml q (s :: ss)) with (fun ss => (fun _ => q s) ss + Csuml q ss)%C. rewrite ind_add, ind_const, IH. reflexivity.
      + unfold E. rewrite exp_add, exp_const by exact Hds. rewrite S_INR. Csolve.
  Qed.
  Lemma ind_product k (q r : list nat -> C) :
    independently k E (fun ss => Csuml q ss * Csuml r ss)%C = (Cscale (INR k) (E (fun s => q s * r s)%C) + Cscale (INR k * (INR k - 1)) (E q * E r))%C.
  Proof.
    induction k as [|k IH]; cbn [independently].
    - cbn. Csolve.
    - transitivity (E (fun s => q s * r s + (Cscale (INR k) (E r) * q s + (Cscale (INR k) (E q) * r s + (Cscale (INR k) (E (fun s => q s * r s)%C) + Cscale (INR k * (INR k - 1)) (E q * E r)))))%C).
      + apply exp_same. intros s. rewrite <- IH.
        rewrite (ind_ext k _ (fun ss => q s * r s + (q s * Csuml r ss + (r s * Csuml q ss + Csuml q ss * Csuml r ss)))%C).
        2:{ intros ss _ _. cbn [Csuml fold_right]. unfold Csuml. Csolve. }
        rewrite ind_add, ind_const, ind_add, ind_mul, ind_sum, ind_add, ind_mul, ind_sum. Csolve.
      + unfold E. rewrite !exp_add, !exp_mul, exp_const, exp_const by exact Hds. rewrite S_INR. Csolve.
  Qed.
End Independent.
