(** Rounded sums: the error grows with the height of the tree of additions. *)
From Verif Require Export FloatState FloatProofs6.
From Verif Require Import StateProofs GroundProofs4 GroundProofs9.
From Coq Require Import Permutation Lra ZifyBool ZifyN ZifyNat.
Open Scope R_scope.

(** * Sums of any kind *)
Section Pure.
  Context {T I : Type} (zero : T) (add : T -> T -> T) (x : I -> T).
  Fixpoint tsum (t : rtree I) : T :=
    match t with
    | RLeaf l => fold_left (fun s i => add s (x i)) l zero
    | RJoin a b => add (tsum a) (tsum b)
    end.
  Lemma reduce_pure f t : (forall i, In i (leaves t) -> f i = Some (x i)) -> reduce zero add f t = Some (tsum t).
  Proof.
    induction t as [l|a IHa b IHb]; intros H; cbn [reduce tsum leaves] in *.
    - revert H. generalize zero. induction l as [|i l IH]; intros z H; cbn [fold_left]; [reflexivity|].
      rewrite (H i) by now left. cbn [oadd]. apply IH. intros j Hj. apply H. now right.
    - rewrite IHa, IHb by (intros; apply H, in_app_iff; auto). reflexivity.
  Qed.
End Pure.

Section Trees.
  Context {I : Type}.
  Variables (u eta : R) (A : arith) (x y : I -> C) (e : I -> R).
  Hypothesis HA : accurate u eta A.
  Hypothesis Hnum : forall i, f_entry A (x i) = x i.
  Let Hu := u_range u eta A HA.
  Let He := eta_range u eta A HA.
  Let q := 3 / 2 * u.

  Inductive stree : Type := SNone | SOne (i : I) | STwo (l r : stree).
  Fixpoint st_leaves (t : stree) : list I :=
    match t with SNone => [] | SOne i => [i] | STwo l r => (st_leaves l ++ st_leaves r)%list end.
  Fixpoint st_height (t : stree) : nat := match t with STwo l r => S (Nat.max (st_height l) (st_height r)) | _ => 0 end.
  Fixpoint st_sum (t : stree) : C := match t with SNone => C0 | SOne i => x i | STwo l r => f_add A (st_sum l) (st_sum r) end.
  Definition st_fold (s : stree) (l : list I) : stree := fold_left (fun s i => STwo s (SOne i)) l s.
  Fixpoint st_of (t : rtree I) : stree :=
    match t with
    | RLeaf l => st_fold SNone l
    | RJoin a b => STwo (st_of a) (st_of b)
    end.
  Lemma st_fold_leaves l : forall s, st_leaves (st_fold s l) = (st_leaves s ++ l)%list.
  Proof. unfold st_fold. induction l as [|i l IH]; intros s; cbn [fold_left]; [now rewrite app_nil_r|]. rewrite IH. cbn [st_leaves]. now rewrite <- app_assoc. Qed.
  Lemma st_fold_height l : forall s, st_height (st_fold s l) = (st_height s + length l)%nat.
  Proof. clear. unfold st_fold. induction l as [|i l IH]; intros s; cbn [fold_left length]; [lia|]. rewrite IH. cbn [st_height]. lia. Qed.
  Lemma st_fold_sum l : forall s, st_sum (st_fold s l) = fold_left (fun s i => f_add A s (x i)) l (st_sum s).
  Proof. unfold st_fold. induction l as [|i l IH]; intros s; cbn [fold_left]; [reflexivity|]. now rewrite IH. Qed.
  Lemma st_of_leaves t : st_leaves (st_of t) = leaves t.
  Proof. induction t as [l|l IHl r IHr]; cbn [st_of leaves st_leaves]; [apply st_fold_leaves|now rewrite IHl, IHr]. Qed.
  Lemma st_of_height t : st_height (st_of t) = tree_height t.
  Proof. induction t as [l|l IHl r IHr]; cbn [st_of tree_height st_height]; [apply st_fold_height|now rewrite IHl, IHr]. Qed.
  Lemma st_of_sum t : st_sum (st_of t) = tsum C0 (f_add A) x t.
  Proof. induction t as [l|l IHl r IHr]; cbn [st_of tsum st_sum]; [apply (st_fold_sum l SNone)|now rewrite IHl, IHr]. Qed.

  Lemma st_number t : f_entry A (st_sum t) = st_sum t.
  Proof.
    destruct t; cbn [st_sum]; [|apply Hnum|].
    - unfold f_entry, C0. cbn [fst snd]. now rewrite (acc_zero _ _ _ HA).
    - unfold f_entry, f_add. cbn [fst snd]. now rewrite !(acc_idem _ _ _ HA).
  Qed.
  Lemma st_empty t : st_leaves t = [] -> st_sum t = C0.
  Proof.
    induction t as [|i|l IHl r IHr]; cbn [st_leaves st_sum]; intros H; [reflexivity|discriminate|].
    apply app_eq_nil in H. destruct H as [H1 H2]. rewrite IHl, IHr by assumption. apply (add_zero_l A).
    unfold f_entry, C0. cbn [fst snd]. now rewrite (acc_zero _ _ _ HA).
  Qed.
  Definition st_bound (h m : nat) (E T : R) : R := (1 + q) ^ h * E + ((1 + q) ^ h - 1) * T + 2 * eta * INR (m - 1) * (1 + q) ^ h.
  Lemma q_pos : 0 <= q. Proof. unfold q. lra. Qed.
  Lemma q_pow h : 1 <= (1 + q) ^ h. Proof. apply pow_R1_Rle. pose proof q_pos. lra. Qed.
  Lemma st_bound_mono h h' m E T : (h <= h')%nat -> 0 <= E -> 0 <= T -> st_bound h m E T <= st_bound h' m E T.
  Proof.
    intros Hh HE HT. unfold st_bound. pose proof q_pos. assert (Hp : (1 + q) ^ h <= (1 + q) ^ h') by (apply Rle_pow; [lra|assumption]). pose proof (pos_INR (m - 1)).
    assert ((1 + q) ^ h * E <= (1 + q) ^ h' * E) by (apply Rmult_le_compat_r; lra).
    assert (((1 + q) ^ h - 1) * T <= ((1 + q) ^ h' - 1) * T) by (apply Rmult_le_compat_r; lra).
    assert (2 * eta * INR (m - 1) * (1 + q) ^ h <= 2 * eta * INR (m - 1) * (1 + q) ^ h').
    { apply Rmult_le_compat_l; [|lra]. apply Rmult_le_pos; lra. } lra.
  Qed.
  Lemma Rsuml_pos' {T} (f : T -> R) l : (forall i, In i l -> 0 <= f i) -> 0 <= Rsuml f l.
  Proof. intros H. unfold Rsuml. induction l as [|i l IH]; cbn; [lra|]. pose proof (H i (or_introl eq_refl)). specialize (IH (fun j Hj => H j (or_intror Hj))). lra. Qed.
  Lemma st_err t : (forall i, In i (st_leaves t) -> Cmod (x i - y i)%C <= e i) -> st_leaves t <> [] ->
    Cmod (st_sum t - Csuml y (st_leaves t))%C <= st_bound (st_height t) (length (st_leaves t)) (Rsuml e (st_leaves t)) (Rsuml (fun i => Cmod (y i)) (st_leaves t)).
  Proof.
    assert (He' : forall i, Cmod (x i - y i)%C <= e i -> 0 <= e i) by (intros i Hi; pose proof (Cmod_nonneg (x i - y i)%C); lra).
    induction t as [|i|l IHl r IHr]; cbn [st_leaves st_sum st_height]; intros Herr H; [congruence| |].
    - unfold st_bound, Csuml, Rsuml. cbn. pose proof (Herr i (or_introl eq_refl)) as Hi. replace (x i - (y i + C0))%C with (x i - y i)%C by ring. lra.
    - assert (Hl : forall i, In i (st_leaves l) -> Cmod (x i - y i)%C <= e i) by (intros; apply Herr, in_app_iff; auto).
      assert (Hr : forall i, In i (st_leaves r) -> Cmod (x i - y i)%C <= e i) by (intros; apply Herr, in_app_iff; auto).
      specialize (IHl Hl). specialize (IHr Hr).
      assert (HE1 : 0 <= Rsuml e (st_leaves l)) by (apply Rsuml_pos'; auto). assert (HE2 : 0 <= Rsuml e (st_leaves r)) by (apply Rsuml_pos'; auto).
      assert (HT1 : 0 <= Rsuml (fun i => Cmod (y i)) (st_leaves l)) by (apply Rsuml_pos'; intros; apply Cmod_nonneg).
      assert (HT2 : 0 <= Rsuml (fun i => Cmod (y i)) (st_leaves r)) by (apply Rsuml_pos'; intros; apply Cmod_nonneg).
      set (k := Nat.max (st_height l) (st_height r)) in *.
      destruct (st_leaves l) as [|a la] eqn:El.
      + rewrite (st_empty l El), (add_zero_l A) by apply st_number. cbn [app] in *. eapply Rle_trans; [now apply IHr|].
        apply st_bound_mono; [unfold k; lia|assumption|assumption].
      + destruct (st_leaves r) as [|b lb] eqn:Er.
        * rewrite (st_empty r Er), (add_zero_r A) by apply st_number. rewrite app_nil_r. eapply Rle_trans; [now apply IHl|].
          apply st_bound_mono; [unfold k; lia|assumption|assumption].
        * set (X := a :: la) in *. set (Y := b :: lb) in *. specialize (IHl ltac:(discriminate)). specialize (IHr ltac:(discriminate)).
          rewrite Csuml_app, !Rsuml_app. set (E1 := Rsuml e X) in *. set (E2 := Rsuml e Y) in *.
          set (T1 := Rsuml (fun i => Cmod (y i)) X) in *. set (T2 := Rsuml (fun i => Cmod (y i)) Y) in *.
          apply (fun H => Rle_trans _ _ _ H (st_bound_mono _ k _ _ _ (Nat.le_max_l _ _) HE1 HT1)) in IHl.
          apply (fun H => Rle_trans _ _ _ H (st_bound_mono _ k _ _ _ (Nat.le_max_r _ _) HE2 HT2)) in IHr.
          unfold st_bound in *. set (P := (1 + q) ^ k) in *.
          assert (HP : 1 <= P) by apply q_pow. set (m1 := INR (length X - 1)) in *. set (m2 := INR (length Y - 1)) in *.
          assert (Em : INR (length (X ++ Y) - 1) = m1 + m2 + 1).
          { unfold m1, m2. rewrite <- plus_INR, <- S_INR. f_equal. rewrite app_length. unfold X, Y. cbn. lia. }
          rewrite Em. set (ef := P * (E1 + E2) + (P - 1) * (T1 + T2) + 2 * eta * (m1 + m2) * P).
          set (z := (Csuml y X + Csuml y Y)%C).
          assert (Hz : Cmod z <= T1 + T2).
          { unfold z. eapply Rle_trans; [apply Cmod_tri|]. pose proof (Csuml_mod y X). pose proof (Csuml_mod y Y). unfold T1, T2. lra. }
          eapply Rle_trans; [apply (f_add_err u eta A HA _ _ z ef)|].
          -- unfold z. replace (st_sum l + st_sum r - (Csuml y X + Csuml y Y))%C with ((st_sum l - Csuml y X) + (st_sum r - Csuml y Y))%C by ring.
             eapply Rle_trans; [apply Cmod_tri|]. unfold ef. lra.
          -- assert (Hq : q * Cmod z <= q * (T1 + T2)) by (apply Rmult_le_compat_l; [apply q_pos|assumption]).
             assert (HqP : 1 <= (1 + q) * P) by (pose proof q_pos; nra).
             assert (2 * eta * 1 <= 2 * eta * ((1 + q) * P)) by (apply Rmult_le_compat_l; lra).
             cbn [pow]. fold P. unfold q in *. unfold ef in *. nra.
  Qed.

  (** the bound with the powers estimated *)
  Lemma st_bound_est h m E T : 0 <= E -> 0 <= T -> 3 / 2 * INR h * u <= 1 ->
    st_bound h m E T <= 3 * E + 9 / 2 * INR h * u * T + 6 * eta * INR m.
  Proof.
    intros HE HT Hh. pose proof q_pos as Hq. unfold st_bound. assert (Hhq : INR h * q <= 1) by (unfold q; lra).
    pose proof (growth h q Hq Hhq) as G. pose proof (growth1 h q Hq Hhq) as G1. pose proof (q_pow h).
    assert ((1 + q) ^ h * E <= 3 * E) by (apply Rmult_le_compat_r; lra).
    assert (((1 + q) ^ h - 1) * T <= (3 * INR h * q) * T) by (apply Rmult_le_compat_r; lra).
    assert (Hm : INR (m - 1) <= INR m) by (apply le_INR; lia). pose proof (pos_INR (m - 1)).
    assert (2 * eta * INR (m - 1) * (1 + q) ^ h <= 2 * eta * INR m * 3).
    { apply Rmult_le_compat; try lra. - apply Rmult_le_pos; lra. - apply Rmult_le_compat_l; lra. }
    unfold q in *. lra.
  Qed.
End Trees.
Arguments stree I : clear implicits.

Section Sums.
  Variables (u eta : R) (A : arith).
  Hypothesis HA : accurate u eta A.
  Let Hu := u_range u eta A HA.
  Let He := eta_range u eta A HA.

  Lemma csum_close {I} (f : I -> option C) (x y : I -> C) (e : I -> R) iters t h :
    reduction_of iters t -> (tree_height t <= h)%nat -> 3 / 2 * INR h * u <= 1 ->
    (forall i, f_entry A (x i) = x i) -> (forall i, In i iters -> f i = Some (x i) /\ Cmod (x i - y i)%C <= e i) ->
    exists v, reduce C0 (f_add A) f t = Some v /\ f_entry A v = v /\
      Cmod (v - Csuml y iters)%C <= 3 * Rsuml e iters + 9 / 2 * INR h * u * Rsuml (fun i => Cmod (y i)) iters + 6 * eta * INR (length iters).
  Proof.
    intros Hp Hh Hb Hnum Hi. unfold reduction_of in Hp. exists (tsum C0 (f_add A) x t).
    assert (Hl : forall i, In i (leaves t) -> f i = Some (x i) /\ Cmod (x i - y i)%C <= e i) by (intros i Hx; apply Hi; now apply (Permutation_in i Hp)).
    split; [apply reduce_pure; intros; now apply Hl|]. rewrite <- (st_of_sum A x). split; [now apply (st_number u eta)|].
    assert (He' : forall i, In i (leaves t) -> 0 <= e i) by (intros i Hx; pose proof (proj2 (Hl i Hx)); pose proof (Cmod_nonneg (x i - y i)%C); lra).
    rewrite <- (Csuml_perm y _ _ Hp), <- (Rsuml_perm e _ _ Hp), <- (Rsuml_perm (fun i => Cmod (y i)) _ _ Hp), <- (Permutation_length Hp), <- (st_of_leaves t).
    destruct (st_leaves (st_of t)) as [|a l] eqn:El.
    - rewrite (st_empty u eta A x HA (st_of t) El). cbn. replace (C0 - C0)%C with C0 by ring. rewrite Cmod_0. unfold Rsuml. cbn. lra.
    - rewrite <- El. eapply Rle_trans; [apply (st_err u eta A x y e HA Hnum)|].
      + rewrite (st_of_leaves t). intros i Hx. now apply Hl.
      + rewrite El. discriminate.
      + eapply Rle_trans; [apply (st_bound_mono u eta A HA _ h)|apply (st_bound_est u eta A HA)].
        * now rewrite (st_of_height t).
        * rewrite (st_of_leaves t). now apply Rsuml_pos'.
        * apply Rsuml_pos. intros. apply Cmod_nonneg.
        * rewrite (st_of_leaves t). now apply Rsuml_pos'.
        * apply Rsuml_pos. intros. apply Cmod_nonneg.
        * assumption.
  Qed.
  Lemma plus_RtoC a b : f_add A (RtoC a) (RtoC b) = RtoC (f_plus A a b).
  Proof. unfold f_add, f_plus, RtoC. cbn [fst snd]. rewrite Rplus_0_r. now rewrite (acc_zero _ _ _ HA). Qed.
  Lemma reduce_RtoC {I} (f : I -> option R) t : reduce C0 (f_add A) (fun i => option_map RtoC (f i)) t = option_map RtoC (reduce 0 (f_plus A) f t).
  Proof.
    assert (K : forall a b, oadd (f_add A) (option_map RtoC a) (option_map RtoC b) = option_map RtoC (oadd (f_plus A) a b)).
    { intros [a|] [b|]; cbn; try reflexivity. now rewrite plus_RtoC. }
    induction t as [l|a IHa b IHb]; cbn [reduce]; [|now rewrite IHa, IHb, K].
    change (Some C0) with (option_map RtoC (Some 0)). generalize (Some 0). induction l as [|i l IH]; intros s; cbn [fold_left]; [reflexivity|]. now rewrite K, IH.
  Qed.
  Lemma RtoC_inj_mod a b : Cmod (RtoC a - RtoC b)%C = Rabs (a - b).
  Proof. replace (RtoC a - RtoC b)%C with (RtoC (a - b)) by (unfold RtoC; c_eq; cbn; ring). apply Cmod_real. Qed.
  Lemma rsum_close {I} (f : I -> option R) (x y : I -> R) (e : I -> R) iters t h :
    reduction_of iters t -> (tree_height t <= h)%nat -> 3 / 2 * INR h * u <= 1 ->
    (forall i, a_rnd A (x i) = x i) -> (forall i, In i iters -> f i = Some (x i) /\ Rabs (x i - y i) <= e i) ->
    exists v, reduce 0 (f_plus A) f t = Some v /\ a_rnd A v = v /\
      Rabs (v - Rsuml y iters) <= 3 * Rsuml e iters + 9 / 2 * INR h * u * Rsuml (fun i => Rabs (y i)) iters + 6 * eta * INR (length iters).
  Proof.
    intros Hp Hh Hb Hnum Hi.
    destruct (csum_close (fun i => option_map RtoC (f i)) (fun i => RtoC (x i)) (fun i => RtoC (y i)) e iters t h Hp Hh Hb) as (v & Ev & Nv & Bv).
    - intros i. unfold f_entry, RtoC. cbn [fst snd]. now rewrite Hnum, (acc_zero _ _ _ HA).
    - intros i Hx. destruct (Hi i Hx) as [-> H]. split; [reflexivity|]. now rewrite RtoC_inj_mod.
    - rewrite reduce_RtoC in Ev. destruct (reduce 0 (f_plus A) f t) as [r|]; [|discriminate]. cbn in Ev. injection Ev as <-. exists r. split; [reflexivity|].
      split; [now apply (f_equal fst) in Nv|]. rewrite <- RtoC_Rsuml, RtoC_inj_mod in Bv. eapply Rle_trans; [exact Bv|]. right. f_equal. f_equal. f_equal.
      apply Rsuml_ext. intros. apply Cmod_real.
  Qed.
End Sums.

(** * Balanced trees *)
Lemma balanced {I} (k : nat) : forall l : list I, (length l <= 2 ^ k)%nat -> exists t, leaves t = l /\ (tree_height t <= S k)%nat.
Proof.
  induction k as [|k IH]; intros l Hl.
  - exists (RLeaf l). split; [reflexivity|exact Hl].
  - cbn [Nat.pow] in Hl. destruct (IH (firstn (2 ^ k) l)) as (a & Ea & Ha); [rewrite firstn_length; lia|].
    destruct (IH (skipn (2 ^ k) l)) as (b & Eb & Hb); [rewrite skipn_length; lia|].
    exists (RJoin a b). cbn [leaves tree_height]. rewrite Ea, Eb, firstn_skipn. split; [reflexivity|lia].
Qed.
Lemma balanced_reduction n iters h : (iters <= 2 ^ n)%N -> (N.to_nat n < h)%nat -> exists t, reduction_of (seqN iters) t /\ shallow h t.
Proof.
  intros Hi Hh. destruct (balanced (N.to_nat n) (seqN iters)) as (t & E & Ht).
  - rewrite length_seqN. change 2%nat with (N.to_nat 2). rewrite <- N2Nat.inj_pow. lia.
  - exists t. split; [|unfold shallow; lia]. unfold reduction_of. rewrite E. apply Permutation_refl.
Qed.
