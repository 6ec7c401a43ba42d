(** Rounded matrix gates on many qubits: sums in any order. *)
From Verif Require Export FloatProofs9.
From Verif Require Import StateProofs GroundProofs4 GroundProofs9.
From Coq Require Import FunctionalExtensionality Permutation Lra ZifyBool ZifyN ZifyNat.
Open Scope R_scope.

Lemma exp_INR m x : exp (INR m * x) = exp x ^ m.
Proof. induction m as [|m IH]; [cbn; now rewrite Rmult_0_l, exp_0|]. rewrite S_INR, Rmult_plus_distr_r, Rmult_1_l, exp_plus, IH. cbn. ring. Qed.
Lemma growth m x : 0 <= x -> INR m * x <= 1 -> (1 + x) ^ m <= 3.
Proof.
  intros Hx Hm. apply Rle_trans with (exp (INR m * x)).
  - rewrite exp_INR. apply pow_incr. split; [lra|]. destruct (Req_dec x 0) as [->|]; [rewrite exp_0; lra|]. left. apply exp_ineq1. lra.
  - eapply Rle_trans; [|apply exp_le_3]. destruct (Rle_lt_or_eq_dec _ _ Hm) as [H| ->]; [left; now apply exp_increasing|lra].
Qed.
Lemma growth1 m x : 0 <= x -> INR m * x <= 1 -> (1 + x) ^ m <= 1 + 3 * INR m * x.
Proof.
  intros Hx. induction m as [|m IH]; intros Hm; [cbn; lra|]. rewrite S_INR in *. 
  assert (Hm' : INR m * x <= 1) by (pose proof (pos_INR m); nra). specialize (IH Hm'). pose proof (growth m x Hx Hm') as G.
  cbn [pow]. assert (x * (1 + x) ^ m <= x * 3) by (apply Rmult_le_compat_l; lra). lra.
Qed.
Lemma Rsuml_pos {T} (f : T -> R) l : (forall x, 0 <= f x) -> 0 <= Rsuml f l.
Proof. intros H. unfold Rsuml. induction l as [|x l IH]; cbn; [lra|]. pose proof (H x). lra. Qed.
Lemma Csuml_mod {T} (f : T -> C) l : Cmod (Csuml f l) <= Rsuml (fun x => Cmod (f x)) l.
Proof.
  unfold Csuml, Rsuml. induction l as [|x l IH]; cbn; [rewrite Cmod_0; lra|]. eapply Rle_trans; [apply Cmod_tri|]. lra.
Qed.
Lemma Rsuml_incl {T} (g : T -> R) : (forall x, 0 <= g x) -> forall X Y : list T, NoDup X -> incl X Y -> Rsuml g X <= Rsuml g Y.
Proof.
  intros Hg. induction X as [|x X IH]; intros Y Hnd Hi; [apply Rsuml_pos; assumption|].
  inversion Hnd; subst. destruct (in_split x Y (Hi x (or_introl eq_refl))) as (Y1 & Y2 & ->).
  rewrite Rsuml_app. assert (IHY : Rsuml g X <= Rsuml g (Y1 ++ Y2)).
  { apply IH; [assumption|]. intros z Hz. assert (Hz' : In z (Y1 ++ x :: Y2)) by (apply Hi; now right). apply in_app_iff in Hz'.
    apply in_app_iff. destruct Hz' as [?|[<-|?]]; [now left|contradiction|now right]. }
  rewrite Rsuml_app in IHY. unfold Rsuml in *. cbn. lra.
Qed.

(** * Adding up in any order *)
Inductive sumtree : Type := SumNone | SumOne (i : nat) | SumTwo (l r : sumtree).
Fixpoint sleaves (t : sumtree) : list nat :=
  match t with SumNone => [] | SumOne i => [i] | SumTwo l r => (sleaves l ++ sleaves r)%list end.
Fixpoint s_tree (A : arith) (t : sumtree) (x : nat -> C) : C :=
  match t with SumNone => C0 | SumOne i => x i | SumTwo l r => f_add A (s_tree A l x) (s_tree A r x) end.
Fixpoint expand (t : rtree nat) : sumtree :=
  match t with
  | RLeaf l => fold_left (fun s i => SumTwo s (SumOne i)) l SumNone
  | RJoin l r => SumTwo (expand l) (expand r)
  end.
Lemma expand_leaves t : sleaves (expand t) = leaves t.
Proof.
  induction t as [l|l IHl r IHr]; cbn [expand leaves sleaves]; [|now rewrite IHl, IHr].
  assert (K : forall l s, sleaves (fold_left (fun s i => SumTwo s (SumOne i)) l s) = sleaves s ++ l).
  { clear. induction l as [|i l IH]; intros s; cbn [fold_left]; [now rewrite app_nil_r|]. rewrite IH. cbn [sleaves]. now rewrite <- app_assoc. }
  apply K.
Qed.
Lemma expand_value A t x : f_tree A t x = s_tree A (expand t) x.
Proof.
  induction t as [l|l IHl r IHr]; cbn [expand f_tree s_tree]; [|now rewrite IHl, IHr].
  assert (K : forall l s z, s_tree A s x = z -> fold_left (fun sum i => f_add A sum (x i)) l z = s_tree A (fold_left (fun s i => SumTwo s (SumOne i)) l s) x).
  { clear. induction l as [|i l IH]; intros s z E; cbn [fold_left]; [now rewrite E|]. apply IH. cbn [s_tree]. now rewrite E. }
  now apply K.
Qed.
Section Tree.
  Variables (u eta : R) (A : arith) (x y : nat -> C) (e : nat -> R).
  Hypothesis HA : accurate u eta A.
  Hypothesis Hnum : forall i, f_entry A (x i) = x i.
  Hypothesis Herr : forall i, Cmod (x i - y i)%C <= e i.
  Let Hu := u_range u eta A HA.
  Let He := eta_range u eta A HA.
  Let q := 3 / 2 * u.
  Definition tree_bound (d : nat) (E T : R) : R := (1 + q) ^ d * E + ((1 + q) ^ d - 1) * T + 2 * eta * INR d * (1 + q) ^ d.

  Lemma tree_number t : f_entry A (s_tree A t x) = s_tree A t x.
  Proof.
    destruct t; cbn [s_tree]; [|apply Hnum|].
    - unfold f_entry, C0. cbn [fst snd]. now rewrite (acc_zero _ _ _ HA).
    - unfold f_entry, f_add. cbn [fst snd]. now rewrite !(acc_idem _ _ _ HA).
  Qed.
  Lemma add_zero_l z : f_entry A z = z -> f_add A C0 z = z.
  Proof. intros H. rewrite <- H at 2. unfold f_add, f_entry, C0. cbn [fst snd]. now rewrite !Rplus_0_l. Qed.
  Lemma add_zero_r z : f_entry A z = z -> f_add A z C0 = z.
  Proof. intros H. rewrite <- H at 2. unfold f_add, f_entry, C0. cbn [fst snd]. now rewrite !Rplus_0_r. Qed.
  Lemma tree_empty t : sleaves t = [] -> s_tree A t x = C0.
  Proof.
    induction t as [|i|l IHl r IHr]; cbn [sleaves s_tree]; intros H; [reflexivity|discriminate|].
    apply app_eq_nil in H. destruct H as [H1 H2]. rewrite IHl, IHr by assumption. apply add_zero_l.
    unfold f_entry, C0. cbn [fst snd]. now rewrite (acc_zero _ _ _ HA).
  Qed.
  Lemma pow_q d : 1 <= (1 + q) ^ d. Proof. apply pow_R1_Rle. unfold q. lra. Qed.
  Lemma pow_q_mono d d' : (d <= d')%nat -> (1 + q) ^ d <= (1 + q) ^ d'.
  Proof. intros H. apply Rle_pow; [unfold q; lra|assumption]. Qed.
  Lemma e_pos i : 0 <= e i. Proof. pose proof (Herr i). pose proof (Cmod_nonneg (x i - y i)%C). lra. Qed.

  Lemma tree_err t : sleaves t <> [] ->
    Cmod (s_tree A t x - Csuml y (sleaves t))%C <= tree_bound (length (sleaves t) - 1) (Rsuml e (sleaves t)) (Rsuml (fun i => Cmod (y i)) (sleaves t)).
  Proof.
    induction t as [|i|l IHl r IHr]; cbn [sleaves s_tree]; intros H; [congruence| |].
    - unfold tree_bound, Csuml, Rsuml. cbn. pose proof (Herr i) as Hi. replace (x i - (y i + C0))%C with (x i - y i)%C by ring. lra.
    - destruct (sleaves l) as [|a la] eqn:El.
      + rewrite (tree_empty l El), add_zero_l by apply tree_number. cbn [app] in *. now apply IHr.
      + destruct (sleaves r) as [|b lb] eqn:Er.
        * rewrite (tree_empty r Er), add_zero_r by apply tree_number. rewrite app_nil_r. now apply IHl.
        * set (X := a :: la) in *. set (Y := b :: lb) in *. specialize (IHl ltac:(discriminate)). specialize (IHr ltac:(discriminate)).
          rewrite Csuml_app, !Rsuml_app. set (E1 := Rsuml e X) in *. set (E2 := Rsuml e Y) in *.
          set (T1 := Rsuml (fun i => Cmod (y i)) X) in *. set (T2 := Rsuml (fun i => Cmod (y i)) Y) in *.
          set (d1 := (length X - 1)%nat) in *. set (d2 := (length Y - 1)%nat) in *.
          replace (length (X ++ Y) - 1)%nat with (S (d1 + d2)) by (rewrite app_length; unfold d1, d2, X, Y; cbn; lia).
          assert (HE1 : 0 <= E1) by (apply Rsuml_pos, e_pos). assert (HE2 : 0 <= E2) by (apply Rsuml_pos, e_pos).
          assert (HT1 : 0 <= T1) by (apply Rsuml_pos; intros; apply Cmod_nonneg). assert (HT2 : 0 <= T2) by (apply Rsuml_pos; intros; apply Cmod_nonneg).
          assert (Mono : forall d E T, (d <= d1 + d2)%nat -> 0 <= E -> 0 <= T -> tree_bound d E T <= (1 + q) ^ (d1 + d2) * E + ((1 + q) ^ (d1 + d2) - 1) * T + 2 * eta * INR d * (1 + q) ^ (d1 + d2)).
          { intros d E T Hd HE HT. unfold tree_bound. pose proof (pow_q_mono d _ Hd) as Hp. pose proof (pos_INR d).
            assert ((1 + q) ^ d * E <= (1 + q) ^ (d1 + d2) * E) by (apply Rmult_le_compat_r; lra).
            assert (((1 + q) ^ d - 1) * T <= ((1 + q) ^ (d1 + d2) - 1) * T) by (apply Rmult_le_compat_r; lra).
            assert (2 * eta * INR d * (1 + q) ^ d <= 2 * eta * INR d * (1 + q) ^ (d1 + d2)).
            { apply Rmult_le_compat_l; [|lra]. apply Rmult_le_pos; lra. } lra. }
          pose proof (Mono d1 E1 T1 ltac:(lia) HE1 HT1) as M1. pose proof (Mono d2 E2 T2 ltac:(lia) HE2 HT2) as M2.
          set (P := (1 + q) ^ (d1 + d2)) in *. set (ef := P * (E1 + E2) + (P - 1) * (T1 + T2) + 2 * eta * INR (d1 + d2) * P).
          set (z := (Csuml y X + Csuml y Y)%C).
          assert (Hz : Cmod z <= T1 + T2).
          { unfold z. eapply Rle_trans; [apply Cmod_tri|]. pose proof (Csuml_mod y X). pose proof (Csuml_mod y Y). unfold T1, T2. lra. }
          eapply Rle_trans; [apply (f_add_err u eta A HA _ _ z ef)|].
          -- unfold z. replace (s_tree A l x + s_tree A r x - (Csuml y X + Csuml y Y))%C with ((s_tree A l x - Csuml y X) + (s_tree A r x - Csuml y Y))%C by ring.
             eapply Rle_trans; [apply Cmod_tri|]. unfold ef. rewrite plus_INR. lra.
          -- unfold tree_bound. cbn [pow]. fold P. rewrite S_INR. fold q. assert (HP : 1 <= P) by apply pow_q.
             assert (Hq : 0 <= q) by (unfold q; lra).
             assert (q * Cmod z <= q * (T1 + T2)) by (apply Rmult_le_compat_l; lra).
             assert (eta <= eta * ((1 + q) * P)). { rewrite <- (Rmult_1_r eta) at 1. apply Rmult_le_compat_l; [lra|]. nra. }
             replace (ef + q * (Cmod z + ef) + 2 * eta) with ((1 + q) * ef + q * Cmod z + 2 * eta) by ring. unfold ef. lra.
  Qed.
End Tree.

(** * Rows *)
Section Row.
  Variables (u eta : R) (A : arith).
  Hypothesis HA : accurate u eta A.
  Let Hu := u_range u eta A HA.
  Let He := eta_range u eta A HA.

  Lemma mul_number i a b : f_entry A (f_mul A i a b) = f_mul A i a b.
  Proof.
    unfold f_entry, f_mul. cbn [fst snd]. unfold two_products.
    destruct (a_fuse A (2 * i) _ _ _ _), (a_fuse A (2 * i + 1) _ _ _ _); now rewrite !(acc_idem _ _ _ HA).
  Qed.
  Lemma Csuml_seq {T} (f : T -> C) (l : list T) d : Csuml (fun i => f (nth i l d)) (seq 0 (length l)) = Csuml f l.
  Proof.
    rewrite <- (Csuml_map (fun i => nth i l d) f). f_equal.
    apply (nth_ext _ _ d d); [now rewrite map_length, seq_length|]. intros i Hi. rewrite map_length, seq_length in Hi.
    rewrite (nth_indep _ d (nth 0 l d)) by (now rewrite map_length, seq_length). rewrite (map_nth (fun i => nth i l d)), seq_nth by assumption. reflexivity.
  Qed.
  Lemma Rsuml_seq {T} (f : T -> R) (l : list T) d : Rsuml (fun i => f (nth i l d)) (seq 0 (length l)) = Rsuml f l.
  Proof.
    rewrite <- (Rsuml_map (fun i => nth i l d) f). f_equal.
    apply (nth_ext _ _ d d); [now rewrite map_length, seq_length|]. intros i Hi. rewrite map_length, seq_length in Hi.
    rewrite (nth_indep _ d (nth 0 l d)) by (now rewrite map_length, seq_length). rewrite (map_nth (fun i => nth i l d)), seq_nth by assumption. reflexivity.
  Qed.

  (** A rounded row: [l] holds the exact coefficient with the column, [v] the amplitude of a column. *)
  Lemma f_row_err (l : list (C * N)) (v : N -> C) N0 : (forall p, In p l -> Cmod (fst p) <= 1) -> (length l <= N0)%nat -> 4 * INR N0 * u <= 1 ->
    Cmod (f_row A (map (fun p => (f_entry A (fst p), snd p)) l) (map (fun p => v (snd p)) l) - Csuml (fun p => fst p * v (snd p)) l)%C
      <= (67 + 6 * INR N0) * u * Rsuml (fun p => Cmod (v (snd p))) l + 17 * INR N0 * eta.
  Proof.
    intros Hl HN Hsize. destruct l as [|p0 l0] eqn:El.
    - unfold f_row. cbn [map length]. rewrite expand_value, (tree_empty u eta A _ HA); [|rewrite expand_leaves; pose proof (acc_tree _ _ _ HA [] []) as Ht; now apply Permutation_sym, Permutation_nil in Ht].
      unfold Csuml, Rsuml. cbn. replace (C0 - C0)%C with C0 by ring. rewrite Cmod_0. pose proof (pos_INR N0). assert (0 <= INR N0 * eta) by (apply Rmult_le_pos; lra). lra.
    - rewrite <- El in *. clear El. assert (Hne : (0 < length l)%nat \/ l = []) by (destruct l; [now right|left; cbn; lia]).
      destruct Hne as [Hpos| ->]; [|cbn in *; unfold f_row; cbn [map length];
        rewrite expand_value, (tree_empty u eta A _ HA); [|rewrite expand_leaves; pose proof (acc_tree _ _ _ HA [] []) as Ht; now apply Permutation_sym, Permutation_nil in Ht];
        unfold Csuml, Rsuml; cbn; replace (C0 - C0)%C with C0 by ring; rewrite Cmod_0; pose proof (pos_INR N0); assert (0 <= INR N0 * eta) by (apply Rmult_le_pos; lra); lra].
      unfold f_row. set (d := (C0, 0%N)). set (m := length l) in *.
      set (tr := a_tree A _ _).
      set (y := fun i => (fst (nth i l d) * v (snd (nth i l d)))%C).
      set (x := fun i => f_mul A 0 (fst (nth i (map (fun p => (f_entry A (fst p), snd p)) l) d)) (nth i (map (fun p => v (snd p)) l) C0)).
      set (e := fun i => if (i <? m)%nat then 67 * u * Cmod (v (snd (nth i l d))) + 6 * eta else Cmod (x i - y i)%C).
      assert (Ht : reduction_of (seq 0 m) tr) by (unfold tr; replace m with (length (map fst (map (fun p : C * N => (f_entry A (fst p), snd p)) l))) by (now rewrite !map_length); apply (acc_tree _ _ _ HA)). unfold reduction_of in Ht.
      assert (Hx : forall i, f_entry A (x i) = x i) by (intros; apply mul_number).
      assert (Hxy : forall i, Cmod (x i - y i)%C <= e i).
      { intros i. unfold e. destruct (i <? m)%nat eqn:Ei; [|apply Rle_refl]. assert (Hi : (i < length l)%nat) by (fold m; lia).
        unfold x, y. rewrite (nth_indep _ d ((fun p => (f_entry A (fst p), snd p)) d)) by (now rewrite map_length).
        rewrite (map_nth (fun p => (f_entry A (fst p), snd p))). cbn [fst].
        rewrite (nth_indep _ C0 ((fun p : C * N => v (snd p)) d)) by (now rewrite map_length). rewrite (map_nth (fun p : C * N => v (snd p))).
        assert (Hm : Cmod (fst (nth i l d)) <= 1) by (apply Hl, nth_In; exact Hi).
        apply (prod_err u eta A HA (f_mul A 0)); [apply (mul_multiplies u eta A HA)|exact Hm|]. apply (entry_near u eta A HA _ Hm). }
      pose proof (tree_err u eta A x y e HA Hx Hxy (expand tr)) as HT. rewrite expand_leaves, <- expand_value in HT.
      assert (Hleaf : leaves tr <> []).
      { intros E0. rewrite E0 in Ht. apply Permutation_nil in Ht. unfold m in Ht. destruct (length l); [lia|discriminate]. }
      specialize (HT Hleaf). rewrite (Permutation_length Ht), seq_length in HT.
      rewrite (Rsuml_perm _ _ _ Ht), (Rsuml_perm (fun i => Cmod (y i)) _ _ Ht) in HT.
      assert (Es : Csuml y (leaves tr) = Csuml (fun p => fst p * v (snd p))%C l).
      { rewrite (Csuml_perm _ _ _ Ht). unfold m, y. apply (Csuml_seq (fun p => fst p * v (snd p))%C l d). }
      rewrite Es in HT. eapply Rle_trans; [exact HT|]. clear HT.
      set (V := Rsuml (fun p => Cmod (v (snd p))) l).
      assert (HV : 0 <= V) by (apply Rsuml_pos; intros; apply Cmod_nonneg).
      assert (EE : Rsuml e (seq 0 m) = 67 * u * V + 6 * eta * INR m).
      { rewrite (Rsuml_ext e (fun i => (fun p => 67 * u * Cmod (v (snd p)) + 6 * eta) (nth i l d))).
        - unfold m. rewrite (Rsuml_seq (fun p => 67 * u * Cmod (v (snd p)) + 6 * eta) l d). unfold V. clear. unfold Rsuml. induction l as [|p l IH]; [cbn; ring|].
          cbn [map fold_right length]. rewrite IH, S_INR. ring.
        - intros i Hi. apply in_seq in Hi. unfold e. now replace (i <? m)%nat with true by lia. }
      assert (HTy : Rsuml (fun i => Cmod (y i)) (seq 0 m) <= V).
      { unfold y, m. rewrite (Rsuml_seq (fun p => Cmod (fst p * v (snd p))%C) l d). unfold V. apply Rsuml_le. intros p Hp. rewrite Cmod_mul.
        pose proof (Hl p Hp). pose proof (Cmod_nonneg (v (snd p))). nra. }
      assert (HTy0 : 0 <= Rsuml (fun i => Cmod (y i)) (seq 0 m)) by (apply Rsuml_pos; intros; apply Cmod_nonneg).
      rewrite EE. unfold tree_bound. set (T := Rsuml (fun i => Cmod (y i)) (seq 0 m)) in *.
      pose proof (le_INR _ _ HN) as HmN. fold m in HmN. pose proof (pos_INR m) as Hm0.
      assert (Hd : INR (m - 1) <= INR m) by (apply le_INR; lia). pose proof (pos_INR (m - 1)) as Hd0.
      assert (Hdq : INR (m - 1) * (3 / 2 * u) <= 3 / 2 * (INR N0 * u)).
      { assert (INR (m - 1) * u <= INR N0 * u) by (apply Rmult_le_compat_r; lra). lra. }
      pose proof (growth1 (m - 1) (3 / 2 * u) ltac:(lra) ltac:(lra)) as G. pose proof (pow_R1_Rle (1 + 3 / 2 * u) (m - 1) ltac:(lra)) as G0.
      set (P := (1 + 3 / 2 * u) ^ (m - 1)) in *. set (k := INR N0 * u) in *.
      assert (GP : P <= 1 + 9 / 2 * k) by lra. assert (Hk : 0 <= k <= / 4) by (split; [unfold k; apply Rmult_le_pos; [apply pos_INR|lra]|unfold k; lra]).
      assert (J1 : P * (67 * u * V + 6 * eta * INR m) <= (1 + 9 / 2 * k) * (67 * u * V + 6 * eta * INR N0)).
      { apply Rmult_le_compat; [lra| |exact GP|].
        - apply Rplus_le_le_0_compat; [apply Rmult_le_pos; lra|]. apply Rmult_le_pos; lra.
        - apply Rplus_le_compat_l. apply Rmult_le_compat_l; lra. }
      assert (J2 : (P - 1) * T <= 9 / 2 * k * V) by (apply Rmult_le_compat; lra).
      assert (J3 : 2 * eta * INR (m - 1) * P <= 2 * eta * INR N0 * (1 + 9 / 2 * k)).
      { apply Rmult_le_compat; [apply Rmult_le_pos; lra|lra| |exact GP]. apply Rmult_le_compat_l; lra. }
      assert (J4 : k * (u * V) <= k * (/ 256 * V)) by (apply Rmult_le_compat_l; [lra|]; apply Rmult_le_compat_r; lra).
      assert (J5 : k * (eta * INR N0) <= / 4 * (eta * INR N0)).
      { apply Rmult_le_compat_r; [|lra]. apply Rmult_le_pos; [lra|apply pos_INR]. }
      assert (J6 : 0 <= eta * INR N0) by (apply Rmult_le_pos; [lra|apply pos_INR]). assert (0 <= k * V) by (apply Rmult_le_pos; lra).
      replace ((67 + 6 * INR N0) * u * V) with (67 * (u * V) + 6 * (k * V)) by (unfold k; ring). lra.
  Qed.
End Row.

(** * Kernels *)
Lemma run_reads l : forall vs cont m, run1 addr2_eqb (f_reads l vs cont) m = run1 addr2_eqb (cont (vs ++ map (fun a => m (false, a)) l)) m.
Proof.
  induction l as [|a l IH]; intros vs cont m; cbn [f_reads map]; [now rewrite app_nil_r|]. simpl. rewrite IH, <- app_assoc. reflexivity.
Qed.
Lemma foot_reads (R W : addr2 -> Prop) l : forall vs cont, (forall a, In a l -> R (false, a)) -> (forall vs, foot R W (cont vs)) -> foot R W (f_reads l vs cont).
Proof.
  induction l as [|a l IH]; intros vs cont HR HW; simpl; [apply HW|]. split; [apply HR; now left|]. intros v. apply IH; [|assumption].
  intros b Hb. apply HR. now right.
Qed.

Section RowKernels.
  Variables (A : arith) (n B t c cv : N).
  Hypothesis Hn : (n < 64)%N.
  Hypothesis HB : (B * 2 ^ n <= two64)%N.
  Hypothesis Ht : (t < 2 ^ n)%N.
  Hypothesis Hc : (c < 2 ^ n)%N.
  Hypothesis Hd : N.land t c = 0%N.
  Hypothesis Hcv : N.land cv c = cv.
  Let D := (B * 2 ^ n)%N.
  Let valid (a : addr2) := (snd a <? D)%N.
  Let d := (2 ^ popcount t)%N.
  Definition f_rows_update (ent : N -> list (C * N)) : kernel addr2 :=
    Kernel (N.shiftr D (popcount (N.lor t c)) * d) (fun w =>
      let basis := N.lor (insert_zero_at_mask_positions (w / d) (N.lor t c)) cv in
      f_dot_prog A (map (fun p => (fst p, N.lor (insert_zero_at_mask_positions (snd p) (outer_mask n t)) basis)) (ent (w mod d)%N))
        (fun sum => Wr (true, N.lor (insert_zero_at_mask_positions (w mod d) (outer_mask n t)) basis) sum Ret)).
  Lemma f_row_ext l l' vs : map fst l = map fst l' -> f_row A l vs = f_row A l' vs.
  Proof.
    intros E. unfold f_row. rewrite E. f_equal. apply functional_extensionality. intros i. f_equal.
    change C0 with (fst (C0, 0%N)) at 1. rewrite <- !(map_nth fst). now rewrite E.
  Qed.
  Lemma f_rows_computes ent m : (forall r p, (r < d)%N -> In p (ent r) -> (snd p < d)%N) ->
    kcomputes addr2_eqb valid (f_rows_update ent) m
      (fun a => if fst a && gdom n B c cv (snd a)
                then f_row A (ent (gather (bits t) (snd a))) (map (fun p => m (false, scatter (bits t) (snd p) (snd a))) (ent (gather (bits t) (snd a))))
                else m a).
  Proof.
    intros Hent. unfold kcomputes. simpl.
    assert (Hd0 : (0 < d)%N) by apply pow2_pos.
    set (owner := fun a : addr2 => (gowner t c (snd a) * d + gather (bits t) (snd a))%N).
    assert (Hgd : forall x, (gather (bits t) x < d)%N) by (intros; apply gather_d).
    assert (Hdiv : forall i, (owner i / d)%N = gowner t c (snd i)).
    { intros i. unfold owner. rewrite N.div_add_l by lia. rewrite N.div_small; [lia|]. apply Hgd. }
    assert (Hmod : forall i, (owner i mod d)%N = gather (bits t) (snd i)).
    { intros i. unfold owner. rewrite N.add_comm, N.mod_add by lia. apply N.mod_small. apply Hgd. }
    eapply par_computes_ext; [|apply (owned_par_computes C addr2 addr2_eqb addr2_spec valid _ _ m
       (fun a => negb (fst a) && (snd a <? D))%N (fun a => fst a && gdom n B c cv (snd a)) owner)].
    - intros [b a]. simpl. destruct b; simpl; [|reflexivity]. destruct (gdom n B c cv a) eqn:E; [|reflexivity].
      destruct (gowner_base n B t c cv ltac:(lia) HB Ht Hc Hd Hcv a E) as [Hlt Hb].
      rewrite Hdiv, Hmod. simpl snd. unfold f_dot_prog. rewrite run_reads. simpl. fold (gbase t c cv (gowner t c a)). rewrite Hb.
      assert (Hl0 : N.land (N.ldiff a t) t = 0%N) by (bitwise i; bool_solve).
      assert (Hg : (gather (bits t) a < d)%N) by apply Hgd.
      rewrite outer_insert by assumption. rewrite scatter_lor by assumption.
      assert (Hext : forall r, scatter (bits t) r (N.ldiff a t) = scatter (bits t) r a).
      { intros r. apply scatter_ext; [apply bits_NoDup|]. intros i Hi. rewrite N.ldiff_spec.
        destruct (N.testbit t i) eqn:F; [exfalso; apply Hi; now apply in_bits|]. apply andb_true_r. }
      rewrite Hext, scatter_gather by apply bits_NoDup.
      unfold upd, addr2_eqb. simpl. rewrite N.eqb_refl.
      rewrite (f_row_ext _ (ent (gather (bits t) a))) by (rewrite map_map; reflexivity). f_equal.
      rewrite !map_map. apply map_ext_in. intros p Hp. simpl. f_equal. f_equal.
      specialize (Hent _ p Hg Hp). rewrite outer_insert by assumption. rewrite scatter_lor by assumption. now rewrite Hext.
    - intros [b a]. simpl. destruct b; simpl; [|discriminate]. intros E.
      destruct (gowner_base n B t c cv ltac:(lia) HB Ht Hc Hd Hcv a E) as [Hlt Hb].
      pose proof (valid_gdom _ _ _ _ _ E) as [HD _]. unfold valid. simpl. split; [now apply N.ltb_lt|]. split; [|reflexivity].
      unfold owner. simpl. fold D in Hlt. unfold gcnt in Hlt. fold D in Hlt.
      assert (Hg : (gather (bits t) a < d)%N) by apply Hgd.
      nia.
    - intros [b a]. simpl. destruct b; simpl; [discriminate|]. auto.
    - intros w Hw. simpl.
      assert (Hit : (w / d < gcnt n B t c)%N).
      { unfold gcnt. fold D. apply N.div_lt_upper_bound; [lia|]. lia. }
      assert (Hr : (w mod d < d)%N) by (apply N.mod_lt; lia).
      pose proof (base_t0 n B t c cv Hn HB Ht Hc Hd Hcv _ Hit) as Hb0. fold (gbase t c cv (w / d)).
      apply foot_reads.
      + intros x Hx. rewrite map_map in Hx. apply in_map_iff in Hx. destruct Hx as ([v col] & <- & Hp). simpl.
        specialize (Hent _ _ Hr Hp). simpl in Hent. left. simpl.
        rewrite outer_insert by assumption. rewrite scatter_lor by assumption.
        destruct (scatter_group t _ col Hb0 Hent) as (s & Hs & ->).
        destruct (gbase_owner n B t c cv ltac:(lia) HB Ht Hc Hd Hcv (w / d)%N s Hit Hs) as [G _].
        apply valid_gdom in G. apply N.ltb_lt. tauto.
      + intros v. simpl. split; [|exact I]. rewrite outer_insert by assumption. rewrite scatter_lor by assumption.
        unfold owner. simpl. rewrite gather_lor_scatter by assumption.
        destruct (scatter_group t _ (w mod d)%N Hb0 Hr) as (s & Hs & Es). rewrite Es.
        destruct (gbase_owner n B t c cv ltac:(lia) HB Ht Hc Hd Hcv (w / d)%N s Hit Hs) as [G1 G2].
        split; [exact G1|]. rewrite G2. rewrite (N.div_mod w d) at 3 by lia. lia.
  Qed.
End RowKernels.
