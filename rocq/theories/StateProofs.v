(** C30, C31, C49, C50: state-vector methods and classical registers. *)
From Verif Require Export StateSpec GatesProofs.
From Coq Require Import ZifyBool ZifyN ZifyNat Permutation Sorting.Sorted FunctionalExtensionality.

(** ** Kernels and reductions in host programs *)
Lemma addr2_eqb_spec' a b : reflect (a = b) (addr2_eqb a b).
Proof.
  unfold addr2_eqb. destruct a as [x i], b as [y j]. simpl.
  destruct (Bool.eqb_spec x y), (N.eqb_spec i j); subst; simpl; constructor; congruence.
Qed.

Lemma hplan_inplace D ks w m' psi' :
  kcomputes_list N.eqb (fun a => a <? D) ks (w_amp w) m' -> (forall a, a < D -> m' a = psi' a) ->
  sets D (hplan D (InPlace ks)) w psi'.
Proof.
  intros H E. destruct (kcomputes_list_run _ _ _ _ _ H) as [H1 (s & r & H2)]. split.
  - intros o (junk & scheds & Ho). simpl in Ho. specialize (H1 scheds).
    destruct (run_kernels _ _ _ _ _) as [m| | |]; try contradiction. subst m o. simpl. repeat split; auto.
  - exists (HDone tt (set_amp r w)), (fun _ => C0), s. simpl. now rewrite H2.
Qed.

(** iterations 0..k-1, iteration i working on its own address g i *)
Lemma pointwise D k (g : N -> N) (f : N -> prog C N) (h : N -> C -> C) w :
  (forall i, i < k -> g i < D) -> (forall i j, i < k -> j < k -> g i = g j -> i = j) ->
  (forall i, i < k -> foot (fun a => a = g i) (fun a => a = g i) (f i)) ->
  (forall i m, i < k -> run1 N.eqb (f i) m (g i) = h i (m (g i))) ->
  forall psi', (forall i, i < k -> psi' (g i) = h i (w_amp w (g i))) ->
  (forall a, a < D -> (forall i, i < k -> g i <> a) -> psi' a = w_amp w a) ->
  sets D (hplan D (InPlace [Kernel k f])) w psi'.
Proof.
  intros Hg Hinj Hf Hh psi' Hin Hout.
  set (hit := fun a => filter (fun i => g i =? a) (seqN k)).
  set (dom := fun a => match hit a with [] => false | _ => true end).
  set (owner := fun a => hd 0 (hit a)).
  assert (Hhit : forall i, i < k -> hit (g i) <> [] /\ owner (g i) = i).
  { intros i Hi. assert (Hx : In i (hit (g i))) by (apply filter_In; split; [now apply in_seqN|apply N.eqb_refl]).
    split; [intros E; rewrite E in Hx; destruct Hx|]. unfold owner. destruct (hit (g i)) as [|x l] eqn:E; [destruct Hx|].
    simpl. assert (Hx' : In x (hit (g i))) by (rewrite E; now left). apply filter_In in Hx' as [H1 H2].
    apply in_seqN in H1. apply N.eqb_eq in H2. now apply Hinj. }
  assert (Hd : forall a, dom a = true -> exists i, i < k /\ g i = a /\ owner a = i).
  { intros a. unfold dom, owner. destruct (hit a) as [|x l] eqn:E; [discriminate|]. intros _. exists x. simpl.
    assert (Hx' : In x (hit a)) by (rewrite E; now left). apply filter_In in Hx' as [H1 H2].
    apply in_seqN in H1. apply N.eqb_eq in H2. auto. }
  eapply hplan_inplace.
  - exists (fun a => if dom a then run1 N.eqb (f (owner a)) (w_amp w) a else w_amp w a). split; [|simpl; reflexivity].
    apply (owned_par_computes _ _ _ neqb_spec (fun a => a <? D) k f (w_amp w) (fun _ => false) dom owner).
    + intros a Ha. destruct (Hd a Ha) as (i & Hi & <- & ->). repeat split; auto. apply N.ltb_lt; auto.
    + discriminate.
    + intros i Hi. eapply foot_mono; [| |apply (Hf i Hi)]; simpl; intros a ->.
      * right. destruct (Hhit i Hi) as [H1 H2]. unfold dom. destruct (hit (g i)) eqn:Eh; [congruence|auto].
      * destruct (Hhit i Hi) as [H1 H2]. unfold dom. destruct (hit (g i)) eqn:Eh; [congruence|auto].
  - intros a Ha. cbv beta. destruct (dom a) eqn:E.
    + destruct (Hd a E) as (i & Hi & <- & ->). rewrite Hh by assumption. now rewrite Hin by assumption.
    + symmetry. apply Hout; [assumption|]. intros i Hi <-. destruct (Hhit i Hi) as [H1 H2]. unfold dom in E.
      destruct (hit (g i)) eqn:Eh; congruence.
Qed.

Lemma Rsuml_msum {T} (f : T -> R) l : msum 0%R Rplus f l = Rsuml f l.
Proof. reflexivity. Qed.
Lemma Rsuml_app {T} (f : T -> R) l1 l2 : Rsuml f (l1 ++ l2) = (Rsuml f l1 + Rsuml f l2)%R.
Proof. induction l1; simpl; [ring|]. rewrite IHl1. ring. Qed.
Lemma Rsuml_perm {T} (f : T -> R) l1 l2 : Permutation l1 l2 -> Rsuml f l1 = Rsuml f l2.
Proof. induction 1; simpl; try congruence; try ring. Qed.
Lemma Rsuml_ext {T} (f g : T -> R) l : (forall x, In x l -> f x = g x) -> Rsuml f l = Rsuml g l.
Proof. induction l; simpl; intros H; [reflexivity|]. rewrite H by auto. rewrite IHl by auto. reflexivity. Qed.
Lemma Rsuml_map {T U} (h : U -> T) (f : T -> R) l : Rsuml f (map h l) = Rsuml (fun x => f (h x)) l.
Proof. induction l; simpl; congruence. Qed.
Lemma Rsuml_nonneg {T} (f : T -> R) l : (forall x, In x l -> (0 <= f x)%R) -> (0 <= Rsuml f l)%R.
Proof. induction l; simpl; intros H; [lra|]. specialize (H a) as Ha. specialize (IHl ltac:(auto)). assert (0 <= f a)%R by auto. lra. Qed.
Lemma Rsuml_filter {T} (f : T -> R) (P : T -> bool) l : (Rsuml f (filter P l) + Rsuml f (filter (fun x => negb (P x)) l) = Rsuml f l)%R.
Proof. induction l; simpl; [ring|]. destruct (P a); simpl; lra. Qed.
Lemma Rsuml_scale {T} c (f : T -> R) l : Rsuml (fun x => (c * f x)%R) l = (c * Rsuml f l)%R.
Proof. induction l; simpl; [ring|]. rewrite IHl. ring. Qed.
Lemma Rsuml_zero {T} (f : T -> R) l : (forall x, In x l -> (0 <= f x)%R) -> Rsuml f l = 0%R -> forall x, In x l -> f x = 0%R.
Proof.
  induction l; simpl; intros H E x; [intros []|]. assert (0 <= f a)%R by auto. assert (0 <= Rsuml f l)%R by (apply Rsuml_nonneg; auto).
  intros [<-|Hx]; [lra|]. apply IHl; auto. lra.
Qed.
Lemma sqnorm_nonneg n psi : (0 <= sqnorm n psi)%R.
Proof. apply Rsuml_nonneg. intros. apply Cnorm2_nonneg. Qed.
Lemma sqnorm_norm2 n psi : RtoC (sqnorm n psi) = norm2 n psi.
Proof.
  unfold sqnorm, norm2, inner, Csum. induction (seqN (2 ^ n)) as [|x l IH]; simpl; [reflexivity|].
  now rewrite RtoC_add, IH, Cnorm2_conj.
Qed.

Lemma hsum_returns_R D iters f w (g : N -> R) : (forall i, i < iters -> rrun (fun a => a <? D) (w_amp w) (f i) = Some (g i)) ->
  returns (sum_R D iters f) w (Rsuml g (seqN iters)).
Proof.
  intros H. assert (E : forall t, reduction_of (seqN iters) t ->
    reduce 0%R Rplus (fun i => rrun (fun a => a <? D) (w_amp w) (f i)) t = Some (Rsuml g (seqN iters))).
  { intros t Ht. rewrite <- Rsuml_msum. apply reduce_correct; auto; try (intros; ring).
    intros i Hi. apply H. now apply in_seqN. }
  split.
  - intros o (t & Ht & ->). now rewrite E.
  - eexists. exists (RLeaf (seqN iters)). split; [apply reduction_exists|]. rewrite E; [reflexivity|apply reduction_exists].
Qed.
Lemma hsum_returns_C D iters f w (g : N -> C) : (forall i, i < iters -> rrun (fun a => a <? D) (w_amp w) (f i) = Some (g i)) ->
  returns (hsum C0 Cadd D iters f) w (Csum iters g).
Proof.
  intros H. assert (E : forall t, reduction_of (seqN iters) t ->
    reduce C0 Cadd (fun i => rrun (fun a => a <? D) (w_amp w) (f i)) t = Some (Csum iters g)).
  { intros t Ht. apply (creduce_correct _ g (seqN iters) t Ht). intros i Hi. apply H. now apply in_seqN. }
  split.
  - intros o (t & Ht & ->). now rewrite E.
  - eexists. exists (RLeaf (seqN iters)). split; [apply reduction_exists|]. rewrite E; [reflexivity|apply reduction_exists].
Qed.
Lemma read_norm_ok D psi a : a < D -> rrun (fun a => a <? D) psi (read_norm a) = Some (Cnorm2 (psi a)).
Proof. intros H. unfold read_norm. cbn [rrun]. apply N.ltb_lt in H. now rewrite H. Qed.
Lemma returns_bind {T U} (p : host world T) (k : T -> host world U) w v Q :
  returns p w v -> runs (k v) w Q -> runs (hbind p k) w Q.
Proof.
  intros H1 H2. eapply runs_bind; [exact H1| | |]; cbv beta.
  - intros t w1 [= -> ->]. exact H2.
  - intros w1 [=].
  - intros [=].
Qed.

(** ** Marginals: the indices with given bits *)
(** the insertion loop without machine words *)
Definition ins_val (x : N) (t : N * N) : N := N.lor (ins1 (fst t) x) (N.shiftl (snd t) (fst t)).
Definition bits01 (ts : list (N * N)) : Prop := Forall (fun t => snd t = 0 \/ snd t = 1) ts.
Definition incr_ts (ts : list (N * N)) : Prop := StronglySorted N.lt (map fst ts).

Lemma ins_val_tb x t i : (snd t = 0 \/ snd t = 1) ->
  N.testbit (ins_val x t) i = if i <? fst t then N.testbit x i else if i =? fst t then snd t =? 1 else N.testbit x (i - 1).
Proof.
  intros H. unfold ins_val. rewrite N.lor_spec, ins1_tb.
  assert (E : N.testbit (N.shiftl (snd t) (fst t)) i = (i =? fst t) && (snd t =? 1)).
  { destruct H as [->| ->].
    - rewrite N.shiftl_0_l, N.bits_0. now rewrite andb_false_r.
    - rewrite N.shiftl_1_l, N.pow2_bits_eqb, (N.eqb_sym (fst t) i). simpl. now rewrite andb_true_r. }
  rewrite E. destruct (N.ltb_spec i (fst t)); destruct (N.eqb_spec i (fst t)); try lia; simpl; auto using orb_false_r.
Qed.
Lemma ins_vals_low ts : forall x i, bits01 ts -> Forall (fun p => i < p) (map fst ts) ->
  N.testbit (fold_left ins_val ts x) i = N.testbit x i.
Proof.
  induction ts as [|t ts IH]; intros x i Hb Hf; simpl; [reflexivity|]. inversion Hb; inversion Hf; subst.
  rewrite IH by assumption. rewrite ins_val_tb by assumption. destruct (N.ltb_spec i (fst t)); [reflexivity|lia].
Qed.
Lemma ins_vals_at ts : forall x t, bits01 ts -> incr_ts ts -> In t ts -> N.testbit (fold_left ins_val ts x) (fst t) = (snd t =? 1).
Proof.
  induction ts as [|u ts IH]; intros x t Hb Hs Ht; simpl; [destruct Ht|]. inversion Hb; subst. inversion Hs; subst.
  destruct Ht as [<-|Ht].
  - rewrite ins_vals_low by assumption. rewrite ins_val_tb by assumption.
    destruct (N.ltb_spec (fst u) (fst u)); [lia|]. now rewrite N.eqb_refl.
  - apply IH; assumption.
Qed.
Definition rem_vals (ts : list (N * N)) (x : N) : N := rem_list (map fst ts) x.
Lemma rem_ins_val x t : (snd t = 0 \/ snd t = 1) -> rem1 (fst t) (ins_val x t) = x.
Proof.
  intros H. apply N.bits_inj; intro i. rewrite rem1_tb, !ins_val_tb by assumption. tbsolve.
Qed.
Lemma ins_rem_val x t : (snd t = 0 \/ snd t = 1) -> N.testbit x (fst t) = (snd t =? 1) -> ins_val (rem1 (fst t) x) t = x.
Proof.
  intros H E. apply N.bits_inj; intro i. rewrite ins_val_tb, !rem1_tb by assumption.
  destruct (N.ltb_spec i (fst t)); [reflexivity|]. destruct (N.eqb_spec i (fst t)); [subst; auto|].
  destruct (N.ltb_spec (i - 1) (fst t)); [lia|]. f_equal; lia.
Qed.
Lemma rem_ins_vals ts : forall x, bits01 ts -> rem_vals ts (fold_left ins_val ts x) = x.
Proof.
  induction ts as [|t ts IH]; intros x Hb; [reflexivity|]. inversion Hb; subst. unfold rem_vals in *. cbn [map fold_left rem_list].
  rewrite IH by assumption. now apply rem_ins_val.
Qed.
Lemma ins_rem_vals ts : forall x, bits01 ts -> incr_ts ts -> (forall t, In t ts -> N.testbit x (fst t) = (snd t =? 1)) ->
  fold_left ins_val ts (rem_vals ts x) = x.
Proof.
  induction ts as [|t ts IH]; intros x Hb Hs Hx; [reflexivity|]. inversion Hb; subst. inversion Hs; subst.
  unfold rem_vals in *. cbn [map fold_left rem_list].
  rewrite ins_rem_val; [apply IH; auto; intros; apply Hx; now right|assumption|].
  rewrite rem_list_low by assumption. apply Hx. now left.
Qed.
Lemma ins_val_shiftr t x n : (snd t = 0 \/ snd t = 1) -> fst t < n -> N.shiftr (ins_val x t) n = N.shiftr x (n - 1).
Proof.
  intros H Hn. apply N.bits_inj; intro i. rewrite !N.shiftr_spec', ins_val_tb by assumption.
  destruct (N.ltb_spec (i + n) (fst t)); [lia|]. destruct (N.eqb_spec (i + n) (fst t)); [lia|]. f_equal; lia.
Qed.
Lemma ins_vals_shiftr ts : forall x n, bits01 ts -> incr_ts ts -> Forall (fun p => p < n) (map fst ts) ->
  N.shiftr (fold_left ins_val ts x) n = N.shiftr x (n - N.of_nat (length ts)).
Proof.
  induction ts as [|t ts IH]; intros x n Hb Hs Hf; simpl; [now rewrite N.sub_0_r|].
  inversion Hb; subst. pose proof Hs as Hs'. inversion Hs; subst. inversion Hf; subst.
  pose proof (incr_len (map fst ts) n (fst t) Hs' Hf) as Hl. pose proof (map_length fst ts) as Eml.
  rewrite IH by assumption. rewrite ins_val_shiftr by (try assumption; lia). f_equal. lia.
Qed.
Lemma ins_vals_lt ts x n : bits01 ts -> incr_ts ts -> Forall (fun p => p < n) (map fst ts) ->
  (fold_left ins_val ts x < 2 ^ n <-> x < 2 ^ (n - N.of_nat (length ts))).
Proof.
  intros. pose proof (shiftr_lt (fold_left ins_val ts x) n 1) as H2. pose proof (shiftr_lt x (n - N.of_nat (length ts)) 1) as H3.
  rewrite ins_vals_shiftr in H2 by assumption. rewrite N.mul_1_l in H2, H3. tauto.
Qed.
Lemma marginal_enumeration ts n : bits01 ts -> incr_ts ts -> Forall (fun p => p < n) (map fst ts) ->
  Permutation (map (fold_left ins_val ts) (seqN (2 ^ (n - N.of_nat (length ts)))))
              (filter (fun x => forallb (fun t => Bool.eqb (N.testbit x (fst t)) (snd t =? 1)) ts) (seqN (2 ^ n))).
Proof.
  intros Hb Hs Hf. apply NoDup_Permutation.
  - apply NoDup_map_inj; [|apply NoDup_seqN]. intros x y _ _ E. rewrite <- (rem_ins_vals ts x Hb), E. now apply rem_ins_vals.
  - apply NoDup_filter, NoDup_seqN.
  - intros z. rewrite in_map_iff, filter_In, in_seqN, forallb_forall. split.
    + intros (x & <- & Hx). apply in_seqN in Hx. split; [now apply ins_vals_lt|].
      intros t Ht. rewrite ins_vals_at by assumption. apply Bool.eqb_reflx.
    + intros [Hz Ht]. exists (rem_vals ts z). assert (E : fold_left ins_val ts (rem_vals ts z) = z).
      { apply ins_rem_vals; auto. intros t Hi. specialize (Ht t Hi). now apply Bool.eqb_prop. }
      split; [assumption|]. apply in_seqN. apply (ins_vals_lt ts); auto. now rewrite E.
Qed.

(** the machine loop *)
Lemma insert_measured_ok x t : (snd t = 0 \/ snd t = 1) -> fst t < 63 -> ins1 (fst t) x < two64 ->
  insert_measured x t = ins_val x t /\ b_insert_measured x t = ins_val x t.
Proof.
  intros Hb Hk Hx. unfold insert_measured, b_insert_measured, ins_val.
  rewrite insert_zero_to_basis_index_ins1 by assumption.
  assert (E : shl64 (snd t) (fst t) = N.shiftl (snd t) (fst t)).
  { unfold shl64. apply wrap_small. destruct Hb as [->| ->].
    - rewrite N.shiftl_0_l. reflexivity.
    - rewrite N.shiftl_1_l. unfold two64. apply N.pow_lt_mono_r; lia. }
  rewrite E. split; [reflexivity|]. apply N.bits_inj; intro i. rewrite N.lor_spec, N.lxor_spec, ins1_tb.
  destruct Hb as [->| ->].
  - rewrite N.shiftl_0_l, N.bits_0. now rewrite xorb_false_r, orb_false_r.
  - rewrite N.shiftl_1_l, N.pow2_bits_eqb.
    destruct (N.ltb_spec i (fst t)); destruct (N.eqb_spec i (fst t)); destruct (N.eqb_spec (fst t) i); subst; try lia;
      destruct (N.testbit x i); destruct (N.testbit x (i - 1)); reflexivity.
Qed.
Lemma ins_val_ge_ins1 x t : ins1 (fst t) x <= ins_val x t.
Proof.
  unfold ins_val. generalize (ins1 (fst t) x) (N.shiftl (snd t) (fst t)). clear. intros a b.
  rewrite <- (N.ldiff_0_r a) at 1. 
  replace (N.lor a b) with (a + N.ldiff b a); [rewrite N.ldiff_0_r; lia|].
  rewrite N.add_nocarry_lxor.
  - apply N.bits_inj; intro i. rewrite N.lxor_spec, N.ldiff_spec, N.lor_spec. destruct (N.testbit a i), (N.testbit b i); reflexivity.
  - apply N.bits_inj; intro i. rewrite N.land_spec, N.ldiff_spec, N.bits_0. destruct (N.testbit a i), (N.testbit b i); reflexivity.
Qed.
Lemma ins1_ge x p : x <= ins1 p x. Proof. apply ins1_le. Qed.
Lemma ins_vals_ge ts : forall x, x <= fold_left ins_val ts x.
Proof.
  induction ts as [|t ts IH]; intros x; simpl; [lia|]. etransitivity; [apply (ins1_ge x (fst t))|].
  etransitivity; [apply ins_val_ge_ins1|]. apply IH.
Qed.
Lemma insert_measured_fold ts : forall x, bits01 ts -> Forall (fun p => p < 63) (map fst ts) -> fold_left ins_val ts x < two64 ->
  fold_left insert_measured ts x = fold_left ins_val ts x /\ fold_left b_insert_measured ts x = fold_left ins_val ts x.
Proof.
  induction ts as [|t ts IH]; intros x Hb Hf Hx; [split; reflexivity|]. inversion Hb; inversion Hf; subst. simpl in *.
  assert (H' : ins1 (fst t) x < two64).
  { eapply N.le_lt_trans; [apply ins_val_ge_ins1|]. eapply N.le_lt_trans; [apply ins_vals_ge|]. eassumption. }
  destruct (insert_measured_ok x t) as [-> ->]; auto.
Qed.

(** measured_targets lists the measured qubits *)
Lemma measured_targets_ok vs : forall i, Forall (fun v => v <= 2) vs -> exists ts, measured_targets i vs = Ok ts /\
  bits01 ts /\ incr_ts ts /\ Forall (fun p => i <= p /\ p < i + N.of_nat (length vs)) (map fst ts) /\
  forall x, forallb (fun t => Bool.eqb (N.testbit x (fst t)) (snd t =? 1)) ts =
    forallb (fun iv => (snd iv =? 2) || Bool.eqb (N.testbit x (fst iv)) (snd iv =? 1))
            (combine (map N.of_nat (seq (N.to_nat i) (length vs))) vs).
Proof.
  induction vs as [|v vs IH]; intros i Hf; simpl.
  - exists []. repeat split; constructor.
  - inversion Hf; subst. destruct (IH (i + 1)) as (ts & E & Hb & Hs & Hr & Hx); [assumption|].
    replace (N.to_nat (i + 1)) with (S (N.to_nat i)) in Hx by lia.
    destruct ((v =? 0) || (v =? 1)) eqn:Ev.
    + rewrite E. cbn [bindR]. exists ((i, v) :: ts). split; [reflexivity|]. split; [|split; [|split]].
      * constructor; [|assumption]. simpl. lia.
      * constructor; [assumption|]. eapply Forall_impl; [|exact Hr]. cbv beta. simpl. intros; lia.
      * simpl. constructor; [lia|]. eapply Forall_impl; [|exact Hr]. cbv beta. intros; lia.
      * intros x. simpl. rewrite Hx. rewrite N2Nat.id. assert (E2 : (v =? 2) = false) by lia. now rewrite E2.
    + assert (E2 : (v =? 2) = true) by lia. rewrite E2, E. exists ts. split; [reflexivity|].
      repeat split; try assumption.
      * eapply Forall_impl; [|exact Hr]. cbv beta. simpl. intros; lia.
Qed.
Lemma measured_targets_throw vs : forall i, ~ Forall (fun v => v <= 2) vs -> measured_targets i vs = Throw.
Proof.
  induction vs as [|v vs IH]; intros i Hf; simpl; [destruct Hf; constructor|].
  destruct ((v =? 0) || (v =? 1)) eqn:Ev.
  - rewrite IH; [reflexivity|]. intros H. apply Hf. constructor; [lia|assumption].
  - destruct (N.eqb_spec v 2); [|reflexivity]. apply IH. intros H. apply Hf. constructor; [lia|assumption].
Qed.

(** ** Single states *)
Lemma pow_lt64 n : n < 64 -> 2 ^ n < two64.
Proof. intros. unfold two64. apply N.pow_lt_mono_r; lia. Qed.
Lemma one_kernel_sets D f h w psi' :
  (forall i, i < D -> foot (fun a => a = i) (fun a => a = i) (f i)) ->
  (forall i m, i < D -> run1 N.eqb (f i) m i = h i (m i)) ->
  (forall i, i < D -> psi' i = h i (w_amp w i)) ->
  sets D (one_kernel D f) w psi'.
Proof.
  intros Hf Hh Hp. apply (pointwise D D (fun i => i) f h w); auto.
  intros a Ha Hn. exfalso. now apply (Hn a).
Qed.
Ltac kernel_tac := intros; cbn [foot run1 mul_at]; rewrite ?upd_same by apply neqb_spec; auto.

Lemma set_zero_state_ok n w : sets (2 ^ n) (set_zero_state n) w (fun x => if x =? 0 then C1 else C0).
Proof. apply (one_kernel_sets _ _ (fun i _ => bit_amp (i =? 0))); kernel_tac. Qed.
Lemma set_zero_norm_ok n w : sets (2 ^ n) (set_zero_norm_state n) w (fun x => C0).
Proof. apply (one_kernel_sets _ _ (fun i _ => C0)); kernel_tac. Qed.
Lemma set_basis_ok n b w : b < 2 ^ n -> sets (2 ^ n) (set_computational_basis n b) w (fun x => if x =? b then C1 else C0).
Proof.
  intros Hb. unfold set_computational_basis. destruct (N.leb_spec (2 ^ n) b); [lia|].
  apply (one_kernel_sets _ _ (fun i _ => bit_amp (i =? b))); kernel_tac.
Qed.
Lemma set_basis_throws n b w : 2 ^ n <= b -> throws (set_computational_basis n b) w.
Proof. intros Hb. unfold set_computational_basis. destruct (N.leb_spec (2 ^ n) b); [|lia]. now apply runs_throw. Qed.
Lemma multiply_ok n c w : sets (2 ^ n) (multiply_coef n c) w (fun x => (c * w_amp w x)%C).
Proof. apply (one_kernel_sets _ _ (fun i v => (v * c)%C)); kernel_tac. ring. Qed.
Lemma load_ok n l w : N.of_nat (length l) = 2 ^ n -> sets (2 ^ n) (load n l) w (fun x => nth (N.to_nat x) l C0).
Proof.
  intros H. unfold load. rewrite H, N.eqb_refl. simpl.
  apply (one_kernel_sets _ _ (fun i _ => nth (N.to_nat i) l C0)); kernel_tac.
Qed.
Lemma load_throws n l w : N.of_nat (length l) <> 2 ^ n -> throws (load n l) w.
Proof. intros H. unfold load. apply N.eqb_neq in H. rewrite H. now apply runs_throw. Qed.
Lemma set_amp_ok n i c w : i < 2 ^ n -> sets (2 ^ n) (set_amplitude_at n i c) w (fun x => if x =? i then c else w_amp w x).
Proof. intros H. unfold set_amplitude_at. apply N.ltb_lt in H. rewrite H. apply runs_modify. repeat split. Qed.
Lemma get_amp_ok n i w : i < 2 ^ n -> returns (get_amplitude_at n i) w (w_amp w i).
Proof. intros H. unfold get_amplitude_at. apply N.ltb_lt in H. rewrite H. now apply runs_get. Qed.
Lemma get_amps_ok n w : returns (get_amplitudes n) w (map (w_amp w) (seqN (2 ^ n))).
Proof. now apply runs_get. Qed.
Lemma squared_norm_ok n w : returns (get_squared_norm n) w (sqnorm n (w_amp w)).
Proof. apply (hsum_returns_R _ _ _ _ (fun x => Cnorm2 (w_amp w x))). intros i Hi. now apply read_norm_ok. Qed.
Lemma sqrt_neq_0 x : (0 <= x)%R -> x <> 0%R -> sqrt x <> 0%R.
Proof. intros H1 H2 E. apply H2. now apply sqrt_eq_0. Qed.
Lemma normalize_ok n w : sqnorm n (w_amp w) <> 0%R ->
  sets (2 ^ n) (normalize n) w (fun x => Cscale (/ sqrt (sqnorm n (w_amp w))) (w_amp w x)).
Proof.
  intros H. unfold normalize. eapply returns_bind; [apply squared_norm_ok|].
  destruct (Req_EM_T _ _) as [E|E]; [now apply sqrt_neq_0 in E; [|apply sqnorm_nonneg|]|].
  apply (one_kernel_sets _ _ (fun i v => (fst v / sqrt (sqnorm n (w_amp w)), snd v / sqrt (sqnorm n (w_amp w)))%R)); kernel_tac.
  unfold Cscale, Rdiv. f_equal; ring.
Qed.
Lemma prob_perm n P psi l : Permutation l (filter P (seqN (2 ^ n))) -> Rsuml (fun x => Cnorm2 (psi x)) l = prob n P psi.
Proof. intros H. unfold prob. now apply Rsuml_perm. Qed.
Lemma zero_probability_ok n q w : n < 64 -> q < n ->
  returns (get_zero_probability n q) w (prob n (fun x => negb (N.testbit x q)) (w_amp w)).
Proof.
  intros Hn Hq. unfold get_zero_probability. destruct (N.leb_spec n q); [lia|].
  pose proof (enumeration_one_exact n q ltac:(lia) Hq) as HP.
  rewrite <- (prob_perm n _ _ _ HP). rewrite Rsuml_map.
  apply hsum_returns_R. intros i Hi. apply read_norm_ok.
  assert (Hin : In (insert_zero_to_basis_index i q) (filter (fun i => negb (N.testbit i q)) (seqN (2 ^ n)))).
  { eapply Permutation_in; [exact HP|]. apply in_map_iff. exists i. split; [reflexivity|now apply in_seqN]. }
  apply filter_In in Hin as [Hin _]. now apply in_seqN.
Qed.
Lemma zero_probability_throws n q w : n <= q -> throws (get_zero_probability n q) w.
Proof. intros H. unfold get_zero_probability. apply N.leb_le in H. rewrite H. now apply runs_throw. Qed.
Lemma shows_targets vs : Forall (fun v => v <= 2) vs -> N.of_nat (length vs) < 64 -> exists ts, measured_targets 0 vs = Ok ts /\
  N.of_nat (length ts) <= N.of_nat (length vs) /\
  let n := N.of_nat (length vs) in
  (forall i, i < N.shiftr (2 ^ n) (N.of_nat (length ts)) ->
    fold_left insert_measured ts i < 2 ^ n /\ fold_left b_insert_measured ts i = fold_left insert_measured ts i) /\
  Permutation (map (fold_left insert_measured ts) (seqN (N.shiftr (2 ^ n) (N.of_nat (length ts))))) (filter (shows vs) (seqN (2 ^ n))).
Proof.
  intros Hf Hn. destruct (measured_targets_ok vs 0 Hf) as (ts & E & Hb & Hs & Hr & Hx).
  assert (Hr' : Forall (fun p => p < N.of_nat (length vs)) (map fst ts)).
  { eapply Forall_impl; [|exact Hr]. cbv beta. intros; lia. }
  assert (Hl : N.of_nat (length ts) <= N.of_nat (length vs)).
  { pose proof (incr_length_le _ _ Hs Hr') as H. now rewrite map_length in H. }
  exists ts. split; [assumption|]. split; [assumption|]. cbv zeta. set (n := N.of_nat (length vs)) in *.
  assert (Esh : N.shiftr (2 ^ n) (N.of_nat (length ts)) = 2 ^ (n - N.of_nat (length ts))).
  { replace (2 ^ n) with (1 * 2 ^ n) by lia. rewrite shiftr_flat by assumption. lia. }
  rewrite Esh.
  assert (Hm : forall i, i < 2 ^ (n - N.of_nat (length ts)) ->
    fold_left insert_measured ts i = fold_left ins_val ts i /\ fold_left b_insert_measured ts i = fold_left ins_val ts i /\
    fold_left ins_val ts i < 2 ^ n).
  { intros i Hi. assert (Hlt : fold_left ins_val ts i < 2 ^ n) by now apply ins_vals_lt.
    destruct (insert_measured_fold ts i Hb) as [E1 E2]; auto.
    - eapply Forall_impl; [|exact Hr']. cbv beta. intros; lia.
    - eapply N.lt_trans; [exact Hlt|]. now apply pow_lt64. }
  split.
  - intros i Hi. destruct (Hm i Hi) as (-> & -> & H). auto.
  - rewrite (map_ext_in _ (fold_left ins_val ts)) by (intros i Hi; apply in_seqN in Hi; now apply Hm).
    eapply Permutation_trans; [apply marginal_enumeration; assumption|].
    rewrite (filter_ext_in _ (shows vs)); [apply Permutation_refl|].
    intros x _. rewrite Hx. unfold shows. unfold seqN. rewrite Nat2N.id. reflexivity.
Qed.
Lemma marginal_ok n vs w : n < 64 -> N.of_nat (length vs) = n -> Forall (fun v => v <= 2) vs ->
  returns (get_marginal_probability n vs) w (prob n (shows vs) (w_amp w)).
Proof.
  intros Hn Hl Hf. unfold get_marginal_probability. rewrite Hl, N.eqb_refl. cbn [negb].
  destruct (shows_targets vs Hf) as (ts & -> & Hle & Hr & HP); [lia|]. rewrite Hl in *.
  eapply returns_bind; [now apply runs_ret|]. rewrite <- (prob_perm n _ _ _ HP), Rsuml_map.
  apply hsum_returns_R. intros i Hi. apply read_norm_ok. now apply Hr.
Qed.
Lemma marginal_throws n vs w : N.of_nat (length vs) <> n \/ ~ Forall (fun v => v <= 2) vs ->
  throws (get_marginal_probability n vs) w.
Proof.
  intros H. unfold get_marginal_probability. destruct (N.eqb_spec (N.of_nat (length vs)) n); cbn [negb]; [|now apply runs_throw].
  destruct H as [H|H]; [congruence|]. rewrite measured_targets_throw by assumption.
  eapply runs_bind; [now apply runs_throw with (Q := fun o => o = HThrown w)| | |]; cbv beta; try discriminate. now intros ? [= ->].
Qed.
Lemma entropy_ok n w : returns (get_computational_basis_entropy n) w
  (Rsuml (fun x => if Rlt_dec 0 (Cnorm2 (w_amp w x)) then (- Cnorm2 (w_amp w x) * log2 (Cnorm2 (w_amp w x)))%R else 0%R) (seqN (2 ^ n))).
Proof. apply hsum_returns_R. intros i Hi. cbn [rrun]. apply N.ltb_lt in Hi. now rewrite Hi. Qed.
Lemma inner_product_ok n other w : returns (inner_product n n other) w (inner n (w_amp w) other).
Proof.
  unfold inner_product. rewrite N.eqb_refl. cbn [negb]. apply hsum_returns_C.
  intros i Hi. cbn [rrun]. apply N.ltb_lt in Hi. now rewrite Hi.
Qed.
Lemma inner_product_throws n n2 other w : n <> n2 -> throws (inner_product n n2 other) w.
Proof.
  intros H. unfold inner_product. destruct (N.eqb_spec (2 ^ n) (2 ^ n2)) as [E|E]; cbn [negb]; [|now apply runs_throw].
  apply N.pow_inj_r in E; [congruence|lia].
Qed.

(** two arrays *)
Lemma add_kernel D D2 (same : bool) coef psi other :
  (same = true \/ D <= D2) ->
  kcomputes addr2_eqb (fun a => if fst a then snd a <? D2 else snd a <? D)
    (Kernel D (fun i => Rd (false, i) (fun v => Rd (negb same, i) (fun u => Wr (false, i) (v + coef * u)%C Ret))))
    (fun a => if fst a then other (snd a) else psi (snd a))
    (fun a => if fst a then other (snd a) else
              if snd a <? D then (psi (snd a) + coef * (if same then psi (snd a) else other (snd a)))%C else psi (snd a)).
Proof.
  intros HD.
  eapply par_computes_ext; cycle 1.
  - apply (owned_par_computes _ _ _ addr2_eqb_spec' _ D _ _
      (fun a => fst a && (snd a <? D) && negb same) (fun a => negb (fst a) && (snd a <? D)) (fun a => snd a)).
    + intros [x a]. simpl. destruct x; simpl; [discriminate|]. intros H. split; [assumption|]. split; [now apply N.ltb_lt|reflexivity].
    + intros [x a]. simpl. destruct x; simpl; [|discriminate]. intros H. lia.
    + intros i Hi. apply N.ltb_lt in Hi.
      assert (Hown : negb (fst (false, i)) && (snd (false, i) <? D) = true /\ snd (false, i) = i) by (simpl; rewrite Hi; auto).
      split; [right; exact Hown|]. intros v. split.
      { destruct same; [right; exact Hown|]. left. simpl. now rewrite Hi. }
      intros u. split; [exact Hown|exact I].
  - intros [x a]. cbn [fst snd negb andb]. destruct x; cbn [negb andb]; [reflexivity|].
    destruct (a <? D); [|reflexivity]. cbn [k_body run1 fst snd]. unfold upd. destruct (addr2_eqb_spec' (false, a) (false, a)); [|congruence].
    destruct same; reflexivity.
Qed.
Lemma add_ok n coef same D2 other w : (same = true \/ 2 ^ n <= D2) ->
  sets (2 ^ n) (add_state_vector_with_coef n coef same D2 other) w
       (fun x => (w_amp w x + coef * (if same then w_amp w x else other x))%C).
Proof.
  intros HD. unfold add_state_vector_with_coef.
  destruct (kcomputes_list_run addr2_eqb (fun a => if fst a then snd a <? D2 else snd a <? 2 ^ n)
    [Kernel (2 ^ n) (fun i => Rd (false, i) (fun v => Rd (negb same, i) (fun u => Wr (false, i) (v + coef * u)%C Ret)))]
    (fun a => if fst a then other (snd a) else w_amp w (snd a)) _
    (ex_intro _ _ (conj (add_kernel (2 ^ n) D2 same coef (w_amp w) other HD) (fun _ => eq_refl)))) as [H1 (s & r & H2)].
  split.
  - intros o (scheds & Ho). specialize (H1 scheds). destruct (run_kernels _ _ _ _ _); try contradiction. subst.
    cbn [done]. repeat split. cbn [fst snd w_amp set_amp]. intros a Ha. apply N.ltb_lt in Ha. now rewrite Ha.
  - eexists. exists s. rewrite H2. reflexivity.
Qed.
