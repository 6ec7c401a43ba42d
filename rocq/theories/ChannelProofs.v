(** Averages over random numbers, and channels as linear maps on ensembles. *)
From Verif Require Export ChannelSpec CircuitProofs5.
From Coq Require Import ZifyBool ZifyN ZifyNat Lra FunctionalExtensionality.
From Coquelicot Require Import Hierarchy RInt.
Import Cplx.

(** ** Integrals of step functions *)
Definition cint (f : R -> C) (a b : R) (v : C) : Prop :=
  @is_RInt R_NormedModule (fun u => Re (f u)) a b (Re v) /\ @is_RInt R_NormedModule (fun u => Im (f u)) a b (Im v).
Lemma rint_const (c a b : R) : @is_RInt R_NormedModule (fun _ => c) a b ((b - a) * c)%R.
Proof. exact (@is_RInt_const R_NormedModule a b c). Qed.
Lemma rint_piece (f : R -> R) (c a b : R) : (a <= b)%R -> (forall u, a < u < b -> f u = c)%R -> @is_RInt R_NormedModule f a b ((b - a) * c)%R.
Proof.
  intros Hab H. apply (is_RInt_ext (fun _ => c)); [|apply rint_const]. intros u Hu. rewrite Rmin_left, Rmax_right in Hu by assumption. symmetry. now apply H.
Qed.
Lemma cint_piece f c a b : (a <= b)%R -> (forall u, a < u < b -> f u = c)%R -> cint f a b (Cscale (b - a) c).
Proof. intros Hab H. split; apply rint_piece; auto; intros u Hu; now rewrite H. Qed.
Lemma cint_join f a b c v w : cint f a b v -> cint f b c w -> cint f a c (v + w)%C.
Proof. intros [H1 H2] [H3 H4]. split; [exact (is_RInt_Chasles _ a b c _ _ H1 H3)|exact (is_RInt_Chasles _ a b c _ _ H2 H4)]. Qed.

(** the alternative that the number u belongs to *)
Fixpoint pick {A} (d : A) (a : R) (l : list (R * A)) (u : R) : A :=
  match l with
  | [] => d
  | (_, x) :: nil => x
  | (p, x) :: l => if Rlt_dec u (a + p) then x else pick d (a + p) l u
  end.
Fixpoint cmix (a : R) (l : list (R * C)) : C :=
  match l with
  | [] => C0
  | (_, v) :: nil => Cscale (1 - clip a) v
  | (p, v) :: l => (Cscale (clip (a + p) - clip a) v + cmix (a + p) l)%C
  end.
Lemma clip_bounds x : (0 <= clip x <= 1)%R.
Proof. unfold clip. split; [apply Rmax_l|]. apply Rmax_lub; [lra|apply Rmin_l]. Qed.
Lemma clip_mono x y : (x <= y)%R -> (clip x <= clip y)%R.
Proof. intros H. unfold clip. apply Rmax_lub; [apply Rmax_l|]. eapply Rle_trans; [|apply Rmax_r]. apply Rmin_case_strong; intros; unfold Rmin; destruct (Rle_dec 1 y); lra. Qed.
Lemma clip_under x u : (0 <= x)%R -> (u < clip x)%R -> (u < x)%R.
Proof. intros Hx. unfold clip. rewrite Rmax_right by (apply Rmin_glb; lra). intros H. pose proof (Rmin_r 1 x). lra. Qed.
Lemma clip_over x u : (clip x < u < 1)%R -> ~ (u < x)%R.
Proof. unfold clip. intros H Hx. assert (E : (Rmin 1 x < u)%R) by (pose proof (Rmax_r 0 (Rmin 1 x)); lra). revert E. apply Rmin_case_strong; intros; lra. Qed.
Lemma pick_cons {A} (d : A) a p x y l u : pick d a ((p, x) :: y :: l) u = if Rlt_dec u (a + p) then x else pick d (a + p) (y :: l) u.
Proof. reflexivity. Qed.
Lemma cmix_cons a p v y l : cmix a ((p, v) :: y :: l) = (Cscale (clip (a + p) - clip a) v + cmix (a + p) (y :: l))%C.
Proof. reflexivity. Qed.
Lemma mixture_cons a p s y l : mixture a ((p, s) :: y :: l) = e_add (e_scale (clip (a + p) - clip a) s) (mixture (a + p) (y :: l)).
Proof. reflexivity. Qed.
Lemma cint_ext f g a b v : (a <= b)%R -> (forall u, a < u < b -> f u = g u)%R -> cint f a b v -> cint g a b v.
Proof.
  intros Hab H [H1 H2]. split; [eapply is_RInt_ext; [|exact H1]|eapply is_RInt_ext; [|exact H2]];
    intros u Hu; rewrite Rmin_left, Rmax_right in Hu by assumption; cbn beta; now rewrite H.
Qed.
Lemma pick_mean (d : C) : forall l a, l <> [] -> (0 <= a)%R -> Forall (fun px => 0 <= fst px)%R l -> cint (pick d a l) (clip a) 1 (cmix a l).
Proof.
  induction l as [|[p x] l IH]; intros a Hl Ha HF; [congruence|]. destruct l as [|y l].
  - apply cint_piece; [apply clip_bounds|reflexivity].
  - rewrite cmix_cons. inversion HF as [|? ? Hp HF']; subst. cbn [fst] in Hp. apply cint_join with (clip (a + p)).
    + apply cint_piece; [apply clip_mono; lra|]. intros u Hu. rewrite pick_cons. destruct (Rlt_dec u (a + p)) as [|Hn]; [reflexivity|].
      exfalso. apply Hn, clip_under; lra.
    + eapply cint_ext; [apply clip_bounds| |apply (IH (a + p)%R); [discriminate|lra|assumption]]. intros u Hu. rewrite pick_cons.
      destruct (Rlt_dec u (a + p)) as [Hy|]; [|reflexivity]. exfalso. now apply (clip_over (a + p) u Hu).
Qed.
Lemma pick_map {A B} (f : A -> B) d u : forall l a, pick (f d) a (map (fun px => (fst px, f (snd px))) l) u = f (pick d a l u).
Proof.
  induction l as [|[p x] l IH]; intros a; [reflexivity|]. destruct l as [|y l]; [reflexivity|]. cbn [map fst snd]. rewrite !pick_cons.
  destruct (Rlt_dec u (a + p)); [reflexivity|]. apply (IH (a + p)%R).
Qed.
Lemma pick_In {A} (d : A) u : forall l a, l <> [] -> exists p, In (p, pick d a l u) l.
Proof.
  induction l as [|[p x] l IH]; intros a Hl; [congruence|]. destruct l as [|y l]; [exists p; now left|]. rewrite pick_cons.
  destruct (Rlt_dec u (a + p)); [exists p; now left|]. destruct (IH (a + p)%R ltac:(discriminate)) as [p' Hp]. exists p'. now right.
Qed.
Lemma pick_picks d u g l2 p : forall l1 a, Forall (fun pg => 0 <= fst pg)%R l1 -> (a + Rsuml fst l1 <= u)%R -> (u < a + Rsuml fst l1 + p)%R \/ l2 = [] ->
  pick d a (l1 ++ (p, g) :: l2) u = g :> sgate.
Proof.
  induction l1 as [|[p' g'] l1 IH]; intros a HF H1 H2; cbn [app].
  - change (Rsuml fst (@nil (R * sgate))) with 0%R in H1, H2. destruct l2 as [|y l2]; [reflexivity|]. rewrite pick_cons. destruct H2 as [H2|H2]; [|discriminate].
    destruct (Rlt_dec u (a + p)) as [|Hn]; [reflexivity|]. exfalso. apply Hn. lra.
  - inversion HF as [|? ? Hp HF']; subst. cbn [fst] in Hp. change (Rsuml fst ((p', g') :: l1)) with (p' + Rsuml fst l1)%R in *.
    assert (0 <= Rsuml fst l1)%R by (apply Rsuml_nonneg; intros x Hx; rewrite Forall_forall in HF'; auto).
    assert (E : exists y l, l1 ++ (p, g) :: l2 = y :: l) by (destruct l1; simpl; eauto). destruct E as (y & l & E). rewrite E, pick_cons, <- E.
    destruct (Rlt_dec u (a + p')); [lra|]. apply IH; [assumption|lra|]. destruct H2; [left; lra|now right].
Qed.

(** ** Averages *)
Lemma averaged_mono k : forall (F G : list R -> C -> Prop) v, (forall us v, length us = k -> Forall unit_draw us -> F us v -> G us v) -> averaged k F v -> averaged k G v.
Proof.
  induction k as [|k IH]; intros F G v H HA; cbn [averaged] in *; [apply H; auto|]. destruct HA as (g & H1 & H2). exists g. split; [|exact H2].
  intros u Hu. eapply IH; [|exact (H1 u Hu)]. intros us v' Hl Hus. apply H; [simpl; now rewrite Hl|]. constructor; assumption.
Qed.
Lemma averaged_const k : forall (F : list R -> C -> Prop) v, (forall us, length us = k -> Forall unit_draw us -> F us v) -> averaged k F v.
Proof.
  induction k as [|k IH]; intros F v H; cbn [averaged]; [apply H; auto|]. exists (fun _ => v). split.
  - intros u Hu. apply IH. intros us Hl Hus. apply H; [simpl; now rewrite Hl|]. constructor; assumption.
  - assert (Hc : forall c, mean (fun _ => c) c) by (intros c; pose proof (rint_const c 0 1) as Hi; replace ((1 - 0) * c)%R with c in Hi by ring; exact Hi). split; apply Hc.
Qed.
Lemma averaged_next k F (g : R -> C) v : (forall u, unit_draw u -> averaged k (fun us => F (u :: us)) (g u)) -> cint g 0 1 v -> averaged (S k) F v.
Proof. intros H [H1 H2]. exists g. split; [exact H|]. now split. Qed.
Lemma averaged_unique k : forall (F : list R -> C -> Prop) v v', (forall us v v', Forall unit_draw us -> F us v -> F us v' -> v = v') ->
  averaged k F v -> averaged k F v' -> v = v'.
Proof.
  induction k as [|k IH]; intros F v v' HF H H'; cbn [averaged] in *; [eapply HF; eauto|].
  destruct H as (g & Hg & H1 & H2), H' as (g' & Hg' & H1' & H2').
  assert (E : forall u, (0 < u < 1)%R -> g u = g' u).
  { intros u Hu. apply (IH (fun us => F (u :: us))); [|apply Hg; lra|apply Hg'; lra]. intros us a b Hus. apply HF. constructor; [unfold unit_draw; lra|assumption]. }
  apply C_eq.
  - apply (is_RInt_unique (V := R_CompleteNormedModule)) in H1. apply (is_RInt_unique (V := R_CompleteNormedModule)) in H1'.
    change (Re v = Re v'). rewrite <- H1, <- H1'. apply RInt_ext. intros u Hu. rewrite Rmin_left, Rmax_right in Hu by lra. now rewrite E.
  - apply (is_RInt_unique (V := R_CompleteNormedModule)) in H2. apply (is_RInt_unique (V := R_CompleteNormedModule)) in H2'.
    change (Im v = Im v'). rewrite <- H2, <- H2'. apply RInt_ext. intros u Hu. rewrite Rmin_left, Rmax_right in Hu by lra. now rewrite E.
Qed.
(** sums of averaged *)
Lemma averaged_add k : forall (F G H : list R -> C -> Prop) v w, (forall us a b, length us = k -> Forall unit_draw us -> F us a -> G us b -> H us (a + b)%C) ->
  averaged k F v -> averaged k G w -> averaged k H (v + w)%C.
Proof.
  induction k as [|k IH]; intros F G H v w Hs HF HG; cbn [averaged] in *; [apply Hs; auto|].
  destruct HF as (f & Hf & F1 & F2), HG as (g & Hg & G1 & G2). exists (fun u => (f u + g u)%C). split; [|split].
  - intros u Hu. eapply IH; [|exact (Hf u Hu)|exact (Hg u Hu)]. intros us a b Hl Hus. apply Hs; [simpl; now rewrite Hl|]. constructor; assumption.
  - exact (is_RInt_plus _ _ _ _ _ _ F1 G1).
  - exact (is_RInt_plus _ _ _ _ _ _ F2 G2).
Qed.

Lemma averaged_times k : forall (F H : list R -> C -> Prop) z v, (forall us a, length us = k -> Forall unit_draw us -> F us a -> H us (z * a)%C) ->
  averaged k F v -> averaged k H (z * v)%C.
Proof.
  induction k as [|k IH]; intros F H z v Hs HF; cbn [averaged] in *; [apply Hs; auto|].
  destruct HF as (f & Hf & F1 & F2). exists (fun u => (z * f u)%C). split; [|split].
  - intros u Hu. eapply IH; [|exact (Hf u Hu)]. intros us a Hl Hus. apply Hs; [simpl; now rewrite Hl|]. constructor; assumption.
  - exact (is_RInt_minus _ _ _ _ _ _ (is_RInt_scal _ _ _ (fst z) _ F1) (is_RInt_scal _ _ _ (snd z) _ F2)).
  - exact (is_RInt_plus _ _ _ _ _ _ (is_RInt_scal _ _ _ (fst z) _ F2) (is_RInt_scal _ _ _ (snd z) _ F1)).
Qed.

(** ** Linear and local maps on ensembles *)
Definition eqn (n : N) (s t : ensemble) : Prop := forall r i j, i < 2 ^ n -> j < 2 ^ n -> s r i j = t r i j.
Record lin (n : N) (T : ensemble -> ensemble) : Prop := {
  lin_add : forall s t, T (e_add s t) = e_add (T s) (T t);
  lin_scale : forall a s, T (e_scale a s) = e_scale a (T s);
  lin_eqn : forall s t, eqn n s t -> eqn n (T s) (T t) }.
Definition act_linear (f : state -> state) : Prop := forall a b c x, f (fun y => a y + c * b y)%C x = (f a x + c * f b x)%C.
Definition act_local (n : N) (f : state -> state) : Prop := forall a b, (forall x, x < 2 ^ n -> a x = b x) -> forall x, x < 2 ^ n -> f a x = f b x.
Fixpoint fine (n : N) (g : sgate) : Prop :=
  match g with
  | Act _ f => act_linear f /\ act_local n f
  | Meas q _ _ => q < n
  | Choice l => fold_right (fun pg P => fine n (snd pg) /\ P) True l
  end.
Lemma fine_Choice n l : fine n (Choice l) -> forall pg, In pg l -> fine n (snd pg).
Proof. cbn [fine]. induction l as [|x l IH]; intros H pg; [intros []|]. destruct H as [H1 H2]. intros [<-|Hin]; [exact H1|now apply IH]. Qed.

Lemma e_ext (s t : ensemble) : (forall r i j, s r i j = t r i j) -> s = t.
Proof. intros H. apply functional_extensionality. intros r. apply functional_extensionality. intros i. apply functional_extensionality. intros j. apply H. Qed.
Lemma act_add f a b x : act_linear f -> f (fun y => a y + b y)%C x = (f a x + f b x)%C.
Proof.
  intros H. replace (fun y => a y + b y)%C with (fun y => a y + C1 * b y)%C by (apply functional_extensionality; intros; ring). rewrite H. ring.
Qed.
Lemma act_zero f x : act_linear f -> f (fun _ => C0) x = C0.
Proof.
  intros H. pose proof (H (fun _ => C0) (fun _ => C0) (- C1)%C x) as E. cbn beta in E.
  replace (fun _ : N => C0 + - C1 * C0)%C with (fun _ : N => C0) in E by (apply functional_extensionality; intros; ring). rewrite E at 1. ring.
Qed.
Lemma act_times f c a x : act_linear f -> f (fun y => c * a y)%C x = (c * f a x)%C.
Proof.
  intros H. replace (fun y => c * a y)%C with (fun y => C0 + c * a y)%C by (apply functional_extensionality; intros; ring).
  rewrite (H (fun _ => C0)), act_zero by assumption. ring.
Qed.
Lemma Cscale_C r z : Cscale r z = (RtoC r * z)%C. Proof. Csolve. Qed.
Lemma lin_act n f : act_linear f -> act_local n f -> lin n (fun s r => conjugated f (s r)).
Proof.
  intros Hf Hl. split.
  - intros s t. apply e_ext. intros r i j. unfold conjugated, e_add.
    transitivity (Cconj (f (fun y => Cconj (f (fun x => s r x y) i) + Cconj (f (fun x => t r x y) i))%C j)).
    + f_equal. f_equal. apply functional_extensionality. intros y. rewrite act_add by assumption. apply Cconj_add.
    + rewrite act_add by assumption. apply Cconj_add.
  - intros a s. apply e_ext. intros r i j. unfold conjugated, e_scale.
    transitivity (Cconj (f (fun y => RtoC a * Cconj (f (fun x => s r x y) i))%C j)).
    + f_equal. f_equal. apply functional_extensionality. intros y. replace (fun x => Cscale a (s r x y)) with (fun x => RtoC a * s r x y)%C by (apply functional_extensionality; intros; symmetry; apply Cscale_C).
      rewrite act_times by assumption. Csolve.
    + rewrite act_times by assumption. Csolve.
  - intros s t H r i j Hi Hj. unfold conjugated. f_equal. apply Hl; [|assumption]. intros y Hy. f_equal. apply Hl; [|assumption]. intros x Hx. now apply H.
Qed.
Lemma lxor_side n q (b : bool) x : q < n -> x < 2 ^ n -> N.lxor x (if b then 2 ^ q else 0) < 2 ^ n.
Proof. intros Hq Hx. destruct b; [|now rewrite N.lxor_0_r]. apply lxor_lt_pow2; [assumption|]. apply N.pow_lt_mono_r; lia. Qed.
Lemma lin_meas n q bit reset : q < n -> lin n (measuring q bit reset).
Proof.
  intros Hq. split.
  - intros s t. apply e_ext. intros r i j. unfold measuring, e_add. destruct (nth_error r (N.to_nat bit)); [|ring]. unfold collapsed. destruct (shows_bit _ _ _ && shows_bit _ _ _); ring.
  - intros a s. apply e_ext. intros r i j. unfold measuring, e_scale. destruct (nth_error r (N.to_nat bit)); [|Csolve]. unfold collapsed. destruct (shows_bit _ _ _ && shows_bit _ _ _); Csolve.
  - intros s t H r i j Hi Hj. unfold measuring. destruct (nth_error r (N.to_nat bit)) as [b|]; [|reflexivity]. unfold collapsed.
    destruct (shows_bit _ _ _ && shows_bit _ _ _); [|reflexivity]. f_equal; apply H; now apply lxor_side.
Qed.
Lemma lin_zero n : lin n (fun _ => e_zero).
Proof. split; [intros; apply e_ext; intros; unfold e_zero, e_add; ring|intros; apply e_ext; intros; unfold e_zero, e_scale; Csolve|intros s t _ r i j _ _; reflexivity]. Qed.
Lemma lin_scaled n T a : lin n T -> lin n (fun s => e_scale a (T s)).
Proof.
  intros [H1 H2 H3]. split.
  - intros s t. rewrite H1. apply e_ext. intros. unfold e_scale, e_add. Csolve.
  - intros b s. rewrite H2. apply e_ext. intros. unfold e_scale. Csolve.
  - intros s t H r i j Hi Hj. unfold e_scale. f_equal. now apply H3.
Qed.
Lemma lin_plus n T S : lin n T -> lin n S -> lin n (fun s => e_add (T s) (S s)).
Proof.
  intros [H1 H2 H3] [G1 G2 G3]. split.
  - intros s t. rewrite H1, G1. apply e_ext. intros. unfold e_add. ring.
  - intros b s. rewrite H2, G2. apply e_ext. intros. unfold e_scale, e_add. Csolve.
  - intros s t H r i j Hi Hj. unfold e_add. f_equal; [now apply H3|now apply G3].
Qed.
Lemma lin_compose n T S : lin n T -> lin n S -> lin n (fun s => T (S s)).
Proof.
  intros [H1 H2 H3] [G1 G2 G3]. split.
  - intros s t. now rewrite G1, H1.
  - intros b s. now rewrite G2, H2.
  - intros s t H. now apply H3, G3.
Qed.
Lemma lin_mixture n : forall (l : list (R * (ensemble -> ensemble))) a, (forall pT, In pT l -> lin n (snd pT)) ->
  lin n (fun s => mixture a (map (fun pT => (fst pT, snd pT s)) l)).
Proof.
  induction l as [|[p T] l IH]; intros a H; [apply lin_zero|]. destruct l as [|y l].
  - cbn [map mixture fst snd]. apply lin_scaled. apply (H (p, T)). now left.
  - cbn [map fst snd]. pose proof (lin_plus n _ _ (lin_scaled n T (clip (a + p) - clip a) (H (p, T) (or_introl eq_refl))) (IH (a + p)%R (fun pT Hin => H pT (or_intror Hin)))) as HL.
    exact HL.
Qed.
Lemma lin_channel n g : fine n g -> lin n (channel g).
Proof.
  induction g as [qs f|q b r|l IH] using sgate_ind'; intros H.
  - destruct H as [H1 H2]. exact (lin_act n f H1 H2).
  - exact (lin_meas n q b r H).
  - pose proof (fine_Choice n l H) as Hf. rewrite Forall_forall in IH.
    pose proof (lin_mixture n (map (fun pg => (fst pg, channel (snd pg))) l) 0) as HL. cbn [channel].
    assert (E : (fun s => mixture 0 (map (fun pg : R * sgate => (fst pg, channel (snd pg) s)) l)) =
                (fun s => mixture 0 (map (fun pT : R * (ensemble -> ensemble) => (fst pT, snd pT s)) (map (fun pg => (fst pg, channel (snd pg))) l)))).
    { apply functional_extensionality. intros s. rewrite map_map. reflexivity. }
    change (lin n (fun s => mixture 0 (map (fun pg : R * sgate => (fst pg, channel (snd pg) s)) l))). rewrite E. apply HL.
    intros pT Hin. apply in_map_iff in Hin. destruct Hin as (pg & <- & Hin). apply IH; auto.
Qed.
Lemma lin_part n (p : list bool -> bool) : lin n (fun s r => if p r then s r else fun _ _ => C0).
Proof.
  split.
  - intros s t. apply e_ext. intros r i j. unfold e_add. destruct (p r); ring.
  - intros a s. apply e_ext. intros r i j. unfold e_scale. destruct (p r); Csolve.
  - intros s t H r i j Hi Hj. destruct (p r); [now apply H|reflexivity].
Qed.
Lemma lin_conditioned n c T : lin n T -> lin n (conditioned c T).
Proof.
  intros HT. pose proof (lin_plus n _ _ (lin_compose n T _ HT (lin_part n (fun r => match holds c r with Ok true => true | _ => false end)))
                                  (lin_part n (fun r => match holds c r with Ok false => true | _ => false end))) as H.
  assert (E : conditioned c T = (fun s => e_add (T (fun r => if (match holds c r with Ok true => true | _ => false end) then s r else fun _ _ => C0))
                                          (fun r => if (match holds c r with Ok false => true | _ => false end) then s r else fun _ _ => C0))).
  { apply functional_extensionality. intros s. unfold conditioned. f_equal; [f_equal|]; apply functional_extensionality; intros r; destruct (holds c r) as [[]| |]; reflexivity. }
  rewrite E. exact H.
Qed.
Lemma lin_channels n l : Forall (fun gc => fine n (fst gc)) l -> lin n (channels l).
Proof.
  induction l as [|[g c] l IH]; intros HF; [split; auto; intros s t H; exact H|]. inversion HF; subst. cbn [channels].
  apply (lin_compose n (channels l)); [now apply IH|]. now apply lin_conditioned, lin_channel.
Qed.
