From Verif Require Import SamplingMeanSpec ChannelProofs StateProofs2 NoiseMeanProofs.
From Coq Require Import Lia Lra FunctionalExtensionality.
Local Open Scope N_scope.

Lemma averaged_app a : forall b (F : list R -> C -> Prop) v,
  averaged a (fun us => averaged b (fun ws => F (us ++ ws))) v -> averaged (a + b) F v.
Proof.
  induction a as [|a IH]; intros b F v H; cbn [averaged Nat.add app] in *; [exact H|].
  destruct H as (g & H1 & H2). exists g. split; [|exact H2]. intros u Hu. apply IH. exact (H1 u Hu).
Qed.

Lemma Csuml_scale {T} a (f : T -> C) l : Csuml (fun t => Cscale a (f t)) l = Cscale a (Csuml f l).
Proof. rewrite scale_mul, <- Csuml_mul_l. apply Csuml_ext. intros t _. apply scale_mul. Qed.
Section Rounds.
  Context {K : Type} (keqb : K -> K -> bool) (Hkeq : forall a b, reflect (a = b) (keqb a b)) (n : N) (pick : K -> R -> N)
          (w : K -> N -> R) (r : K -> R).
  Local Notation D := (2 ^ n).
  Local Notation upd := (upd keqb).
  Hypothesis Hpick : forall k (g : N -> C), cint (fun u => g (pick k u)) 0 1 (one_outcome n (w k) g + Cscale (r k) (g D))%C.

  Lemma upd_comm (m : K -> N) a x b y : a <> b -> upd (upd m a x) b y = upd (upd m b y) a x.
  Proof.
    intros H. apply functional_extensionality. intros c. unfold Par.upd. destruct (Hkeq c a) as [Ea|], (Hkeq c b) as [Eb|]; congruence.
  Qed.

  (** one round *)
  Fixpoint stepE (todo : list K) (res : K -> N) (G : list K -> (K -> N) -> C) : C :=
    match todo with
    | [] => G [] res
    | s :: rest => (one_outcome n (w s) (fun x => stepE rest (upd res s x) G) + Cscale (r s) (stepE rest res (fun nx => G (s :: nx))))%C
    end.
  Lemma step_avg todo : forall i res G (draw : list R -> N -> R), (forall us j, (j < length todo)%nat -> draw us (i + N.of_nat j) = nth j us 0%R) ->
    averaged (length todo) (fun us v => v = let '(nx, rs) := sampling_store n keqb pick (draw us) i todo res in G nx rs) (stepE todo res G).
  Proof.
    induction todo as [|s todo IH]; intros i res G draw Hd; cbn [length stepE sampling_store]; [reflexivity|].
    apply (averaged_next _ _ (fun u => (fun x => if x =? D then stepE todo res (fun nx => G (s :: nx)) else stepE todo (upd res s x) G) (pick s u))).
    - intros u Hu. cbv beta.
      assert (E0 : forall us, draw (u :: us) i = u).
      { intros us. specialize (Hd (u :: us) 0%nat ltac:(simpl; lia)). now rewrite N.add_0_r in Hd. }
      destruct (pick s u =? D) eqn:E.
      + eapply averaged_mono; [|apply (IH (i + 1) res (fun nx => G (s :: nx)) (fun us => draw (u :: us)))].
        * intros us v _ _ ->. rewrite E0, E. now destruct (sampling_store _ _ _ _ _ todo res).
        * intros us j Hj. specialize (Hd (u :: us) (Datatypes.S j) ltac:(simpl; lia)). now replace (i + 1 + N.of_nat j) with (i + N.of_nat (Datatypes.S j)) by lia.
      + eapply averaged_mono; [|apply (IH (i + 1) (upd res s (pick s u)) G (fun us => draw (u :: us)))].
        * intros us v _ _ ->. rewrite E0, E. reflexivity.
        * intros us j Hj. specialize (Hd (u :: us) (Datatypes.S j) ltac:(simpl; lia)). now replace (i + 1 + N.of_nat j) with (i + N.of_nat (Datatypes.S j)) by lia.
    - set (h := fun x => if x =? D then stepE todo res (fun nx => G (s :: nx)) else stepE todo (upd res s x) G).
      replace (one_outcome n (w s) (fun x => stepE todo (upd res s x) G)) with (one_outcome n (w s) h).
      + pose proof (Hpick s h) as Hp. unfold h at 3 in Hp. rewrite N.eqb_refl in Hp. exact Hp.
      + apply Csuml_ext. intros x Hx. apply in_seqN in Hx. unfold h. destruct (N.eqb_spec x D); [lia|reflexivity].
  Qed.
  Lemma stepE_linear {T} (c : T -> R) (l : list T) todo : forall res (G : T -> list K -> (K -> N) -> C),
    stepE todo res (fun nx rs => Csuml (fun t => Cscale (c t) (G t nx rs)) l) = Csuml (fun t => Cscale (c t) (stepE todo res (G t))) l.
  Proof.
    induction todo as [|s todo IH]; intros res G; cbn [stepE]; [reflexivity|]. unfold one_outcome.
    rewrite (IH res (fun t nx => G t (s :: nx))).
    rewrite (Csuml_ext _ (fun x => Csuml (fun t => Cscale (c t) (Cscale (w s x) (stepE todo (upd res s x) (G t)))) l)).
    2: { intros x _. rewrite IH, <- Csuml_scale. apply Csuml_ext. intros t _. Csolve. }
    rewrite Csuml_swap, <- Csuml_scale, <- Csuml_add. apply Csuml_ext. intros t _. rewrite Csuml_scale. Csolve.
  Qed.
  Lemma stepE_upd s x todo : ~ In s todo -> forall res (G : list K -> (K -> N) -> C),
    stepE todo res (fun nx rs => G nx (upd rs s x)) = stepE todo (upd res s x) G.
  Proof.
    induction todo as [|t todo IH]; intros Hs res G; cbn [stepE]; [reflexivity|].
    assert (Ht : t <> s) by (intros ->; apply Hs; now left). assert (Hs' : ~ In s todo) by (intros H; apply Hs; now right).
    rewrite (IH Hs' res (fun nx => G (t :: nx))). f_equal. apply Csuml_ext. intros y _. rewrite (IH Hs'). now rewrite upd_comm.
  Qed.

  Lemma store_ext d d' todo : forall i res, (forall j, (j < length todo)%nat -> d (i + N.of_nat j) = d' (i + N.of_nat j)) ->
    sampling_store n keqb pick d i todo res = sampling_store n keqb pick d' i todo res.
  Proof.
    induction todo as [|s todo IH]; intros i res H; cbn [sampling_store]; [reflexivity|].
    assert (E0 : d i = d' i) by (specialize (H 0%nat ltac:(simpl; lia)); now rewrite N.add_0_r in H). rewrite E0.
    assert (IH' : forall res, sampling_store n keqb pick d (i + 1) todo res = sampling_store n keqb pick d' (i + 1) todo res).
    { intros rs. apply IH. intros j Hj. specialize (H (Datatypes.S j) ltac:(simpl; lia)). now replace (i + 1 + N.of_nat j) with (i + N.of_nat (Datatypes.S j)) by lia. }
    now rewrite !IH'.
  Qed.

  (** m rounds *)
  Fixpoint geo (m : nat) (x : R) : R := match m with O => 0%R | S m => (1 + x * geo m x)%R end.
  Fixpoint fullE (m : nat) (todo : list K) (res : K -> N) (F : (K -> N) -> C) : C :=
    match todo with
    | [] => F res
    | s :: rest => one_outcome n (fun x => w s x * geo m (r s))%R (fun x => fullE m rest (upd res s x) F)
    end.
  Lemma step_full m F todo : NoDup todo -> forall res, stepE todo res (fun nx rs => fullE m nx rs F) = fullE (S m) todo res F.
  Proof.
    induction todo as [|s todo IH]; intros Hnd res; cbn [stepE fullE]; [reflexivity|]. inversion Hnd as [|? ? Hs Hnd']; subst.
    unfold one_outcome at 2. rewrite (stepE_linear (fun x => w s x * geo m (r s))%R (seqN D) todo res (fun x nx rs => fullE m nx (upd rs s x) F)).
    unfold one_outcome. cbn [geo].
    rewrite (Csuml_ext (fun x => Cscale (w s x) _) (fun x => Cscale (w s x) (fullE (S m) todo (upd res s x) F))) by (intros x _; now rewrite IH).
    rewrite (Csuml_ext (fun x => Cscale (w s x * geo m (r s)) _) (fun x => Cscale (w s x * geo m (r s)) (fullE (S m) todo (upd res s x) F)))
      by (intros x _; now rewrite (stepE_upd s x todo Hs res (fun nx rs => fullE m nx rs F)), IH).
    rewrite <- Csuml_scale, <- Csuml_add. apply Csuml_ext. intros x _. Csolve.
  Qed.
  Lemma full_avg m count F : forall todo res, NoDup todo -> (length todo <= count)%nat ->
    averaged (m * count) (fun us v => v = if_done F (sampling_loop n keqb pick (rounds_of m count us) todo res)) (fullE m todo res F).
  Proof.
    induction m as [|m IH]; intros todo res Hnd Hl.
    - cbn [Nat.mul averaged rounds_of sampling_loop]. destruct todo as [|s todo]; cbn [fullE if_done]; [reflexivity|]. unfold one_outcome. cbn [geo].
      apply Csuml_zero. intros x. Csolve.
    - cbn [Nat.mul]. destruct todo as [|t todo'] eqn:Et.
      { apply averaged_const. intros us _ _. reflexivity. }
      rewrite <- Et in *. assert (Hne : forall A (a b : A), match todo with [] => a | _ => b end = b) by (intros A a b; now rewrite Et). clear Et.
      replace (count + m * count)%nat with (length todo + ((count - length todo) + m * count))%nat by lia.
      apply averaged_app. rewrite <- step_full by assumption.
      eapply averaged_mono; [|apply (step_avg todo 0 res (fun nx rs => fullE m nx rs F) (fun us i => nth (N.to_nat i) us 0%R))].
      + intros us v Hus _ ->. apply averaged_app. 
        destruct (sampling_store n keqb pick (fun i => nth (N.to_nat i) us 0%R) 0 todo res) as [nx rs] eqn:Es.
        apply averaged_const. intros vs Hvs _.
        assert (Hnx : NoDup nx /\ (length nx <= count)%nat).
        { destruct (sampling_store_spec keqb Hkeq n pick _ _ _ _ _ _ Hnd Es) as (H1 & H2 & _). split; [exact H2|].
          pose proof (NoDup_incl_length H2 H1). lia. }
        eapply averaged_mono; [|apply (IH nx rs); apply Hnx]. intros ws v _ _ ->. cbn [rounds_of sampling_loop].
        rewrite Hne. rewrite (app_assoc us vs ws).
        assert (Hc : length (us ++ vs) = count) by (rewrite app_length; lia).
        rewrite firstn_app, skipn_app, Hc, Nat.sub_diag, firstn_O, app_nil_r.
        rewrite firstn_all2, skipn_all2 by lia. cbn [app skipn].
        rewrite (store_ext _ (fun i => nth (N.to_nat i) us 0%R)), Es; [reflexivity|].
        intros j Hj. rewrite app_nth1; [reflexivity|]. lia.
      + intros us j _. f_equal. lia.
  Qed.
  Lemma jointly_ext {T} (Es : list ((T -> C) -> C)) : (forall E, In E Es -> forall f g, (forall x, f x = g x) -> E f = E g) -> forall V W, (forall l, V l = W l) -> jointly Es V = jointly Es W.
  Proof.
    induction Es as [|E Es IH]; intros HE V W H; cbn [jointly]; [apply H|]. apply HE; [now left|]. intros x. apply IH; [intros E' HE'; apply HE; now right|]. intros l. apply H.
  Qed.
  (** the samples are independent *)
  Lemma full_joint m F todo : forall ready res, NoDup (ready ++ todo) ->
    fullE m todo res (fun rs => F (map rs (ready ++ todo))) =
    jointly (map (fun s => one_outcome n (fun x => w s x * geo m (r s))%R) todo) (fun xs => F (map res ready ++ xs)).
  Proof.
    induction todo as [|s todo IH]; intros ready res Hnd; cbn [fullE jointly map]; [now rewrite app_nil_r, app_nil_r|].
    apply Csuml_ext. intros x _. f_equal.
    specialize (IH (ready ++ [s]) (upd res s x)). rewrite <- app_assoc in IH. cbn [app] in IH. rewrite (IH Hnd). clear IH.
    apply jointly_ext.
    - intros E HE f g H. apply in_map_iff in HE as (t & <- & _). apply Csuml_ext. intros y _. now rewrite H.
    - intros l. rewrite map_app, <- app_assoc. cbn [map app]. unfold Par.upd at 2. destruct (Hkeq s s); [|congruence]. f_equal. f_equal.
      apply map_ext_in. intros t Ht. unfold Par.upd. destruct (Hkeq t s) as [->|]; [|reflexivity].
      exfalso. apply NoDup_remove_2 in Hnd. apply Hnd. apply in_or_app. now left.
  Qed.
  Lemma loop_mean m count F todo res0 : NoDup todo -> (length todo <= count)%nat ->
    averaged (m * count) (fun us v => v = if_done (fun rs => F (map rs todo)) (sampling_loop n keqb pick (rounds_of m count us) todo res0))
      (jointly (map (fun s => one_outcome n (fun x => w s x * geo m (r s))%R) todo) F).
  Proof.
    intros Hnd Hl. pose proof (full_avg m count (fun rs => F (map rs todo)) todo res0 Hnd Hl) as H.
    pose proof (full_joint m F todo [] res0 Hnd) as J. cbn [app map] in J. rewrite J in H. exact H.
  Qed.
End Rounds.

(** * One search *)
Definition share (psi : state) (x : N) : R := (clip (cumulative psi (x + 1)) - clip (cumulative psi x))%R.
Lemma choose_mean n psi (g : N -> C) :
  cint (fun u => g (choose n psi u)) 0 1 (one_outcome n (share psi) g + Cscale (1 - clip (sqnorm n psi)) (g (2 ^ n)))%C.
Proof.
  assert (H0 : clip 0 = 0%R) by (unfold clip; rewrite Rmin_right, Rmax_left by lra; reflexivity).
  apply (cint_join _ 0 (clip (sqnorm n psi))).
  - assert (H : forall k, k <= 2 ^ n -> cint (fun u => g (choose n psi u)) 0 (clip (cumulative psi k)) (Csuml (fun x => Cscale (share psi x) (g x)) (seqN k))).
    { induction k as [|k IH] using N.peano_ind; intros Hk.
      - rewrite cumulative_0, H0. replace (Csuml (fun x => Cscale (share psi x) (g x)) (seqN 0)) with (Cscale (0 - 0) C0) by (change (seqN 0) with (@nil N); cbn [Csuml fold_right map]; Csolve). apply cint_piece; [lra|]. intros u Hu. lra.
      - rewrite <- N.add_1_r in *. rewrite N.add_1_r, seqN_succ, Csuml_app, <- N.add_1_r.
        eapply cint_join; [apply IH; lia|]. replace (Csuml (fun x => Cscale (share psi x) (g x)) [k]) with (Cscale (share psi k) (g k)) by (cbn; Csolve).
        apply cint_piece; [apply clip_mono, cumulative_mono; lia|]. intros u Hu. f_equal.
        pose proof (clip_bounds (cumulative psi k)) as B1. pose proof (clip_bounds (cumulative psi (k + 1))) as B2.
        assert (P : (0 <= cumulative psi (k + 1))%R) by (rewrite <- (cumulative_0 psi); apply cumulative_mono; lia).
        pose proof (clip_under _ u P ltac:(lra)) as U1. pose proof (clip_over (cumulative psi k) u ltac:(lra)) as U2.
        destruct (choose_spec n psi u ltac:(lra)) as [[E1 E2]|[E1 E2]].
        + apply (selects_unique psi u); [exact E2|]. split; lra.
        + exfalso. pose proof (cumulative_mono psi (k + 1) (2 ^ n) Hk). unfold sqnorm in E2. unfold cumulative in *. lra. }
    exact (H (2 ^ n) ltac:(lia)).
  - apply cint_piece; [apply clip_bounds|]. intros u Hu. f_equal. pose proof (clip_bounds (sqnorm n psi)).
    pose proof (clip_over (sqnorm n psi) u ltac:(lra)) as U.
    destruct (choose_spec n psi u ltac:(lra)) as [[E1 E2]|[E1 E2]]; [|exact E1]. exfalso. destruct E2 as [_ E2].
    pose proof (cumulative_mono psi (choose n psi u + 1) (2 ^ n) ltac:(lia)). apply U. unfold sqnorm. unfold cumulative in *. lra.
Qed.
Lemma clip_id x : (0 <= x <= 1)%R -> clip x = x.
Proof. intros H. unfold clip. rewrite Rmin_right, Rmax_right by lra. reflexivity. Qed.
Lemma share_born n psi x : (sqnorm n psi <= 1)%R -> x < 2 ^ n -> share psi x = Cnorm2 (psi x).
Proof.
  intros H Hx. unfold share. pose proof (cumulative_mono psi 0 x ltac:(lia)) as H0. rewrite cumulative_0 in H0.
  pose proof (cumulative_mono psi x (x + 1) ltac:(lia)) as H1. pose proof (cumulative_mono psi (x + 1) (2 ^ n) ltac:(lia)) as H2.
  assert (H3 : (cumulative psi (2 ^ n) <= 1)%R) by exact H.
  rewrite !clip_id by lra. rewrite cumulative_succ. lra.
Qed.
Lemma sqnorm_nonneg n psi : (0 <= sqnorm n psi)%R.
Proof. pose proof (cumulative_mono psi 0 (2 ^ n) ltac:(lia)) as H0. rewrite cumulative_0 in H0. exact H0. Qed.

(** * What the geometric series amounts to *)
Lemma geo_spec m x : ((1 - x) * geo m x = 1 - x ^ m)%R.
Proof. induction m as [|m IH]; cbn [geo pow]; [ring|]. replace ((1 - x) * (1 + x * geo m x))%R with ((1 - x) + x * ((1 - x) * geo m x))%R by ring. rewrite IH. ring. Qed.
Lemma geo_share n psi m x : (0 < sqnorm n psi <= 1)%R -> x < 2 ^ n ->
  (share psi x * geo m (1 - clip (sqnorm n psi)) = (1 - (1 - sqnorm n psi) ^ m) * (Cnorm2 (psi x) / sqnorm n psi))%R.
Proof.
  intros H Hx. rewrite (share_born n) by (try lra; assumption). rewrite clip_id by lra. pose proof (geo_spec m (1 - sqnorm n psi)) as E.
  replace (1 - (1 - sqnorm n psi))%R with (sqnorm n psi) in E by ring. rewrite <- E. field. lra.
Qed.
Lemma one_outcome_scale n (a : R) p V : one_outcome n (fun x => a * p x)%R V = Cscale a (one_outcome n p V).
Proof. unfold one_outcome. rewrite <- Csuml_scale. apply Csuml_ext. intros x _. Csolve. Qed.
Lemma one_outcome_ext n p q V W : (forall x, x < 2 ^ n -> p x = q x /\ V x = W x) -> one_outcome n p V = one_outcome n q W.
Proof. intros H. apply Csuml_ext. intros x Hx. apply in_seqN in Hx. destruct (H x Hx) as [-> ->]. reflexivity. Qed.
