(** C61: the pool of generators. *)
From Verif Require Export HaarSpec.
From Verif Require Import StateProofs4 GroundProofs2 DensityProofs8.
From Coq Require Import ZifyBool ZifyN ZifyNat Lia Classical_Prop.
Open Scope N_scope.

Definition holds (ph : phase) : option nat :=
  match ph with Todo | Freed => None | Got g | Half g _ | Full g _ | Wrote g => Some g end.
Definition left_over (ph : phase) : nat :=
  match ph with Todo => 5 | Got _ => 4 | Half _ _ => 3 | Full _ _ => 2 | Wrote _ => 1 | Freed => 0 end.

Section Pool.
  Variables (gens : nat) (draw : nat -> nat -> R) (imf : bool) (D : N).
  Notation step := (fill_step gens draw imf D).
  Definition value (a : nat * nat) : C := pair_up imf (draw (fst a) (2 * snd a)%nat) (draw (fst a) (S (2 * snd a))).

  Definition fine (from : N -> nat * nat) (p : pool) (i : N) : Prop :=
    let g := fst (from i) in let k := snd (from i) in
    match p_at p i with
    | Todo => True
    | Got g' => g' = g /\ p_used p g = (2 * k)%nat
    | Half g' v => g' = g /\ p_used p g = S (2 * k) /\ v = draw g (2 * k)%nat
    | Full g' c => g' = g /\ p_used p g = S (S (2 * k)) /\ c = value (from i)
    | Wrote g' => g' = g /\ p_used p g = S (S (2 * k)) /\ p_raw p i = value (from i)
    | Freed => (S (S (2 * k)) <= p_used p g)%nat /\ p_raw p i = value (from i)
    end.
  Record Inv (from : N -> nat * nat) (p : pool) : Prop := {
    i_gen : forall i, i < D -> p_at p i <> Todo -> (fst (from i) < gens)%nat;
    i_fine : forall i, i < D -> fine from p i;
    i_inj : forall i j, i < D -> j < D -> p_at p i <> Todo -> p_at p j <> Todo -> from i = from j -> i = j;
    i_one : forall i j g, i < D -> j < D -> holds (p_at p i) = Some g -> holds (p_at p j) = Some g -> i = j;
    i_busy : forall i g, i < D -> holds (p_at p i) = Some g -> p_busy p g = true;
    i_holder : forall g, p_busy p g = true -> exists i, i < D /\ holds (p_at p i) = Some g;
    i_even : forall g, p_busy p g = false -> exists k, p_used p g = (2 * k)%nat;
    i_gap : forall g k, (2 * k < p_used p g)%nat -> exists i, i < D /\ p_at p i <> Todo /\ from i = (g, k)
  }.
  Lemma fine_frame from p q j : p_at q j = p_at p j -> p_raw q j = p_raw p j ->
    (forall g, holds (p_at p j) = Some g -> p_used q g = p_used p g) -> (forall g, (p_used p g <= p_used q g)%nat) ->
    fine from p j -> fine from q j.
  Proof.
    unfold fine. intros -> -> Hu Hm. destruct (p_at p j) as [|g|g v|g c|g|]; cbn [holds] in Hu; auto;
      try (intros (-> & H); rewrite (Hu _ eq_refl); auto).
    intros (H1 & H2). split; [|exact H2]. specialize (Hm (fst (from j))). lia.
  Qed.
  Lemma fine_from from from' p j : from j = from' j -> fine from p j -> fine from' p j.
  Proof. unfold fine. intros ->. auto. Qed.
  Lemma inv_start junk : Inv (fun _ => (0, 0)%nat) (fill_start junk).
  Proof.
    constructor; cbn; try discriminate; intros; try congruence; try lia.
    exists 0%nat. lia.
  Qed.

  (** a step of iteration i that keeps the generator *)
  Lemma inv_keep from p q i g ph :
    i < D -> Inv from p -> holds (p_at p i) = Some g -> holds ph = Some g -> p_at q = set_phase i ph (p_at p) ->
    p_busy q = p_busy p -> (forall h, h <> g -> p_used q h = p_used p h) -> (p_used p g <= p_used q g)%nat ->
    (forall j, j <> i -> p_raw q j = p_raw p j) -> fine from q i ->
    (forall k, (2 * k < p_used q g)%nat -> (2 * k < p_used p g)%nat \/ from i = (g, k)) ->
    Inv from q.
  Proof.
    intros Hi I Hh Hph Ea Eb Eu Em Er Hf Hg. destruct I as [I1 I2 I3 I4 I5 I6 I7 I8].
    assert (Hb : p_busy p g = true) by (eapply I5; eauto).
    assert (Hnt : p_at p i <> Todo) by (intros E; rewrite E in Hh; discriminate).
    assert (Hst : forall j, p_at q j <> Todo <-> p_at p j <> Todo).
    { intros j. rewrite Ea. unfold set_phase, upd. destruct (N.eqb_spec j i) as [->|]; [|tauto]. split; auto. intros _ E. rewrite E in Hph. discriminate. }
    assert (Hhol : forall j, holds (p_at q j) = holds (p_at p j)).
    { intros j. rewrite Ea. unfold set_phase, upd. destruct (N.eqb_spec j i) as [->|]; congruence. }
    constructor.
    - intros j Hj H. apply I1; [exact Hj|now apply Hst].
    - intros j Hj. destruct (N.eq_dec j i) as [->|Hne]; [exact Hf|].
      apply (fine_frame from p); auto.
      + rewrite Ea. unfold set_phase, upd. destruct (N.eqb_spec j i); congruence.
      + intros h Hh'. apply Eu. intros ->. apply Hne. eapply I4; eauto.
      + intros h. destruct (Nat.eq_dec h g) as [->|Hn]; [exact Em|now rewrite Eu].
    - intros j l Hj Hl H1 H2. apply I3; auto; now apply Hst.
    - intros j l h Hj Hl. rewrite !Hhol. now apply I4.
    - intros j h Hj. rewrite Hhol, Eb. now apply I5.
    - intros h. rewrite Eb. intros H. destruct (I6 h H) as (j & Hj & E). exists j. now rewrite Hhol.
    - intros h. rewrite Eb. intros H. destruct (Nat.eq_dec h g) as [->|Hn]; [congruence|]. rewrite Eu by exact Hn. now apply I7.
    - intros h k H. destruct (Nat.eq_dec h g) as [->|Hn].
      + destruct (Hg k H) as [H'|H'].
        * destruct (I8 g k H') as (j & Hj & Ht & E). exists j. rewrite Hst. auto.
        * exists i. rewrite Hst. auto.
      + rewrite Eu in H by exact Hn. destruct (I8 h k H) as (j & Hj & Ht & E). exists j. rewrite Hst. auto.
  Qed.

  Lemma inv_step from p q : Inv from p -> step p q -> exists from', Inv from' q.
  Proof.
    intros I S. destruct S as [i g p Hi Ep Hg Hb|i g p Hi Ep|i g v p Hi Ep|i g c p Hi Ep|i g p Hi Ep].
    - (* get_state *)
      destruct (i_even _ _ I g Hb) as (k & Hk). destruct I as [I1 I2 I3 I4 I5 I6 I7 I8].
      assert (Hno : forall j, j < D -> holds (p_at p j) <> Some g) by (intros j Hj E; specialize (I5 j g Hj E); congruence).
      assert (Hk' : forall j, j < D -> p_at p j <> Todo -> from j <> (g, k)).
      { intros j Hj Hn E. specialize (I2 j Hj). specialize (Hno j Hj). unfold fine in I2. rewrite E in I2. cbn [fst snd] in I2.
        destruct (p_at p j); cbn [holds] in Hno; try congruence; destruct I2; try congruence. lia. }
      set (from' := upd N.eqb from i (g, k)).
      assert (F : forall j, j <> i -> from' j = from j) by (intros j Hj; unfold from', upd; destruct (N.eqb_spec j i); congruence).
      assert (Fi : from' i = (g, k)) by (unfold from', upd; now rewrite N.eqb_refl).
      exists from'.
      assert (At : forall j, set_phase i (Got g) (p_at p) j = if j =? i then Got g else p_at p j) by reflexivity.
      constructor; cbn [p_at p_used p_busy p_raw].
      + intros j Hj. rewrite At. destruct (N.eqb_spec j i) as [->|Hn]; [rewrite Fi; auto|]. rewrite F by exact Hn. now apply I1.
      + intros j Hj. destruct (N.eq_dec j i) as [->|Hn].
        * unfold fine. cbn [p_at p_used]. rewrite At, N.eqb_refl, Fi. cbn [fst snd]. auto.
        * apply (fine_from from); [symmetry; now apply F|]. apply (fine_frame from p); auto. cbn [p_at]. rewrite At. destruct (N.eqb_spec j i); congruence.
      + intros j l Hj Hl. rewrite !At. destruct (N.eqb_spec j i) as [->|Hn]; destruct (N.eqb_spec l i) as [->|Hm]; auto; intros H1 H2 E.
        * rewrite Fi, F in E by exact Hm. exfalso. eapply Hk'; [exact Hl|exact H2|now symmetry].
        * rewrite Fi, F in E by exact Hn. exfalso. eapply Hk'; [exact Hj|exact H1|exact E].
        * rewrite !F in E by assumption. now apply I3.
      + intros j l h Hj Hl. rewrite !At. destruct (N.eqb_spec j i) as [->|Hn]; destruct (N.eqb_spec l i) as [->|Hm]; auto; cbn [holds].
        * intros [= <-] H. now apply Hno in H.
        * intros H [= <-]. now apply Hno in H.
        * now apply I4.
      + intros j h Hj. rewrite At. unfold upd. destruct (N.eqb_spec j i) as [->|Hn]; cbn [holds].
        * intros [= <-]. now rewrite Nat.eqb_refl.
        * intros H. destruct (Nat.eqb_spec h g); [reflexivity|]. eapply I5; eauto.
      + intros h. unfold upd. destruct (Nat.eqb_spec h g) as [->|Hn]; intros H.
        * exists i. rewrite At, N.eqb_refl. auto.
        * destruct (I6 h H) as (j & Hj & E). exists j. rewrite At. destruct (N.eqb_spec j i) as [->|]; auto. rewrite Ep in E. discriminate.
      + intros h. unfold upd. destruct (Nat.eqb_spec h g); [discriminate|apply I7].
      + intros h l H. destruct (I8 h l H) as (j & Hj & Hn & E). exists j. rewrite At.
        destruct (N.eqb_spec j i) as [->|Hm]; [congruence|]. rewrite F by exact Hm. auto.
    - (* first draw *)
      pose proof (i_fine _ _ I i Hi) as Hf. unfold fine in Hf. rewrite Ep in Hf. destruct Hf as (-> & Hu).
      exists from. apply (inv_keep from p _ i (fst (from i)) (Half (fst (from i)) (draw (fst (from i)) (p_used p (fst (from i)))))); cbn [p_at p_used p_busy p_raw]; auto.
      + now rewrite Ep.
      + intros h Hh. unfold upd. destruct (Nat.eqb_spec h (fst (from i))); congruence.
      + unfold upd. rewrite Nat.eqb_refl. lia.
      + unfold fine. cbn [p_at p_used]. unfold set_phase, upd. rewrite N.eqb_refl, Nat.eqb_refl, Hu. auto.
      + intros k. unfold upd. rewrite Nat.eqb_refl, Hu. intros H. destruct (Nat.eq_dec k (snd (from i))) as [->|]; [right; now destruct (from i)|left; lia].
    - pose proof (i_fine _ _ I i Hi) as Hf. unfold fine in Hf. rewrite Ep in Hf. destruct Hf as (-> & Hu & ->).
      exists from. eapply (inv_keep from p _ i (fst (from i))); cbn [p_at p_used p_busy p_raw]; auto.
      + now rewrite Ep.
      + cbn [holds]. reflexivity.
      + intros h Hh. unfold upd. destruct (Nat.eqb_spec h (fst (from i))); congruence.
      + unfold upd. rewrite Nat.eqb_refl. lia.
      + unfold fine. cbn [p_at p_used]. unfold set_phase, upd. rewrite N.eqb_refl, Nat.eqb_refl, Hu. auto.
      + intros k. unfold upd. rewrite Nat.eqb_refl, Hu. intros H. left. lia.
    - pose proof (i_fine _ _ I i Hi) as Hf. unfold fine in Hf. rewrite Ep in Hf. destruct Hf as (-> & Hu & ->).
      exists from. eapply (inv_keep from p _ i (fst (from i))); cbn [p_at p_used p_busy p_raw]; auto.
      + now rewrite Ep.
      + cbn [holds]. reflexivity.
      + intros j Hj. unfold upd. destruct (N.eqb_spec j i); congruence.
      + unfold fine. cbn [p_at p_used p_raw]. unfold set_phase, upd. rewrite N.eqb_refl. auto.
    - (* free_state *)
      pose proof (i_fine _ _ I i Hi) as Hf. unfold fine in Hf. rewrite Ep in Hf. destruct Hf as (-> & Hu & Hr).
      set (g := fst (from i)) in *. destruct I as [I1 I2 I3 I4 I5 I6 I7 I8]. exists from.
      assert (Hgi : holds (p_at p i) = Some g) by (now rewrite Ep).
      assert (At : forall j, set_phase i Freed (p_at p) j = if j =? i then Freed else p_at p j) by reflexivity.
      assert (Hnt : p_at p i <> Todo) by congruence.
      constructor; cbn [p_at p_used p_busy p_raw].
      + intros j Hj. rewrite At. destruct (N.eqb_spec j i) as [->|]; intros; apply I1; auto.
      + intros j Hj. destruct (N.eq_dec j i) as [->|Hn].
        * unfold fine. cbn [p_at p_used p_raw]. rewrite At, N.eqb_refl. fold g. split; [lia|exact Hr].
        * apply (fine_frame from p); auto. cbn [p_at]. rewrite At. destruct (N.eqb_spec j i); congruence.
      + intros j l Hj Hl. rewrite !At. intros H1 H2. apply I3; auto.
        * destruct (N.eqb_spec j i) as [->|]; auto.
        * destruct (N.eqb_spec l i) as [->|]; auto.
      + intros j l h Hj Hl. rewrite !At. destruct (N.eqb_spec j i); destruct (N.eqb_spec l i); cbn [holds]; try discriminate. now apply I4.
      + intros j h Hj. rewrite At. unfold upd. destruct (N.eqb_spec j i) as [->|Hn]; cbn [holds]; [discriminate|]. intros H.
        destruct (Nat.eqb_spec h g) as [->|]; [|eapply I5; eauto]. exfalso. apply Hn. eapply I4; eauto.
      + intros h. unfold upd. destruct (Nat.eqb_spec h g) as [->|Hn]; [discriminate|]. intros H.
        destruct (I6 h H) as (j & Hj & E). exists j. rewrite At. destruct (N.eqb_spec j i) as [->|]; auto. congruence.
      + intros h. unfold upd. destruct (Nat.eqb_spec h g) as [->|Hn]; [|apply I7]. intros _. exists (S (snd (from i))). lia.
      + intros h k H. destruct (I8 h k H) as (j & Hj & Hn & E). exists j. rewrite At. destruct (N.eqb_spec j i) as [->|]; auto. split; auto. split; [discriminate|exact E].
  Qed.
  Lemma inv_exec k p q : fill_exec gens draw imf D k p q -> forall from, Inv from p -> exists from', Inv from' q.
  Proof.
    induction 1 as [p|k p q r _ IH S]; intros from I; [eauto|]. destruct (IH from I) as (f & If). now apply (inv_step f q).
  Qed.
  Lemma inv_drawn from p : Inv from p -> fill_done D p -> drawn_from gens draw imf D (p_raw p).
  Proof.
    intros I Hd. exists from.
    assert (Hn : forall x, x < D -> p_at p x <> Todo) by (intros x Hx; rewrite (Hd x Hx); discriminate).
    assert (Hf : forall x, x < D -> (S (S (2 * snd (from x))) <= p_used p (fst (from x)))%nat /\ p_raw p x = value (from x)).
    { intros x Hx. pose proof (i_fine _ _ I x Hx) as H. unfold fine in H. now rewrite (Hd x Hx) in H. }
    split; [|split; [|split]].
    - intros x Hx. apply (i_gen _ _ I); auto.
    - intros x y Hx Hy. apply (i_inj _ _ I); auto.
    - intros x k Hx Hk. destruct (i_gap _ _ I (fst (from x)) k) as (y & Hy & _ & E); [destruct (Hf x Hx); lia|]. exists y. auto.
    - intros x Hx. destruct (Hf x Hx) as (_ & ->). reflexivity.
  Qed.

  (** *** Progress *)
  Definition work (p : pool) : nat := fold_right (fun i s => (left_over (p_at p i) + s)%nat) 0%nat (seqN D).
  Lemma work_change p q i : i < D -> p_at q = set_phase i (p_at q i) (p_at p) -> left_over (p_at p i) = S (left_over (p_at q i)) ->
    work p = S (work q).
  Proof.
    intros Hi E Hl. unfold work.
    assert (G : forall l, NoDup l ->
      (~ In i l -> fold_right (fun i s => (left_over (p_at p i) + s)%nat) 0%nat l = fold_right (fun i s => (left_over (p_at q i) + s)%nat) 0%nat l) /\
      (In i l -> fold_right (fun i s => (left_over (p_at p i) + s)%nat) 0%nat l = S (fold_right (fun i s => (left_over (p_at q i) + s)%nat) 0%nat l))).
    { assert (Eo : forall j, j <> i -> p_at q j = p_at p j) by (intros j Hj; rewrite E; unfold set_phase, upd; destruct (N.eqb_spec j i); congruence).
      induction 1 as [|x l Hx Hn [IH1 IH2]]; [split; [reflexivity|intros []]|]. cbn [fold_right In]. split.
      - intros H. rewrite IH1 by tauto. rewrite Eo; [reflexivity|]. intros ->. tauto.
      - intros [->|H].
        + rewrite IH1 by exact Hx. lia.
        + rewrite IH2 by exact H. rewrite (Eo x); [lia|]. intros ->. tauto. }
    apply (proj2 (G (seqN D) (NoDup_seqN D))). now apply in_seqN.
  Qed.
  Lemma step_work p q : step p q -> work p = S (work q).
  Proof.
    intros [i g p' Hi Ep Hg Hb|i g p' Hi Ep|i g v p' Hi Ep|i g c p' Hi Ep|i g p' Hi Ep]; apply (work_change p' _ i Hi); cbn [p_at];
      unfold set_phase, upd; rewrite N.eqb_refl; try reflexivity; rewrite Ep; reflexivity.
  Qed.
  Lemma exec_work k p q : fill_exec gens draw imf D k p q -> work p = (k + work q)%nat.
  Proof. induction 1 as [|k p q r _ IH S]; [reflexivity|]. rewrite IH, (step_work q r S). lia. Qed.
  Lemma work_start junk : work (fill_start junk) = (5 * N.to_nat D)%nat.
  Proof.
    unfold work, fill_start. cbn [p_at left_over].
    assert (G : forall l : list N, fold_right (fun _ s => (5 + s)%nat) 0%nat l = (5 * length l)%nat) by (induction l; cbn [fold_right length]; lia).
    rewrite G. now rewrite length_seqN.
  Qed.
  Lemma progress from p : (0 < gens)%nat -> Inv from p -> ~ fill_done D p -> exists q, step p q.
  Proof.
    intros Hg I Hd.
    assert (Hx : forall i g, i < D -> holds (p_at p i) = Some g -> exists q, step p q).
    { intros i g Hi H. destruct (p_at p i) as [|h|h v|h c|h|] eqn:E; cbn [holds] in H; try discriminate; eexists.
      - now apply (s_first _ _ _ _ i h).
      - now apply (s_second _ _ _ _ i h v).
      - now apply (s_store _ _ _ _ i h c).
      - now apply (s_free _ _ _ _ i h). }
    destruct (p_busy p 0%nat) eqn:Eb.
    - destruct (i_holder _ _ I 0%nat Eb) as (i & Hi & H). now apply (Hx i 0%nat).
    - assert (exists i, i < D /\ p_at p i <> Freed) as (i & Hi & Hn).
      { destruct (forallb (fun i => match p_at p i with Freed => true | _ => false end) (seqN D)) eqn:E.
        - exfalso. apply Hd. intros i Hi. rewrite forallb_forall in E. specialize (E i (proj2 (in_seqN i D) Hi)). now destruct (p_at p i).
        - assert (Hex : existsb (fun i => negb match p_at p i with Freed => true | _ => false end) (seqN D) = true).
          { revert E. generalize (seqN D). induction l as [|x l IH]; [discriminate|]. cbn [forallb existsb]. destruct (p_at p x); auto. }
          apply existsb_exists in Hex. destruct Hex as (i & Hi & H). exists i. split; [now apply in_seqN|]. intros Ef. rewrite Ef in H. discriminate. }
      destruct (holds (p_at p i)) as [g|] eqn:Eh; [now apply (Hx i g)|]. destruct (p_at p i) eqn:E; try discriminate; [|congruence].
      eexists. apply (s_get _ _ _ _ i 0%nat); auto.
  Qed.
  Lemma exec_trans k p q l r : fill_exec gens draw imf D k p q -> fill_exec gens draw imf D l q r -> fill_exec gens draw imf D (l + k) p r.
  Proof. intros H1 H2. induction H2 as [|l q r s _ IH S]; [exact H1|]. cbn [Nat.add]. eapply e_step; [apply IH; exact H1|exact S]. Qed.
  Lemma can_finish from p : (0 < gens)%nat -> Inv from p -> exists k q, fill_exec gens draw imf D k p q /\ fill_done D q.
  Proof.
    intros Hg. remember (work p) as m eqn:Em. revert from p Em. induction m as [m IH] using lt_wf_ind. intros from p -> I.
    destruct (Classical_Prop.classic (fill_done D p)) as [Hd|Hd]; [exists 0%nat, p; split; [constructor|exact Hd]|].
    destruct (progress from p Hg I Hd) as (q & S). destruct (inv_step from p q I S) as (f' & I').
    destruct (IH (work q)) with (from := f') (p := q) as (k & r & E & Hr); auto; [rewrite (step_work p q S); lia|].
    exists (k + 1)%nat, r. split; [|exact Hr]. eapply exec_trans; [|exact E]. eapply e_step; [constructor|exact S].
  Qed.

  Lemma fill_terminates junk k p : (0 < gens)%nat -> fill_exec gens draw imf D k (fill_start junk) p ->
    (k <= 5 * N.to_nat D)%nat /\ (fill_done D p \/ exists q, step p q).
  Proof.
    intros Hg E. split.
    - pose proof (exec_work _ _ _ E) as H. rewrite work_start in H. lia.
    - destruct (Classical_Prop.classic (fill_done D p)) as [Hd|Hd]; [now left|right].
      destruct (inv_exec _ _ _ E _ (inv_start junk)) as (f & I). eapply progress; eauto.
  Qed.
  Definition fill_result (w w' : world) : Prop :=
    drawn_from gens draw imf D (w_amp w') /\ w_home w' = w_home w /\ w_reg w' = w_reg w /\ w_rand w' = w_rand w.
  Lemma fill_ok w : (0 < gens)%nat -> runs (haar_fill gens draw imf D) w (done (fun _ w' => fill_result w w')).
  Proof.
    intros Hg. split.
    - intros o (k & p & E & Hd & ->). cbn [done]. split; [|auto]. cbn [w_amp set_amp].
      destruct (inv_exec _ _ _ E _ (inv_start (w_amp w))) as (f & I). now apply (inv_drawn f).
    - destruct (can_finish _ _ Hg (inv_start (w_amp w))) as (k & q & E & Hq). eexists. exists k, q. split; [exact E|]. split; [exact Hq|reflexivity].
  Qed.
End Pool.
