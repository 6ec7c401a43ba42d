(** Parametric gates, and lists of gates. *)
From Verif Require Export CircuitProofs2.
From Coq Require Import ZifyBool ZifyN ZifyNat Permutation Lra.

Definition pgate_at (g : pgate) (v : R) : egate :=
  match g with
  | PRot _ k b pcoef => EStd (rot_std k (pcoef * v)) b
  | PPauliRotation _ b p pcoef => EPauliRotation b p (pcoef * v)
  | PProb _ _ _ => EI
  end.
Lemma make_param_at vf k g v : make_param vf k = Ok g -> make vf (pcall_at k v) = Ok (pgate_at g v) /\ match g with PProb _ _ _ => False | _ => True end.
Proof.
  intros H. destruct k as [k t pc cs vs|p pc cs vs]; cbn [make_param pcall_at make] in *; inv_bind H; inv_bind H; destruct v1 as [[t' c] cv].
  - inv_bind H. injection H as <-. cbn [bindR]. try rewrite E. cbn [bindR]. unfold create. rewrite E0. cbn [bindR]. rewrite E1. split; [reflexivity|exact I].
  - inv_bind H. injection H as <-. cbn [bindR]. try rewrite E. cbn [bindR]. unfold create. rewrite E0. cbn [bindR]. rewrite E1. split; [reflexivity|exact I].
Qed.
Lemma p_inverse_at g g' : p_inverse g = Ok g' -> match g with PProb _ _ _ => False | _ => True end ->
  match g, g' with
  | PRot _ k b c, PRot _ k' b' c' => k' = k /\ b' = b /\ c' = (- c)%R
  | PPauliRotation _ b p c, PPauliRotation _ b' p' c' => b' = b /\ p' = p /\ c' = (- c)%R
  | _, _ => False
  end.
Proof. destruct g; cbn [p_inverse]; intros H Hg; try contradiction; injection H as <-; auto. Qed.
Lemma pcall_typed_at k v : pcall_typed k -> call_typed (pcall_at k v).
Proof. destruct k; exact (fun x => x). Qed.
(** the gate object of a parametric gate that is not probabilistic acts like its call *)
Lemma pacts_at g s v : pstands (inr g) s -> match g with PProb _ _ _ => False | _ => True end -> acts (pgate_at g v) (s v).
Proof.
  intros H Hg. inversion H as [|vf k g0 Hty Hm E1 E2|vf k g0 g1 Hty Hm Hi E1 E2|]; subst; [| |contradiction].
  - eapply acts_factory; [now apply pcall_typed_at|exact (proj1 (make_param_at vf k g v Hm))].
  - destruct (make_param_at vf k g0 (- v) Hm) as [Hm' Hp]. pose proof (p_inverse_at g0 g Hi Hp) as Hrel.
    replace (pgate_at g v) with (pgate_at g0 (- v)).
    2: { destruct g0, g; try contradiction; destruct Hrel as (-> & -> & ->); cbn [pgate_at];
           (replace (pcoef * - v)%R with (- pcoef * v)%R by ring); reflexivity. }
    replace (act_of (pcall_at (pcall_opposite k) v)) with (act_of (pcall_at k (- v))).
    2: { destruct k; cbn [pcall_opposite pcall_at]; (replace (pcoef * - v)%R with (- pcoef * v)%R by ring); reflexivity. }
    eapply acts_factory; [|exact Hm']. now apply pcall_typed_at.
Qed.
Lemma pstands_choice_inv t d gs s : pstands (inr (PProb t d gs)) s -> exists ss, distribution_ok d /\ length d = length gs /\ Forall2 pstands gs ss /\
  s = (fun v => Choice (combine d (map (fun s => s v) ss))).
Proof.
  intros H. inversion H as [|vf k g0 Hty Hm E1 E2|vf k g0 g1 Hty Hm Hi E1 E2|? ? ? ss Hd Hl H2]; subst.
  - destruct (make_param_at vf k _ 0 Hm) as [_ []].
  - destruct (make_param_at vf k _ 0 Hm) as [_ Hp]. pose proof (p_inverse_at _ _ Hi Hp) as Hrel. destruct g0; contradiction.
  - exists ss. auto.
Qed.
Lemma elem_as_plan n L g p w Q : update_plan n (2 ^ n) L g = Ok p -> runs (elem_update n L g) w Q -> runs (hplan (2 ^ n) p) w Q.
Proof.
  unfold elem_update. intros -> [H1 [o (o1 & H2 & H3)]]. cbn [hlift] in *. split.
  - intros o' Ho'. apply H1. exists (HDone p w). split; [reflexivity|exact Ho'].
  - exists o. rewrite H2 in H3. exact H3.
Qed.
Lemma pgate_refines n L : n < 64 -> lanes_ok L -> forall g s v, pstands (inr g) s -> Forall (fun q => q < n) (operands (s v)) ->
  refines n (pgate_update n L g v) (s v) (pstays g).
Proof.
  intros Hn HL g. induction g as [t k b c|t b p c|t d gs IH] using pgate_ind'; intros s v H HF.
  - pose proof (pacts_at _ _ v H I) as Ha. cbn [pgate_at] in Ha. pose proof (elem_refines n L true _ _ Hn HL Ha HF) as Hr. exact Hr.
  - pose proof (pacts_at _ _ v H I) as Ha. cbn [pgate_at] in Ha. pose proof (elem_refines n L true _ _ Hn HL Ha HF) as Hr.
    intros w st Hs Hu Ho. cbn [pgate_update]. destruct (acts_spec _ _ Ha) as (qs & f & E & Hw & Hop & Hsem). rewrite E in HF. destruct (Hsem n Hn HF) as [Hfit _].
    assert (Hb : within_bounds n b = true) by (apply (within_bounds_iff n b Hn); exact Hfit). rewrite Hb. cbn [hcheck].
    eapply returns_bind; [apply runs_ret; reflexivity|]. unfold hkernel. eapply (elem_as_plan n L (EPauliRotation b p (c * v))); [reflexivity|].
    exact (Hr w st Hs Hu Ho).
  - apply pstands_choice_inv in H. destruct H as (ss & Hd & Hl & H2 & ->). pose proof (Forall2_len _ _ _ H2) as Hl2. cbn [pgate_update].
    apply choice_refines; [assumption|rewrite map_length; congruence|now rewrite !map_length|].
    intros i p s Hp Hs. rewrite nth_error_map in Hp, Hs. destruct (nth_error gs i) as [g|] eqn:Eg; [|discriminate].
    destruct (nth_error ss i) as [s0|] eqn:Es; [|discriminate]. injection Hp as <-. injection Hs as <-.
    assert (Hin : In g gs) by (eapply nth_error_In; eassumption).
    assert (HF' : Forall (fun q => q < n) (operands (s0 v))).
    { apply Forall_forall. intros q Hq. rewrite Forall_forall in HF. apply HF.
      assert (Hl3 : length d = length (map (fun s => s v) ss)) by (rewrite map_length; congruence).
      refine (nth_combine_operands d _ i (s0 v) Hl3 _ q Hq). now rewrite nth_error_map, Es. }
    pose proof (Forall2_nth_error _ _ _ H2 i g s0 Eg Es) as Hst. rewrite Forall_forall in IH. specialize (IH g Hin).
    destruct g as [g|g].
    + inversion Hst; subst. apply (refines_weaken n _ _ (cstays g)); [|now apply cgate_refines].
      cbn [pstays]. intros Hall. rewrite forallb_forall in Hall. exact (Hall _ Hin).
    + apply (refines_weaken n _ _ (pstays g)); [|now apply IH].
      cbn [pstays]. intros Hall. rewrite forallb_forall in Hall. exact (Hall _ Hin).
Qed.

(** ** Operand masks *)
Lemma fold_lor_testbit {T} (f : T -> N) l : forall m i, N.testbit (fold_left (fun m x => N.lor m (f x)) l m) i = N.testbit m i || existsb (fun x => N.testbit (f x) i) l.
Proof. induction l as [|x l IH]; intros m i; simpl; [now rewrite orb_false_r|]. now rewrite IH, N.lor_spec, orb_assoc. Qed.
Lemma in_combine_operands dist ss i : length dist = length ss -> In i (operands (Choice (combine dist ss))) <-> exists s, In s ss /\ In i (operands s).
Proof.
  intros Hl. cbn [operands]. rewrite in_flat_map. split.
  - intros ([p s] & H1 & H2). exists s. split; [eapply in_combine_r; eassumption|exact H2].
  - intros (s & H1 & H2). apply In_nth_error in H1. destruct H1 as [k Hk].
    pose proof (nth_combine_operands dist ss k s Hl Hk i H2) as H. cbn [operands] in H. now apply in_flat_map in H.
Qed.
Lemma Forall2_exists {A B} (R : A -> B -> Prop) (P : A -> Prop) (Q : B -> Prop) l l' : Forall2 R l l' -> (forall x y, In x l -> R x y -> (P x <-> Q y)) ->
  ((exists x, In x l /\ P x) <-> exists y, In y l' /\ Q y).
Proof.
  induction 1 as [|a b l l' H HF IH]; intros Hpq; [split; intros (x & [] & _)|]. split.
  - intros (x & [<-|Hx] & Px); [exists b; split; [now left|apply (Hpq a b); auto; now left]|].
    destruct (proj1 (IH (fun x y Hx => Hpq x y (or_intror Hx))) (ex_intro _ x (conj Hx Px))) as (y & Hy & Qy). exists y. split; [now right|exact Qy].
  - intros (x & [<-|Hx] & Px); [exists a; split; [now left|apply (Hpq a b); auto; now left]|].
    destruct (proj2 (IH (fun x y Hx => Hpq x y (or_intror Hx))) (ex_intro _ x (conj Hx Px))) as (y & Hy & Qy). exists y. split; [now right|exact Qy].
Qed.
Lemma stands_mask g sg : stands g sg -> forall i, N.testbit (operand_mask g) i = true <-> In i (operands sg).
Proof.
  revert sg. induction g as [[t g]|t b r|t d gs IH] using cgate_ind'; intros sg H i.
  - inversion H as [? ? ? Ha|? ? ? ? Hm|]; subst; [|apply measurement_mask in Hm; destruct Hm; discriminate].
    destruct (acts_spec g sg Ha) as (qs & f & -> & _ & Ho & _). apply Ho.
  - inversion H as [|q bit reset ? Hm|]; subst. apply measurement_mask in Hm. destruct Hm as [_ [= -> _ _]]. cbn. rewrite N.pow2_bits_eqb. split.
    + intros E. left. lia.
    + intros [E|[]]. lia.
  - inversion H as [|? ? ? ? Hm|? ? ? ss Hd Hl H2]; subst; [apply measurement_mask in Hm; destruct Hm; discriminate|].
    pose proof (Forall2_len _ _ _ H2) as Hl2. rewrite in_combine_operands by congruence. cbn [operand_mask]. rewrite fold_lor_testbit, N.bits_0. cbn [orb].
    rewrite existsb_exists. rewrite Forall_forall in IH. apply (Forall2_exists stands); [exact H2|]. intros x y Hx Hxy. now apply IH.
Qed.
Lemma pstands_mask g s v : pstands (inr g) s -> forall i, N.testbit (poperand_mask g) i = true <-> In i (operands (s v)).
Proof.
  revert s. induction g as [t k b c|t b p c|t d gs IH] using pgate_ind'; intros s H i.
  - pose proof (pacts_at _ _ v H I) as Ha. destruct (acts_spec _ _ Ha) as (qs & f & -> & _ & Ho & _). apply Ho.
  - pose proof (pacts_at _ _ v H I) as Ha. destruct (acts_spec _ _ Ha) as (qs & f & -> & _ & Ho & _). apply Ho.
  - apply pstands_choice_inv in H. destruct H as (ss & Hd & Hl & H2 & ->). pose proof (Forall2_len _ _ _ H2) as Hl2. rewrite in_combine_operands by (rewrite map_length; congruence).
    cbn [poperand_mask]. rewrite (fold_lor_testbit (fun g => match g with inl g => operand_mask g | inr g => poperand_mask g end)), N.bits_0. cbn [orb].
    rewrite existsb_exists. rewrite Forall_forall in IH.
    rewrite (Forall2_exists pstands _ (fun s => In i (operands (s v))) gs ss H2).
    + split; intros (s & H3 & H4); [exists (s v); split; [apply in_map_iff; eauto|assumption]|].
      apply in_map_iff in H3. destruct H3 as (s0 & <- & H3). eauto.
    + intros [g|g] y Hx Hxy; [inversion Hxy; subst; now apply stands_mask|now apply (IH _ Hx)].
Qed.
Lemma pstands_operands g s v v' i : pstands (inr g) s -> In i (operands (s v)) <-> In i (operands (s v')).
Proof. intros H. rewrite <- (pstands_mask g s v H), <- (pstands_mask g s v' H). reflexivity. Qed.
