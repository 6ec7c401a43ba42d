(** C32, C45: the construction of probabilistic gates. *)
From Verif Require Export CircuitProofs6.
From Coq Require Import ZifyBool ZifyN ZifyNat Permutation Lra.

(** ** Flattening *)
Definition weighted {G} (F : G -> R) (l : list (R * G)) : R := Rsuml (fun pg => (fst pg * F (snd pg))%R) l.
Lemma weighted_app {G} (F : G -> R) a b : weighted F (a ++ b) = (weighted F a + weighted F b)%R.
Proof. apply Rsuml_app. Qed.
(** [go] of flatten_probabilistic_gate *)
Fixpoint flatten_zip (p : R) (ds : list R) (gs : list cgate) : res (list (R * cgate)) :=
  match ds, gs with
  | d :: ds', g :: gs' => l <- flatten_probabilistic_gate (p * d) g ;; r <- flatten_zip p ds' gs' ;; Ok (l ++ r)
  | [], _ => Ok []
  | _ :: _, [] => UB
  end.
Lemma flatten_known p d gs : flatten_probabilistic_gate p (CProb true d gs) = flatten_zip p d gs.
Proof.
  cbn [flatten_probabilistic_gate]. revert d. induction gs as [|g gs IH]; intros [|x d]; try reflexivity. cbn [flatten_zip]. now rewrite <- IH.
Qed.
Lemma zip_sum (F : cgate -> R) : forall d gs, Rsuml (fun dg => (fst dg * snd dg)%R) (combine d (map F gs)) = Rsuml (fun dg => (fst dg * F (snd dg))%R) (combine d gs).
Proof. induction d as [|x d IH]; intros [|g gs]; simpl; auto. unfold Rsuml in *. simpl. now rewrite IH. Qed.
Lemma flatten_weighted (F : cgate -> R) :
  (forall d gs, F (CProb true d gs) = Rsuml (fun dg => (fst dg * snd dg)%R) (combine d (map F gs))) ->
  forall g p l, flatten_probabilistic_gate p g = Ok l -> weighted F l = (p * F g)%R.
Proof.
  intros HF. assert (Hleaf : forall p g, weighted F [(p, g)] = (p * F g)%R) by (intros; unfold weighted, Rsuml; simpl; ring).
  induction g as [[t g]|t b r|t d gs IH] using cgate_ind'; intros p l H.
  - injection H as <-. apply Hleaf.
  - discriminate.
  - destruct t; [|injection H as <-; apply Hleaf]. rewrite flatten_known in H. rewrite HF, zip_sum. revert d l H.
    induction gs as [|g gs IHgs]; intros [|x d] l H; cbn [flatten_zip] in H; try discriminate; try (injection H as <-; unfold weighted, Rsuml; simpl; ring).
    inv_bind H. inv_bind H. injection H as <-. inversion IH; subst. rewrite weighted_app. cbn [combine Rsuml fold_right fst snd].
    erewrite H1 by eassumption. erewrite IHgs by eassumption. unfold Rsuml. ring.
Qed.
Lemma flatten_all_weighted (F : cgate -> R) :
  (forall d gs, F (CProb true d gs) = Rsuml (fun dg => (fst dg * snd dg)%R) (combine d (map F gs))) ->
  forall dist gs l, flatten_all flatten_probabilistic_gate dist gs = Ok l -> weighted F l = Rsuml (fun dg => (fst dg * F (snd dg))%R) (combine dist gs).
Proof.
  intros HF. induction dist as [|d dist IH]; intros [|g gs] l H; cbn [flatten_all] in H; try (injection H as <-; reflexivity).
  inv_bind H. inv_bind H. injection H as <-. rewrite weighted_app. rewrite (flatten_weighted F HF _ _ _ E), (IH _ _ E0). reflexivity.
Qed.
Lemma flatten_ok g s p : stands g s -> (0 <= p)%R -> has_measurement g = false ->
  exists l, flatten_probabilistic_gate p g = Ok l /\ l <> [] /\ Forall (fun pg => 0 <= fst pg /\ exists s, stands (snd pg) s)%R l.
Proof.
  revert s p. induction g as [[t g]|t b r|t d gs IH] using cgate_ind'; intros s p H Hp Hm.
  - eexists. split; [reflexivity|]. split; [discriminate|]. constructor; [|constructor]. simpl. eauto.
  - discriminate.
  - destruct t.
    2: { eexists. split; [reflexivity|]. split; [discriminate|]. constructor; [|constructor]. simpl. eauto. }
    rewrite flatten_known. inversion H as [|? ? ? ? Hme|? ? ? ss Hd Hl H2]; subst; [apply measurement_mask in Hme; destruct Hme; discriminate|].
    destruct Hd as (Hne & Hpos & _). cbn [has_measurement] in Hm.
    assert (G : exists l, flatten_zip p d gs = Ok l /\ (d <> [] -> l <> []) /\ Forall (fun pg => 0 <= fst pg /\ exists s, stands (snd pg) s)%R l).
    { clear H Hne. revert d ss Hl Hpos H2 Hm. induction gs as [|g gs IHgs]; intros [|x d] ss Hl Hpos H2 Hm; simpl in Hl; try discriminate.
      - exists []. split; [reflexivity|]. split; [congruence|constructor].
      - inversion H2 as [|? s0 ? ss' Hs0 H2']; subst. inversion IH as [|? ? IH1 IH2]; subst. inversion Hpos as [|? ? Hx Hpos']; subst.
        cbn [existsb] in Hm. apply orb_false_iff in Hm. destruct Hm as [Hm1 Hm2].
        destruct (IH1 s0 (p * x)%R Hs0 (Rmult_le_pos _ _ Hp Hx) Hm1) as (l1 & E1 & N1 & F1).
        destruct (IHgs IH2 d ss' ltac:(lia) Hpos' H2' Hm2) as (l2 & E2 & _ & F2).
        exists (l1 ++ l2). cbn [flatten_zip]. rewrite E1. cbn [bindR]. rewrite E2. split; [reflexivity|]. split; [|now apply Forall_app].
        intros _ E. apply app_eq_nil in E. tauto. }
    destruct G as (l & E & N & F). exists l. split; [exact E|]. split; [apply N, Hne|exact F].
Qed.
Lemma flatten_total g s : stands g s -> has_measurement g = false -> forall p, exists l, flatten_probabilistic_gate p g = Ok l.
Proof.
  revert s. induction g as [[t g]|t b r|t d gs IH] using cgate_ind'; intros s0 Hs0 Eg q; try discriminate; [eexists; reflexivity|].
  destruct t; [|eexists; reflexivity]. rewrite flatten_known.
  inversion Hs0 as [|? ? ? ? Hme|? ? ? ss Hd Hl H2]; subst; [apply measurement_mask in Hme; destruct Hme; discriminate|]. cbn [has_measurement] in Eg.
  clear Hs0 Hd. revert d ss Hl H2 Eg. induction gs as [|g gs IHgs]; intros [|y d] ss Hl H2 Eg; simpl in Hl; try discriminate; [eexists; reflexivity|].
  inversion H2 as [|? s1 ? ss' Hs1 H2']; subst. inversion IH as [|? ? IH1 IH2]; subst. cbn [existsb] in Eg. apply orb_false_iff in Eg. destruct Eg as [Eg1 Eg2].
  destruct (IH1 _ Hs1 Eg1 (q * y)%R) as [l1 E1]. destruct (IHgs IH2 d ss' ltac:(lia) H2' Eg2) as [l2 E2].
  cbn [flatten_zip]. rewrite E1. cbn [bindR]. rewrite E2. eexists; reflexivity.
Qed.
Lemma flatten_throws g s p : stands g s -> has_measurement g = true -> flatten_probabilistic_gate p g = Throw.
Proof.
  revert s p. induction g as [[t g]|t b r|t d gs IH] using cgate_ind'; intros s p H Hm; try discriminate; [reflexivity|].
  destruct t; [|discriminate]. rewrite flatten_known. inversion H as [|? ? ? ? Hme|? ? ? ss Hd Hl H2]; subst; [apply measurement_mask in Hme; destruct Hme; discriminate|].
  cbn [has_measurement] in Hm. clear H Hd. revert d ss Hl H2 Hm.
  induction gs as [|g gs IHgs]; intros [|x d] ss Hl H2 Hm; simpl in Hl; try discriminate.
  inversion H2 as [|? s0 ? ss' Hs0 H2']; subst. inversion IH as [|? ? IH1 IH2]; subst. cbn [flatten_zip].
  cbn [existsb] in Hm. destruct (has_measurement g) eqn:Eg; [now rewrite (IH1 s0 _ Hs0 eq_refl)|].
  destruct (flatten_total g s0 Hs0 Eg (p * x)) as [l ->]. cbn [bindR]. rewrite (IHgs IH2 d ss' ltac:(lia) H2' Hm). reflexivity.
Qed.

(** ** The factory *)
Lemma flatten_all_ok dist : forall gs ss, Forall2 stands gs ss -> length dist = length gs -> Forall (fun p => 0 <= p)%R dist -> existsb has_measurement gs = false ->
  exists l, flatten_all flatten_probabilistic_gate dist gs = Ok l /\ (dist <> [] -> l <> []) /\ Forall (fun pg => 0 <= fst pg /\ exists s, stands (snd pg) s)%R l.
Proof.
  induction dist as [|d dist IH]; intros gs ss H2 Hl Hp Hm; destruct gs as [|g gs]; simpl in Hl; try discriminate.
  - exists []. split; [reflexivity|]. split; [congruence|constructor].
  - inversion H2 as [|? s0 ? ss' Hs0 H2']; subst. inversion Hp as [|? ? Hd Hp']; subst. cbn [existsb] in Hm. apply orb_false_iff in Hm. destruct Hm as [Hm1 Hm2].
    destruct (flatten_ok g s0 d Hs0 Hd Hm1) as (l1 & E1 & N1 & F1). destruct (IH gs ss' H2' ltac:(lia) Hp' Hm2) as (l2 & E2 & _ & F2).
    exists (l1 ++ l2). cbn [flatten_all]. rewrite E1. cbn [bindR]. rewrite E2. split; [reflexivity|]. split; [|now apply Forall_app].
    intros _ E. apply app_eq_nil in E. tauto.
Qed.
Lemma flatten_all_throws dist : forall gs ss, Forall2 stands gs ss -> length dist = length gs -> existsb has_measurement gs = true ->
  flatten_all flatten_probabilistic_gate dist gs = Throw.
Proof.
  induction dist as [|d dist IH]; intros gs ss H2 Hl Hm; destruct gs as [|g gs]; simpl in Hl; try discriminate.
  inversion H2 as [|? s0 ? ss' Hs0 H2']; subst. cbn [existsb] in Hm. cbn [flatten_all]. destruct (has_measurement g) eqn:Eg; [now rewrite (flatten_throws g s0 d Hs0 Eg)|].
  destruct (flatten_total g s0 Hs0 Eg d) as [l ->]. cbn [bindR]. now rewrite (IH gs ss' H2' ltac:(lia) Hm).
Qed.
Lemma last_partial_sums l : forall acc, last (acc :: partial_sums acc l) 0%R = (acc + Rsuml (fun p => p) l)%R.
Proof.
  induction l as [|d l IH]; intros acc; [simpl; lra|]. change (last (acc :: partial_sums acc (d :: l)) 0%R) with (last ((acc + d)%R :: partial_sums (acc + d) l) 0%R).
  rewrite IH. unfold Rsuml. simpl. lra.
Qed.
Lemma sum_is_one_iff dist : sum_is_one (cumulative_distribution dist) = true <-> (Rabs (Rsuml (fun p => p) dist - 1) <= / 10 ^ 6)%R.
Proof.
  unfold sum_is_one, cumulative_distribution. rewrite last_partial_sums, Rplus_0_l. destruct (Rlt_dec _ _); split; intros; auto; [discriminate|lra|lra].
Qed.
Lemma in_unit_iff p : in_unit p = true <-> (0 <= p <= 1)%R.
Proof. unfold in_unit. destruct (Rlt_dec p 0); [split; [discriminate|lra]|]. destruct (Rlt_dec 1 p); split; auto; try discriminate; lra. Qed.
Lemma weighted_one {G} (l : list (R * G)) : weighted (fun _ => 1%R) l = Rsuml (fun p => p) (map fst l).
Proof. unfold weighted. rewrite Rsuml_map. apply Rsuml_ext. intros. ring. Qed.
Lemma mass_flat g : (match g with CProb true _ _ => False | _ => True end) -> mass g = 1%R.
Proof. destruct g as [[t g]|t b r|[|] d gs]; tauto. Qed.
Lemma flat_leaves : forall g p l, flatten_probabilistic_gate p g = Ok l -> Forall (fun pg => match snd pg with CProb true _ _ => False | _ => True end) l.
Proof.
  induction g as [[t g]|t b r|t d gs IH] using cgate_ind'; intros p l H.
  - injection H as <-. repeat constructor.
  - discriminate.
  - destruct t; [|injection H as <-; repeat constructor]. rewrite flatten_known in H. revert d l H.
    induction gs as [|g gs IHgs]; intros [|x d] l H; cbn [flatten_zip] in H; try discriminate; try (injection H as <-; constructor).
    inv_bind H. inv_bind H. injection H as <-. inversion IH as [|? ? IH1 IH2]; subst. apply Forall_app. split; [eapply IH1; eassumption|eapply IHgs; eassumption].
Qed.
Lemma flat_all_leaves dist : forall gs l, flatten_all flatten_probabilistic_gate dist gs = Ok l -> Forall (fun pg => match snd pg with CProb true _ _ => False | _ => True end) l.
Proof.
  induction dist as [|d dist IH]; intros [|g gs] l H; cbn [flatten_all] in H; try (injection H as <-; constructor).
  inv_bind H. inv_bind H. injection H as <-. apply Forall_app. split; [eapply flat_leaves; eassumption|eapply IH; eassumption].
Qed.
Lemma flat_sum dist gs l : flatten_all flatten_probabilistic_gate dist gs = Ok l ->
  Rsuml (fun p => p) (map fst l) = Rsuml (fun dg => (fst dg * mass (snd dg))%R) (combine dist gs).
Proof.
  intros H. rewrite <- (flatten_all_weighted mass (fun d gs => eq_refl) _ _ _ H). rewrite Rsuml_map. unfold weighted. apply Rsuml_ext.
  intros x Hx. pose proof (flat_all_leaves _ _ _ H) as HL. rewrite Forall_forall in HL. rewrite (mass_flat _ (HL x Hx)). ring.
Qed.
Lemma forallb_unit dist : forallb in_unit dist = true <-> Forall (fun p => 0 <= p <= 1)%R dist.
Proof. rewrite forallb_forall, Forall_forall. split; intros H x Hx; apply in_unit_iff; auto. Qed.
Theorem factory_accepts dist gs ss : Forall2 stands gs ss ->
  (acceptable dist gs -> exists g s, make_probabilistic dist gs = Ok g /\ stands g s) /\
  (~ acceptable dist gs -> make_probabilistic dist gs = Throw).
Proof.
  intros H2. unfold make_probabilistic, probabilistic_impl. split.
  - intros (Hne & Hl & Hu & Hm & Hs). destruct dist as [|d dist]; [congruence|]. set (D := d :: dist) in *.
    replace (length D =? 0)%nat with false by reflexivity. rewrite Hl, Nat.eqb_refl. cbn [negb]. rewrite (proj2 (forallb_unit D) Hu). cbn [negb].
    assert (Hp : Forall (fun p => 0 <= p)%R D) by (eapply Forall_impl; [|exact Hu]; simpl; intros; lra).
    destruct (flatten_all_ok D gs ss H2 Hl Hp Hm) as (l & E & Hnl & HF). rewrite E. cbn [bindR].
    assert (Hsum : (Rabs (Rsuml (fun p => p) (map fst l) - 1) <= / 10 ^ 6)%R) by (rewrite (flat_sum _ _ _ E); exact Hs).
    rewrite (proj2 (sum_is_one_iff (map fst l)) Hsum). cbn [bindR fst snd].
    assert (Hss : exists ss, Forall2 stands (map snd l) ss).
    { clear - HF. induction HF as [|x l [_ [s Hs]] _ [ss IH]]; [exists []; constructor|exists (s :: ss); now constructor]. }
    destruct Hss as [ss' Hss]. eexists _, _. split; [reflexivity|]. apply (stands_choice true (map fst l) (map snd l) ss'); [|now rewrite !map_length|exact Hss].
    split; [destruct l; [now specialize (Hnl ltac:(discriminate))|discriminate]|]. split; [|exact Hsum].
    apply Forall_map. eapply Forall_impl; [|exact HF]. simpl. tauto.
  - intros Hno. destruct (Nat.eqb_spec (length dist) 0) as [|Hne]; [reflexivity|]. destruct (Nat.eqb_spec (length dist) (length gs)) as [Hl|]; [|reflexivity]. cbn [negb].
    destruct (forallb in_unit dist) eqn:Eu; [|reflexivity]. cbn [negb]. apply forallb_unit in Eu.
    destruct (existsb has_measurement gs) eqn:Em; [now rewrite (flatten_all_throws dist gs ss H2 Hl Em)|].
    assert (Hp : Forall (fun p => 0 <= p)%R dist) by (eapply Forall_impl; [|exact Eu]; simpl; intros; lra).
    destruct (flatten_all_ok dist gs ss H2 Hl Hp Em) as (l & E & _ & _). rewrite E. cbn [bindR].
    destruct (sum_is_one (cumulative_distribution (map fst l))) eqn:Es; [|reflexivity]. exfalso. apply Hno. apply sum_is_one_iff in Es. rewrite (flat_sum _ _ _ E) in Es.
    split; [destruct dist; [now simpl in Hne|discriminate]|]. auto.
Qed.
Theorem factory_distribution dist gs g F : make_probabilistic dist gs = Ok g ->
  expected F g = Rsuml (fun dg => (fst dg * expected F (snd dg))%R) (combine dist gs).
Proof.
  unfold make_probabilistic, probabilistic_impl. intros H. inv_bind H. injection H as <-. destruct (_ =? 0)%nat; [discriminate|]. destruct (negb _); [discriminate|].
  destruct (negb _); [discriminate|]. inv_bind E. destruct (sum_is_one _); [|discriminate]. injection E as <-. cbn [fst snd expected].
  rewrite <- (flatten_all_weighted (expected F) (fun d gs => eq_refl) _ _ _ E0), zip_sum. unfold weighted. f_equal.
  clear. induction v0 as [|[p g] l IH]; simpl; congruence.
Qed.
(** a probabilistic gate of elementary gates is kept as it is *)
Lemma factory_elementary dist gs g : make_probabilistic dist (map CElem gs) = Ok g -> g = CProb true dist (map CElem gs).
Proof.
  unfold make_probabilistic, probabilistic_impl. intros H. inv_bind H. injection H as <-. destruct (_ =? 0)%nat; [discriminate|].
  destruct (Nat.eqb_spec (length dist) (length (map CElem gs))) as [Hl|]; [|discriminate]. cbn [negb] in E.
  destruct (negb _); [discriminate|]. inv_bind E. destruct (sum_is_one _); [|discriminate]. injection E as <-. cbn [fst snd].
  enough (E : map fst v0 = dist /\ map snd v0 = map CElem gs) by (destruct E as [-> ->]; reflexivity).
  revert dist Hl v0 E0. induction gs as [|x gs IH]; intros [|d dist] Hl l E; simpl in Hl; try discriminate; [injection E as <-; auto|].
  cbn [map flatten_all] in E. destruct x as [t x]. cbn [flatten_probabilistic_gate bindR] in E. inv_bind E. injection E as <-.
  destruct (IH dist ltac:(lia) _ E0) as [E1 E2]. simpl. rewrite E1, E2. auto.
Qed.

(** ** Execution *)
Lemma choice_execution n L dist gs ss t w s u : n < 64 -> lanes_ok L -> stands (CProb t dist gs) (Choice (combine dist ss)) -> Forall2 stands gs ss ->
  Forall (fun q => q < n) (operands (Choice (combine dist ss))) ->
  same_state n w s -> (forall k, unit_draw (w_rand w k)) -> u = w_rand w 0%nat ->
  (forall us, Forall unit_draw us -> ~ step n (Choice (combine dist ss)) us s SOutside) ->
  exists i sg, in_interval dist i u /\ nth_error ss i = Some sg /\
    runs (cgate_update n L (CProb t dist gs)) w (fun o => exists us so, step n sg us s so /\ used w (u :: us) o /\ ends_as n o so).
Proof.
  intros Hn HL Hst H2 HF Hs Hu -> Hout. inversion Hst as [| |? ? ? ss' Hd Hl H2' E1 E2]; subst.
  destruct Hd as (Hne & Hpos & Hsum). destruct (select_spec (w_rand w 0%nat) dist (proj1 (Hu 0%nat)) Hne Hpos) as (Hi & Hint).
  pose proof (Forall2_len _ _ _ H2) as Hl2. set (i := N.to_nat (select_index dist (w_rand w 0%nat))) in *.
  destruct (nth_error ss i) as [sg|] eqn:Es; [|apply nth_error_None in Es; lia]. exists i, sg. split; [exact Hint|]. split; [exact Es|].
  destruct (nth_error gs i) as [g|] eqn:Eg; [|apply nth_error_None in Eg; lia].
  set (w1 := World (w_amp w) (w_home w) (w_reg w) (fun k => w_rand w (S k))). cbn [cgate_update].
  eapply runs_bind; [instantiate (1 := fun o => o = HDone (w_rand w 0%nat) w1); split; [intros o ->; reflexivity|eexists; reflexivity]| |intros ? [=]|intros [=]].
  intros r w' [= -> ->]. fold i. erewrite nth_error_nth by (rewrite nth_error_map, Eg; reflexivity).
  destruct (select_picks (w_rand w 0%nat) dist ss (proj1 (Hu 0%nat)) Hne Hpos ltac:(lia)) as (sg' & Es' & Hp). fold i in Es'. assert (sg' = sg) by congruence. subst sg'.
  assert (HFg : Forall (fun q => q < n) (operands sg)).
  { apply Forall_forall. intros q Hq. rewrite Forall_forall in HF. apply HF. refine (nth_combine_operands dist ss i sg _ Es q Hq). congruence. }
  eapply runs_weaken; [apply (cgate_refines n L Hn HL g sg (Forall2_nth_error _ _ _ H2 i g sg Eg Es) HFg w1 s)|].
  - exact Hs.
  - intros k. apply (Hu (S k)).
  - intros us Hus Hstep. apply (Hout (w_rand w 0%nat :: us)); [constructor; auto|]. eapply step_choice; eassumption.
  - intros o (us & so & H1 & (H3 & H4) & H5 & _). exists us, so. split; [exact H1|]. split; [|exact H5]. split.
    + cbn [length seq map]. f_equal. rewrite H3 at 1. rewrite <- seq_shift, map_map. reflexivity.
    + destruct o as [t0 w'|w'|]; [| |contradiction]; intros k; rewrite H4; reflexivity.
Qed.
