(** C32 for parametric probabilistic gates. *)
From Verif Require Export CircuitProofs11.
From Coq Require Import ZifyBool ZifyN ZifyNat Lra.

Notation vgate := (cgate + pgate)%type.
(** ** Flattening *)
Fixpoint non_param_zip (p : R) (ds : list R) (gs : list cgate) : res (list (R * vgate)) :=
  match ds, gs with
  | d :: ds', g :: gs' => l <- flatten_non_param (p * d) g ;; r <- non_param_zip p ds' gs' ;; Ok (l ++ r)
  | [], _ => Ok []
  | _ :: _, [] => UB
  end.
Lemma non_param_known p d gs : flatten_non_param p (CProb true d gs) = non_param_zip p d gs.
Proof. cbn [flatten_non_param]. revert d. induction gs as [|g gs IH]; intros [|x d]; try reflexivity. cbn [non_param_zip]. now rewrite <- IH. Qed.
Definition lift (l : list (R * cgate)) : list (R * vgate) := map (fun pg => (fst pg, inl (snd pg))) l.
Lemma non_param_lift g : forall p, flatten_non_param p g = (l <- flatten_probabilistic_gate p g ;; Ok (lift l)).
Proof.
  induction g as [[t g]|t b r|t d gs IH] using cgate_ind'; intros p; try reflexivity. destruct t; [|reflexivity]. rewrite non_param_known, flatten_known. revert d.
  induction gs as [|g gs IHgs]; intros [|x d]; try reflexivity. inversion IH as [|? ? IH1 IH2]; subst. cbn [non_param_zip flatten_zip]. rewrite IH1.
  destruct (flatten_probabilistic_gate (p * x) g); [|reflexivity|reflexivity]. cbn [bindR]. rewrite (IHgs IH2 d). destruct (flatten_zip p d gs); [|reflexivity|reflexivity].
  cbn [bindR]. unfold lift. now rewrite map_app.
Qed.
Fixpoint param_zip (p : R) (ds : list R) (gs : list vgate) : res (list (R * vgate)) :=
  match ds, gs with
  | d :: ds', g :: gs' => l <- flatten_param_probabilistic_gate (p * d) g ;; r <- param_zip p ds' gs' ;; Ok (l ++ r)
  | [], _ => Ok []
  | _ :: _, [] => UB
  end.
Lemma param_known p d gs : flatten_param p (PProb true d gs) = param_zip p d gs.
Proof. cbn [flatten_param]. revert d. induction gs as [|g gs IH]; intros [|x d]; try reflexivity. cbn [param_zip]. now rewrite <- IH. Qed.
Lemma zip_sum' {G} (F : G -> R) : forall d gs, Rsuml (fun dg => (fst dg * snd dg)%R) (combine d (map F gs)) = Rsuml (fun dg => (fst dg * F (snd dg))%R) (combine d gs).
Proof. induction d as [|x d IH]; intros [|g gs]; simpl; auto. unfold Rsuml in *. simpl. now rewrite IH. Qed.
(** [F] is a function of gates that averages over alternatives *)
Definition averages (Fc : cgate -> R) (Fp : pgate -> R) : Prop :=
  (forall d gs, Fc (CProb true d gs) = Rsuml (fun dg => (fst dg * snd dg)%R) (combine d (map Fc gs))) /\
  (forall d gs, Fp (PProb true d gs) = Rsuml (fun dg => (fst dg * snd dg)%R) (combine d (map (fun g => match g with inl g => Fc g | inr g => Fp g end) gs))).
Lemma param_weighted Fc Fp : averages Fc Fp -> let F (g : vgate) := match g with inl g => Fc g | inr g => Fp g end in
  forall g p l, flatten_param_probabilistic_gate p g = Ok l -> weighted F l = (p * F g)%R.
Proof.
  intros [HC HP] F. assert (HCl : forall g p l, flatten_non_param p g = Ok l -> weighted F l = (p * Fc g)%R).
  { intros g p l H. rewrite non_param_lift in H. inv_bind H. injection H as <-. rewrite <- (flatten_weighted Fc HC _ _ _ E). unfold weighted, lift. rewrite Rsuml_map. reflexivity. }
  intros [g|g]; [apply HCl|]. induction g as [t k b c|t b p c|t d gs IH] using pgate_ind'; intros p0 l H; cbn [flatten_param_probabilistic_gate] in H;
    try (injection H as <-; unfold weighted, Rsuml; simpl; ring).
  destruct t; [|injection H as <-; unfold weighted, Rsuml; simpl; ring]. rewrite param_known in H. cbn [F]. rewrite HP. fold F. rewrite zip_sum'. revert d l H.
  induction gs as [|g gs IHgs]; intros [|x d] l H; cbn [param_zip] in H; try discriminate; try (injection H as <-; unfold weighted, Rsuml; simpl; ring).
  inv_bind H. inv_bind H. injection H as <-. inversion IH as [|? ? IH1 IH2]; subst. rewrite weighted_app. cbn [combine Rsuml fold_right fst snd].
  assert (E1 : weighted F v = (p0 * x * F g)%R) by (destruct g as [g|g]; [now apply HCl|now apply IH1]). rewrite E1. erewrite IHgs by eassumption. unfold Rsuml. ring.
Qed.
Lemma all_weighted Fc Fp : averages Fc Fp -> let F (g : vgate) := match g with inl g => Fc g | inr g => Fp g end in
  forall dist gs l, flatten_all flatten_param_probabilistic_gate dist gs = Ok l -> weighted F l = Rsuml (fun dg => (fst dg * F (snd dg))%R) (combine dist gs).
Proof.
  intros HF. cbv zeta. induction dist as [|d dist IH]; intros [|g gs] l H; cbn [flatten_all] in H; try (injection H as <-; reflexivity).
  inv_bind H. inv_bind H. injection H as <-. rewrite weighted_app. rewrite (param_weighted Fc Fp HF _ _ _ E), (IH _ _ E0). reflexivity.
Qed.
Lemma mass_averages : averages mass pmass.
Proof. split; reflexivity. Qed.
Lemma expected_averages F : averages (expected (fun g => F (inl g))) (pexpected F).
Proof. split; reflexivity. Qed.
(** leaves *)
Definition leaf (g : vgate) : Prop := match g with inl (CProb true _ _) | inr (PProb true _ _) => False | _ => True end.
Lemma leaf_mass g : leaf g -> vmass g = 1%R.
Proof. destruct g as [[[t g]|t b r|[|] d gs]|[| |[|] d gs]]; cbn; tauto. Qed.
Lemma param_leaves : forall g p l, flatten_param_probabilistic_gate p g = Ok l -> Forall (fun pg => leaf (snd pg)) l.
Proof.
  assert (HCl : forall g p l, flatten_non_param p g = Ok l -> Forall (fun pg : R * vgate => leaf (snd pg)) l).
  { intros g p l H. rewrite non_param_lift in H. inv_bind H. injection H as <-. apply flat_leaves in E. unfold lift. apply Forall_map. eapply Forall_impl; [|exact E]. simpl. intros [x [| |[|]]]; tauto. }
  intros [g|g]; [apply HCl|]. induction g as [t k b c|t b p c|t d gs IH] using pgate_ind'; intros p0 l H; cbn [flatten_param_probabilistic_gate] in H; try (injection H as <-; repeat constructor).
  destruct t; [|injection H as <-; repeat constructor]. rewrite param_known in H. revert d l H.
  induction gs as [|g gs IHgs]; intros [|x d] l H; cbn [param_zip] in H; try discriminate; try (injection H as <-; constructor).
  inv_bind H. inv_bind H. injection H as <-. inversion IH as [|? ? IH1 IH2]; subst. apply Forall_app. split; [destruct g as [g|g]; [eapply HCl; eassumption|eapply IH1; eassumption]|eapply IHgs; eassumption].
Qed.
Lemma all_leaves dist : forall gs l, flatten_all flatten_param_probabilistic_gate dist gs = Ok l -> Forall (fun pg => leaf (snd pg)) l.
Proof.
  induction dist as [|d dist IH]; intros [|g gs] l H; cbn [flatten_all] in H; try (injection H as <-; constructor).
  inv_bind H. inv_bind H. injection H as <-. apply Forall_app. split; [eapply param_leaves; eassumption|eapply IH; eassumption].
Qed.
Lemma all_sum dist gs l : flatten_all flatten_param_probabilistic_gate dist gs = Ok l ->
  Rsuml (fun p => p) (map fst l) = Rsuml (fun dg => (fst dg * vmass (snd dg))%R) (combine dist gs).
Proof.
  intros H. unfold vmass. rewrite <- (all_weighted mass pmass mass_averages _ _ _ H). rewrite Rsuml_map. unfold weighted. apply Rsuml_ext.
  intros x Hx. pose proof (all_leaves _ _ _ H) as HL. rewrite Forall_forall in HL. change (match snd x with inl g => mass g | inr g => pmass g end) with (vmass (snd x)). rewrite (leaf_mass _ (HL x Hx)). ring.
Qed.
(** totality *)
Definition good (pg : R * vgate) : Prop := (0 <= fst pg)%R /\ exists s, pstands (snd pg) s.
Lemma param_ok g s : pstands g s -> forall p, 
  (vhas_measurement g = true -> flatten_param_probabilistic_gate p g = Throw) /\
  (vhas_measurement g = false -> exists l, flatten_param_probabilistic_gate p g = Ok l /\ l <> [] /\ ((0 <= p)%R -> Forall good l)).
Proof.
  assert (HC : forall g s, pstands (inl g) s -> forall p, 
    (has_measurement g = true -> flatten_non_param p g = Throw) /\
    (has_measurement g = false -> exists l, flatten_non_param p g = Ok l /\ l <> [] /\ ((0 <= p)%R -> Forall good l))).
  { clear. intros g s H p. inversion H as [? s0 Hs0| | |]; subst. rewrite non_param_lift. split.
    - intros Hm. now rewrite (flatten_throws g s0 p Hs0 Hm).
    - intros Hm. destruct (flatten_total g s0 Hs0 Hm p) as [l El]. rewrite El. exists (lift l). split; [reflexivity|]. split.
      + destruct (Rle_dec 0 1) as [H1|]; [|lra]. assert (Hl : length l <> 0%nat).
        { destruct (flatten_ok g s0 1 Hs0 H1 Hm) as (l1 & E1 & N1 & _).
          assert (Hlen : forall g p q a b, flatten_probabilistic_gate p g = Ok a -> flatten_probabilistic_gate q g = Ok b -> length a = length b).
          { clear. induction g as [[t g]|t b r|t d gs IH] using cgate_ind'; intros p q x y Hx Hy; try discriminate; try (injection Hx as <-; injection Hy as <-; reflexivity).
            destruct t; [|injection Hx as <-; injection Hy as <-; reflexivity]. rewrite flatten_known in Hx, Hy. revert d x y Hx Hy.
            induction gs as [|g gs IHgs]; intros [|z d] x y Hx Hy; cbn [flatten_zip] in *; try discriminate; try (injection Hx as <-; injection Hy as <-; reflexivity).
            inv_bind Hx. inv_bind Hx. injection Hx as <-. inv_bind Hy. inv_bind Hy. injection Hy as <-. inversion IH as [|? ? IH1 IH2]; subst. rewrite !app_length. f_equal; eauto. }
          rewrite (Hlen g p 1%R l l1 El E1). now destruct l1. }
        destruct l; [now simpl in Hl|discriminate].
      + intros Hp. destruct (flatten_ok g s0 p Hs0 Hp Hm) as (l1 & E1 & _ & F1). assert (l1 = l) by congruence. subst l1. unfold lift. apply Forall_map. eapply Forall_impl; [|exact F1].
        intros [x y] [Hx [s1 Hs1]]. split; [exact Hx|]. eexists. apply pstands_fixed. exact Hs1. }
  destruct g as [g|g]; [apply HC|]. revert s. induction g as [t k b c|t b p c|t d gs IH] using pgate_ind'; intros s H p0; cbn [flatten_param_probabilistic_gate vhas_measurement].
  1,2: split; [discriminate|]; intros _; eexists; split; [reflexivity|]; split; [discriminate|]; intros Hp; constructor; [|constructor]; split; [exact Hp|eauto].
  destruct t.
  2: { split; [discriminate|]. intros _. eexists. split; [reflexivity|]. split; [discriminate|]. intros Hp. constructor; [|constructor]. split; [exact Hp|eauto]. }
  rewrite param_known. cbn [phas_measurement]. apply pstands_choice_inv in H. destruct H as (ss & (Hne & Hpos & _) & Hl & H2 & _).
  change (existsb _ gs) with (existsb vhas_measurement gs).
  assert (G : (existsb vhas_measurement gs = true -> param_zip p0 d gs = Throw) /\
    (existsb vhas_measurement gs = false -> exists l, param_zip p0 d gs = Ok l /\ (d <> [] -> l <> []) /\ ((0 <= p0)%R -> Forall good l))).
  { clear Hne. revert d ss Hl Hpos H2. induction gs as [|g gs IHgs]; intros [|x d] ss Hl Hpos H2; simpl in Hl; try discriminate.
    - split; [discriminate|]. intros _. exists []. split; [reflexivity|]. split; [congruence|constructor].
    - inversion H2 as [|? s0 ? ss' Hs0 H2']; subst. inversion IH as [|? ? IH1 IH2]; subst. inversion Hpos as [|? ? Hx Hpos']; subst.
      assert (Hg : (vhas_measurement g = true -> flatten_param_probabilistic_gate (p0 * x) g = Throw) /\
        (vhas_measurement g = false -> exists l, flatten_param_probabilistic_gate (p0 * x) g = Ok l /\ l <> [] /\ ((0 <= p0 * x)%R -> Forall good l))).
      { destruct g as [g|g]; [now apply (HC g s0)|now apply (IH1 s0)]. }
      destruct (IHgs IH2 d ss' ltac:(lia) Hpos' H2') as [T1 T2]. cbn [existsb param_zip]. destruct (vhas_measurement g); cbn [orb].
      + split; [|discriminate]. intros _. rewrite (proj1 Hg eq_refl). reflexivity.
      + destruct (proj2 Hg eq_refl) as (l1 & E1 & N1 & F1). rewrite E1. cbn [bindR]. split; [intros Hm; rewrite (T1 Hm); reflexivity|]. intros Hm. destruct (T2 Hm) as (l2 & E2 & _ & F2). rewrite E2.
        exists (l1 ++ l2). split; [reflexivity|]. split; [intros _ E; apply app_eq_nil in E; tauto|]. intros Hp. apply Forall_app. split; [apply F1; now apply Rmult_le_pos|auto]. }
  destruct G as [G1 G2]. split; [exact G1|]. intros Hm. destruct (G2 Hm) as (l & E & Hn & F). exists l. auto.
Qed.
Lemma all_ok dist : forall gs ss, Forall2 pstands gs ss -> length dist = length gs -> Forall (fun p => 0 <= p)%R dist ->
  (existsb vhas_measurement gs = true -> flatten_all flatten_param_probabilistic_gate dist gs = Throw) /\
  (existsb vhas_measurement gs = false -> exists l, flatten_all flatten_param_probabilistic_gate dist gs = Ok l /\ (dist <> [] -> l <> []) /\ Forall good l).
Proof.
  induction dist as [|d dist IH]; intros gs ss H2 Hl Hp; destruct gs as [|g gs]; simpl in Hl; try discriminate.
  - split; [discriminate|]. intros _. exists []. split; [reflexivity|]. split; [congruence|constructor].
  - inversion H2 as [|? s0 ? ss' Hs0 H2']; subst. inversion Hp as [|? ? Hd Hp']; subst. destruct (IH gs ss' H2' ltac:(lia) Hp') as [T1 T2]. destruct (param_ok g s0 Hs0 d) as [A1 A2].
    cbn [existsb flatten_all]. destruct (vhas_measurement g); cbn [orb].
    + split; [|discriminate]. intros _. now rewrite (A1 eq_refl).
    + destruct (A2 eq_refl) as (l1 & E1 & N1 & F1). rewrite E1. cbn [bindR]. split; [intros Hm; now rewrite (T1 Hm)|]. intros Hm. destruct (T2 Hm) as (l2 & E2 & _ & F2). rewrite E2.
      exists (l1 ++ l2). split; [reflexivity|]. split; [intros _ E; apply app_eq_nil in E; tauto|]. apply Forall_app. auto.
Qed.
Theorem param_factory_accepts dist gs ss : Forall2 pstands gs ss ->
  (vacceptable dist gs -> exists g s, make_param_probabilistic dist gs = Ok g /\ pstands (inr g) s) /\
  (~ vacceptable dist gs -> make_param_probabilistic dist gs = Throw).
Proof.
  intros H2. unfold make_param_probabilistic, probabilistic_impl. split.
  - intros (Hne & Hl & Hu & Hm & Hs). destruct dist as [|d dist]; [congruence|]. set (D := d :: dist) in *.
    replace (length D =? 0)%nat with false by reflexivity. rewrite Hl, Nat.eqb_refl. cbn [negb]. rewrite (proj2 (forallb_unit D) Hu). cbn [negb].
    assert (Hp : Forall (fun p => 0 <= p)%R D) by (eapply Forall_impl; [|exact Hu]; simpl; intros; lra).
    destruct (proj2 (all_ok D gs ss H2 Hl Hp) Hm) as (l & E & Hnl & HF). rewrite E. cbn [bindR].
    assert (Hsum : (Rabs (Rsuml (fun p => p) (map fst l) - 1) <= / 10 ^ 6)%R) by (rewrite (all_sum _ _ _ E); exact Hs).
    rewrite (proj2 (sum_is_one_iff (map fst l)) Hsum). cbn [bindR fst snd].
    assert (Hss : exists ss, Forall2 pstands (map snd l) ss).
    { clear - HF. induction HF as [|x l [_ [s Hs]] _ [ss IH]]; [exists []; constructor|exists (s :: ss); now constructor]. }
    destruct Hss as [ss' Hss]. eexists _, _. split; [reflexivity|]. apply (pstands_choice true (map fst l) (map snd l) ss'); [|now rewrite !map_length|exact Hss].
    split; [destruct l; [now specialize (Hnl ltac:(discriminate))|discriminate]|]. split; [|exact Hsum].
    apply Forall_map. eapply Forall_impl; [|exact HF]. intros x [Hx _]. exact Hx.
  - intros Hno. destruct (Nat.eqb_spec (length dist) 0) as [|Hne]; [reflexivity|]. destruct (Nat.eqb_spec (length dist) (length gs)) as [Hl|]; [|reflexivity]. cbn [negb].
    destruct (forallb in_unit dist) eqn:Eu; [|reflexivity]. cbn [negb]. apply forallb_unit in Eu.
    assert (Hp : Forall (fun p => 0 <= p)%R dist) by (eapply Forall_impl; [|exact Eu]; simpl; intros; lra).
    destruct (existsb vhas_measurement gs) eqn:Em; [now rewrite (proj1 (all_ok dist gs ss H2 Hl Hp) Em)|].
    destruct (proj2 (all_ok dist gs ss H2 Hl Hp) Em) as (l & E & _ & _). rewrite E. cbn [bindR].
    destruct (sum_is_one (cumulative_distribution (map fst l))) eqn:Es; [|reflexivity]. exfalso. apply Hno. apply sum_is_one_iff in Es. rewrite (all_sum _ _ _ E) in Es.
    split; [destruct dist; [now simpl in Hne|discriminate]|]. auto.
Qed.
Theorem param_factory_distribution dist gs g F : make_param_probabilistic dist gs = Ok g ->
  pexpected F g = Rsuml (fun dg => (fst dg * vexpected F (snd dg))%R) (combine dist gs).
Proof.
  unfold make_param_probabilistic, probabilistic_impl. intros H. inv_bind H. injection H as <-. destruct (_ =? 0)%nat; [discriminate|]. destruct (negb _); [discriminate|].
  destruct (negb _); [discriminate|]. inv_bind E. destruct (sum_is_one _); [|discriminate]. injection E as <-. cbn [fst snd pexpected].
  unfold vexpected. rewrite <- (all_weighted _ _ (expected_averages F) _ _ _ E0), zip_sum'. unfold weighted. f_equal.
  clear. induction v0 as [|[p g] l IH]; simpl; congruence.
Qed.
(** ** Execution *)
Theorem param_choice_execution n L dist gs ss t w s u v : n < 64 -> lanes_ok L -> pstands (inr (PProb t dist gs)) (fun v => Choice (combine dist (map (fun s => s v) ss))) -> Forall2 pstands gs ss ->
  Forall (fun q => q < n) (operands (Choice (combine dist (map (fun s => s v) ss)))) ->
  same_state n w s -> (forall k, unit_draw (w_rand w k)) -> u = w_rand w 0%nat ->
  (forall us, Forall unit_draw us -> ~ step n (Choice (combine dist (map (fun s => s v) ss))) us s SOutside) ->
  runs (pgate_update n L (PProb t dist gs) v) w (fun o => exists i sg us so, in_interval dist i u /\ nth_error ss i = Some sg /\ step n (sg v) us s so /\ used w (u :: us) o /\ ends_as n o so).
Proof.
  intros Hn HL Hst H2 HF Hs Hu -> Hout. pose proof (pstands_choice_inv _ _ _ _ Hst) as (ss' & (Hne & Hpos & Hsum) & Hl & _ & _).
  eapply runs_weaken; [apply (pgate_refines n L Hn HL _ _ v Hst HF w s Hs Hu Hout)|].
  intros o (us & so & Hstep & [Hused1 Hused2] & Hend & _). inversion Hstep as [| | | |l u g us' s0 o0 Hp Hg]; subst.
  injection Hused1 as Eu Eus. destruct Hp as (l1 & p & l2 & El & P1 & P2).
  pose proof (Forall2_len _ _ _ H2) as Hl2. assert (Hlen : length dist = length ss) by congruence.
  set (i := length l1). assert (Hnth : nth_error (combine dist (map (fun s => s v) ss)) i = Some (p, g)) by (rewrite El; unfold i; rewrite nth_error_app2, Nat.sub_diag by lia; reflexivity).
  assert (Hcomb : forall (a : list R) (b : list sgate), length a = length b -> map fst (combine a b) = a /\ map snd (combine a b) = b).
  { clear. induction a as [|x a IH]; intros [|y b] H; simpl in H; try discriminate; [auto|]. destruct (IH b ltac:(lia)) as [E1 E2]. simpl. now rewrite E1, E2. }
  destruct (Hcomb dist (map (fun s => s v) ss) ltac:(now rewrite map_length)) as [C1 C2].
  assert (Hsg : nth_error (map (fun s => s v) ss) i = Some g) by (rewrite <- C2, nth_error_map, Hnth; reflexivity).
  rewrite nth_error_map in Hsg. destruct (nth_error ss i) as [sg|] eqn:Es; [|discriminate]. injection Hsg as <-.
  exists i, sg, us', so. split; [|split; [exact Es|split; [exact Hg|split; [|exact Hend]]]].
  - assert (F1 : firstn i dist = map fst l1) by (rewrite <- C1, El, map_app, firstn_app; unfold i; rewrite map_length, Nat.sub_diag, firstn_all2 by (rewrite map_length; lia); simpl; now rewrite app_nil_r).
    assert (F2 : firstn (S i) dist = map fst l1 ++ [p]).
    { rewrite <- C1, El, map_app, firstn_app. unfold i. rewrite map_length, firstn_all2 by (rewrite map_length; lia). replace (S (length l1) - length l1)%nat with 1%nat by lia. reflexivity. }
    unfold in_interval. rewrite F1, F2, Rsuml_app, !Rsuml_map, <- Eu. split; [exact P1|]. destruct P2 as [P2| ->].
    + left. unfold Rsuml at 2. simpl. rewrite Rplus_0_r. exact P2.
    + right. apply (f_equal (fun l => length (map fst l))) in El. rewrite C1 in El. rewrite El, map_length, app_length. simpl. unfold i. lia.
  - split; [cbn [length seq map]; rewrite <- seq_shift, map_map in *; rewrite Eus at 1; reflexivity|exact Hused2].
Qed.
Lemma param_probabilistic_example : vacceptable [1 / 2; 1 / 2]%R [inr ex_RX; inl (CElem (true, ex_X))] /\
  exists ss, Forall2 pstands [inr ex_RX; inl (CElem (true, ex_X))] ss.
Proof.
  split.
  - split; [discriminate|]. split; [reflexivity|]. split; [repeat (apply Forall_cons; [lra|]); apply Forall_nil|]. split; [reflexivity|].
    unfold Rsuml. simpl. replace (_ - 1)%R with 0%R by field. rewrite Rabs_R0. lra.
  - eexists. apply Forall2_cons; [apply (pstands_factory true (PCallRot RotX 1 1 [] [])); [exact I|reflexivity]|].
    apply Forall2_cons; [apply pstands_fixed; exact (noise1_stands GX 1 eq_refl)|apply Forall2_nil].
Qed.
