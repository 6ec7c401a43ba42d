(** The reference semantics of moved gates on product states. *)
From Coq Require Import Lra Lia Permutation FunctionalExtensionality ZifyBool ZifyN ZifyNat.
From Verif Require Import OperatorProofs OptimizeProofs PlaceProofs PlaceProofs2 PlaceSpec DensityProofs5 DensityProofs7 PauliProofs StateProofs StateProofs2 CircuitProofs.

Inductive smoved (qs : list N) : sgate -> sgate -> Prop :=
| smoved_act a a' f f' : slicewise qs a a' f f' -> smoved qs (Act a f) (Act a' f')
| smoved_meas q bit reset : q < N.of_nat (length qs) -> smoved qs (Meas q bit reset) (Meas (spot qs q) bit reset)
| smoved_choice l l' : Forall2 (fun a b => fst a = fst b /\ smoved qs (snd a) (snd b)) l l' -> smoved qs (Choice l) (Choice l').

Section Ref.
  Variables (n : N) (qs : list N).
  Hypothesis Hfit : fits_into n qs.
  Let m := N.of_nat (length qs).
  Variable phi : state.

  Lemma rest_size : N.of_nat (length (rest_of n qs)) = n - m.
  Proof. pose proof (rest_length n qs (proj1 Hfit) (proj2 Hfit)). unfold m. lia. Qed.
  Lemma prob_placed P psi : prob n (fun x => P (gather qs x)) (placed n qs psi phi) = (prob m P psi * sqnorm (n - m) phi)%R.
  Proof.
    assert (Hp : forall k (Q : N -> bool) (chi : state), RtoC (prob k Q chi) = Csum (2 ^ k) (fun x => if Q x then RtoC (Cnorm2 (chi x)) else C0)).
    { intros k Q chi. unfold prob. rewrite RtoC_Rsuml. unfold Csum. induction (seqN (2 ^ k)) as [|x l IH]; [reflexivity|].
      cbn [filter]. unfold Csuml in *. cbn [fold_right]. rewrite <- IH. destruct (Q x); cbn [fold_right]; ring. }
    apply RtoC_inj. rewrite RtoC_mul, !Hp. rewrite <- (joint_sum n qs _ (proj1 Hfit) (proj2 Hfit)). fold m.
    assert (Hs : RtoC (sqnorm (n - m) phi) = Csum (2 ^ (n - m)) (fun x => RtoC (Cnorm2 (phi x)))) by apply RtoC_Rsuml.
    rewrite Hs. match goal with |- _ = (?a * ?b)%C => replace (a * b)%C with (b * a)%C by ring end. rewrite <- Csum_mul_r. apply Csum_ext. intros i Hi. rewrite <- Csum_mul_l. apply Csum_ext. intros z Hz.
    unfold placed. rewrite joint_traced by (apply Hfit || exact Hz). rewrite joint_rest by (rewrite rest_size; exact Hi).
    destruct (P z); [|ring]. rewrite Cnorm2_mul, RtoC_mul. ring.
  Qed.
  Lemma sqnorm_placed psi : sqnorm n (placed n qs psi phi) = (sqnorm m psi * sqnorm (n - m) phi)%R.
  Proof.
    assert (E : forall k (chi : state), sqnorm k chi = prob k (fun _ => true) chi).
    { intros k chi. unfold sqnorm, prob. f_equal. induction (seqN (2 ^ k)) as [|x l IH]; [reflexivity|]. cbn [filter]. now rewrite <- IH. }
    rewrite (E n), (E m). apply (prob_placed (fun _ => true)).
  Qed.
  Hypothesis Hphi : sqnorm (n - m) phi = 1%R.
  Definition splaced (s s' : sstate) : Prop :=
    (forall x, x < 2 ^ n -> s_psi s' x = placed n qs (s_psi s) phi x) /\ s_reg s' = s_reg s.
  Definition oplaced (o o' : soutcome) : Prop :=
    match o, o' with
    | SDone s, SDone s' => splaced s s'
    | SThrown s, SThrown s' => splaced s s'
    | SOutside, SOutside => True
    | _, _ => False
    end.
  Lemma slice_placed psi x y : y < 2 ^ m -> slice qs (placed n qs psi phi) x y = (psi y * phi (gather (rest_of n qs) x))%C.
  Proof.
    intros Hy. unfold slice, placed. rewrite gather_scatter by (apply Hfit || exact Hy). do 2 f_equal.
    apply OptimizeProofs.gather_scatter_out. intros i Hi. apply in_rest in Hi. tauto.
  Qed.
  Lemma act_placed a a' f f' s s' : slicewise qs a a' f f' -> splaced s s' -> splaced (SState (f (s_psi s)) (s_reg s)) (SState (f' (s_psi s')) (s_reg s')).
  Proof.
    intros Hw [H1 H2]. split; [|exact H2]. cbn [s_psi]. intros x Hx. rewrite (sw_move _ _ _ _ _ Hw).
    transitivity (f (fun z => (s_psi s z * phi (gather (rest_of n qs) x))%C) (gather qs x)).
    - apply (sw_local _ _ _ _ _ Hw); [|apply gather_lt]. intros y Hy. rewrite <- slice_placed by exact Hy. unfold slice. apply H1.
      apply scatter_lt; [apply Hfit|apply Hfit|exact Hx].
    - apply (sw_scale _ _ _ _ _ Hw).
  Qed.
  Lemma shows_move q b x : q < m -> shows_bit (spot qs q) b x = shows_bit q b (gather qs x).
  Proof. intros H. unfold shows_bit. now rewrite gather_spot. Qed.
  Lemma bit_prob_placed q b s s' : q < m -> splaced s s' -> bit_prob n (spot qs q) b (s_psi s') = bit_prob m q b (s_psi s).
  Proof.
    intros Hq [H1 _]. rewrite (bit_prob_ext n _ b _ _ H1). unfold bit_prob.
    transitivity (prob n (fun x => shows_bit q b (gather qs x)) (placed n qs (s_psi s) phi)).
    - unfold prob. f_equal. apply filter_ext. intros x. now apply shows_move.
    - rewrite prob_placed, Hphi. lra.
  Qed.
  Lemma sqnorm_splaced s s' : splaced s s' -> sqnorm n (s_psi s') = sqnorm m (s_psi s).
  Proof. intros [H1 _]. rewrite (sqnorm_ext n _ _ H1), sqnorm_placed, Hphi. lra. Qed.
  Lemma projected_placed q b s s' : q < m -> splaced s s' -> forall x, x < 2 ^ n ->
    projected n (spot qs q) b (s_psi s') x = placed n qs (projected m q b (s_psi s)) phi x.
  Proof.
    intros Hq Hs x Hx. unfold projected, placed. rewrite (bit_prob_placed q b s s' Hq Hs), shows_move by exact Hq. destruct (shows_bit q b (gather qs x)); [|ring].
    rewrite (proj1 Hs x Hx). unfold placed. Csolve.
  Qed.
  Lemma gather_flip q x : q < m -> gather qs (N.lxor x (2 ^ spot qs q)) = N.lxor (gather qs x) (2 ^ q) /\
    gather (rest_of n qs) (N.lxor x (2 ^ spot qs q)) = gather (rest_of n qs) x.
  Proof.
    intros Hq. split.
    - apply bits_eq_N. intros k. rewrite N.lxor_spec. set (i := N.of_nat k). destruct (N.lt_ge_cases i m) as [Hi|Hi].
      + rewrite !gather_spot, N.lxor_spec by assumption. rewrite !N.pow2_bits_eqb. f_equal. destruct (N.eqb_spec q i) as [->|Hne]; [now rewrite N.eqb_refl|].
        destruct (N.eqb_spec (spot qs q) (spot qs i)) as [E|]; [|reflexivity]. exfalso. apply Hne. now apply (spot_inj n qs Hfit).
      + rewrite !(testbit_high _ m) by (apply gather_lt || assumption). rewrite N.pow2_bits_false by lia. reflexivity.
    - apply gather_inj_ext. intros t Ht. rewrite N.lxor_spec, N.pow2_bits_eqb. destruct (N.eqb_spec (spot qs q) t) as [<-|]; [|apply xorb_false_r].
      exfalso. apply in_rest in Ht. apply Ht. now apply spot_in.
  Qed.
  Lemma measured_placed q reset b s s' : q < m -> splaced s s' -> forall x, x < 2 ^ n ->
    measured n (spot qs q) reset b (s_psi s') x = placed n qs (measured m q reset b (s_psi s)) phi x.
  Proof.
    intros Hq Hs x Hx. unfold measured. destruct (reset && b); [|now apply projected_placed]. unfold flipped.
    rewrite (projected_placed q b s s' Hq Hs).
    - unfold placed. destruct (gather_flip q x Hq) as [-> ->]. reflexivity.
    - apply OperatorProofs.lxor_lt_pow2; [exact Hx|]. apply N.pow_lt_mono_r; [lia|]. now apply (spot_lt n qs Hfit).
  Qed.
  Lemma step_placed g' us s' o' : step n g' us s' o' -> forall g s, smoved qs g g' -> splaced s s' -> exists o, step m g us s o /\ oplaced o o'.
  Proof.
    induction 1 as [a' f' s'|q' bit reset u s' b Hbit Hnorm Hb|q' bit reset s' Hbit|q' bit reset s' Hbit Hnorm|l' u g' us s' o' Hpick _ IH]; intros g s Hg Hs.
    - inversion Hg as [a a0 f f0 Hw| |]; subst. eexists. split; [apply step_act|]. now apply (act_placed a a' f f').
    - inversion Hg as [|q bit0 reset0 Hq|]; subst. rewrite (proj2 Hs) in *. rewrite (sqnorm_splaced s s' Hs) in Hnorm. eexists. split; [apply step_measure; [exact Hbit|exact Hnorm|reflexivity]|].
      assert (E : shown n (spot qs q) (s_psi s') u = shown m q (s_psi s) u) by (unfold shown; now rewrite (bit_prob_placed q false s s' Hq Hs)).
      rewrite E. split; [|reflexivity]. cbn [s_psi]. now apply measured_placed.
    - inversion Hg as [|q bit0 reset0 Hq|]; subst. rewrite (proj2 Hs) in *. eexists. split; [now apply step_no_bit|exact Hs].
    - inversion Hg as [|q bit0 reset0 Hq|]; subst. rewrite (proj2 Hs) in *. rewrite (sqnorm_splaced s s' Hs) in Hnorm. eexists. split; [now apply step_not_normalised|exact I].
    - inversion Hg as [| |l l0 H2]; subst. destruct Hpick as (l1' & p & l2' & -> & Hlo & Hhi).
      apply Forall2_app_inv_r in H2 as (l1 & l2 & Ha & Hb & ->). inversion Hb as [|[p0 g0] ? l3 ? [E Hm] Hc]; subst. cbn [fst snd] in *. subst p0.
      destruct (IH g0 s Hm Hs) as (o & Ho & Hoo). exists o. split; [|exact Hoo]. apply step_choice with g0; [|exact Ho].
      assert (Esum : Rsuml fst l1 = Rsuml fst l1').
      { clear -Ha. unfold Rsuml. induction Ha as [|x y l l' [E _] _ IH]; [reflexivity|]. cbn [fold_right]. now rewrite E, IH. }
      exists l1, p, l3. split; [reflexivity|]. rewrite Esum. split; [exact Hlo|]. destruct Hhi as [Hhi| ->]; [now left|right]. now inversion Hc.
  Qed.

  (** ** Qubits *)
  Lemma smoved_operands g g' : smoved qs g g' -> Forall (fun q => q < m) (operands g) /\ forall q, In q (operands g') <-> exists i, In i (operands g) /\ q = spot qs i.
  Proof.
    revert g g'. fix IH 3. intros g g' H. destruct H as [a a' f f' Hw|q bit reset Hq|l l' H2]; cbn [operands].
    - split; [exact (sw_lt _ _ _ _ _ Hw)|exact (sw_ops _ _ _ _ _ Hw)].
    - split; [repeat constructor; exact Hq|]. intros x. split; [intros [<-|[]]; exists q; split; [now left|reflexivity]|intros (i & [<-|[]] & ->); now left].
    - revert l l' H2. fix IH2 3. intros l l' H2. destruct H2 as [|x y l l' [_ Hxy] H2]; cbn [flat_map].
      + split; [constructor|]. intros q. split; [intros []|intros (i & [] & _)].
      + destruct (IH _ _ Hxy) as [A1 A2]. destruct (IH2 _ _ H2) as [B1 B2]. split; [now apply Forall_app|]. intros q. rewrite in_app_iff, A2, B2. split.
        * intros [(i & Hi & ->)|(i & Hi & ->)]; exists i; rewrite in_app_iff; auto.
        * intros (i & Hi & ->). apply in_app_iff in Hi as [Hi|Hi]; [left|right]; eauto.
  Qed.
  Definition marks (ms ms' : list N) : Prop := Forall (fun q => q < m) ms /\ ms' = map (spot qs) ms.
  Lemma touches_moved g g' ms ms' : smoved qs g g' -> marks ms ms' -> touches ms' g' = touches ms g.
  Proof.
    intros Hg [Hm ->]. destruct (smoved_operands g g' Hg) as [Hlt Hops]. apply eq_true_iff_eq. unfold touches. rewrite !existsb_exists. rewrite Forall_forall in Hm, Hlt. split.
    - intros (q & Hq & E). apply in_map_iff in Hq as (i & <- & Hi). apply existsb_exists in E as (r & Hr & E). apply N.eqb_eq in E. subst r.
      apply Hops in Hr as (j & Hj & E). assert (i = j) by (apply (spot_inj n qs Hfit); auto). subst j. exists i. split; [exact Hi|]. apply existsb_exists. exists i. split; [exact Hj|apply N.eqb_refl].
    - intros (i & Hi & E). apply existsb_exists in E as (j & Hj & E). apply N.eqb_eq in E. subst j. exists (spot qs i). split; [now apply in_map|].
      apply existsb_exists. exists (spot qs i). split; [apply Hops; eauto|apply N.eqb_refl].
  Qed.
  Lemma unreset_moved g g' ms ms' : smoved qs g g' -> marks ms ms' -> marks (unreset_after g ms) (unreset_after g' ms').
  Proof.
    intros Hg [Hm ->]. destruct Hg as [| q bit reset Hq|]; cbn [unreset_after]; try (now split). destruct reset; [now split|]. split; [now constructor|reflexivity].
  Qed.
  Definition lmoved : list (sgate * option cond) -> list (sgate * option cond) -> Prop := Forall2 (fun a b => snd a = snd b /\ smoved qs (fst a) (fst b)).
  Lemma exec_placed wt l l' : lmoved l l' -> forall ms ms' us s s' o', marks ms ms' -> splaced s s' -> exec_list wt n l' ms' us s' o' ->
    exists o, exec_list wt m l ms us s o /\ oplaced o o'.
  Proof.
    induction 1 as [|[g c] [g' c'] l l' [E Hg] _ IH]; intros ms ms' us s s' o' Hm Hs He; cbn [fst snd] in *.
    - inversion He; subst. eexists. split; [constructor|exact Hs].
    - subst c'. pose proof (touches_moved g g' ms ms' Hg Hm) as Et.
      inversion He as [|? ? ? ? ? ? ? Hh He'|? ? ? ? ? Hh|? ? ? ? ? Hh|? ? ? ? ? Hh Hw Ht|? ? ? ? u1 v1 ? s1' ? Hh Ht Hst He'|? ? ? ? ? ? ? Hh Ht Hst Hno]; subst; rewrite (proj2 Hs) in Hh.
      + destruct (IH ms ms' us s s' o' Hm Hs He') as (o & Ho & Hoo). exists o. split; [now apply exec_skip|exact Hoo].
      + eexists. split; [now apply exec_cond_throws|exact Hs].
      + eexists. split; [now apply exec_cond_undefined|exact I].
      + eexists. split; [apply exec_touches; congruence|exact Hs].
      + destruct (step_placed g' u1 s' (SDone s1') Hst g s Hg Hs) as ([s1|s1|] & H1 & H2); try contradiction. rewrite Et in Ht.
        destruct (IH (if wt c then unreset_after g ms else ms) (if wt c then unreset_after g' ms' else ms') v1 s1 s1' o') as (o & Ho & Hoo); [|exact H2|exact He'|].
        * destruct (wt c); [now apply unreset_moved|exact Hm].
        * exists o. split; [|exact Hoo]. eapply exec_gate; eauto.
      + destruct (step_placed g' us s' o' Hst g s Hg Hs) as (o & H1 & H2). rewrite Et in Ht. exists o. split; [|exact H2]. apply exec_gate_stops; auto.
        intros s1 ->. destruct o'; try contradiction. eapply Hno. reflexivity.
  Qed.
End Ref.
