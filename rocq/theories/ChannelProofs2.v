(** The average over the random numbers of a run is the channel. *)
From Verif Require Export ChannelProofs.
From Coq Require Import ZifyBool ZifyN ZifyNat Lra FunctionalExtensionality.

(** ** Linear quantities of an ensemble *)
Record functional (n : N) (V : ensemble -> C) : Prop := {
  fun_add : forall s t, V (e_add s t) = (V s + V t)%C;
  fun_scale : forall a s, V (e_scale a s) = Cscale a (V s);
  fun_eqn : forall s t, eqn n s t -> V s = V t }.
Lemma fun_entry n T r i j : i < 2 ^ n -> j < 2 ^ n -> lin n T -> functional n (fun s => T s r i j).
Proof. intros Hi Hj [H1 H2 H3]. split; [intros; now rewrite H1|intros; now rewrite H2|intros s t H; now apply H3]. Qed.
Lemma fun_zero n V : functional n V -> V e_zero = C0.
Proof.
  intros [_ H _]. replace e_zero with (e_scale 0 e_zero) by (apply e_ext; intros; unfold e_scale, e_zero; Csolve). rewrite H. Csolve.
Qed.
Lemma fun_mixture n V : functional n V -> forall l a, V (mixture a l) = cmix a (map (fun ps => (fst ps, V (snd ps))) l).
Proof.
  intros HV. induction l as [|[p s] l IH]; intros a; [exact (fun_zero n V HV)|]. destruct l as [|y l].
  - cbn [map mixture cmix fst snd]. apply (fun_scale n V HV).
  - rewrite mixture_cons, (fun_add n V HV), (fun_scale n V HV), IH. reflexivity.
Qed.

(** ** Registers *)
Lemma with_bit_length r bit b : bit < N.of_nat (length r) -> length (with_bit r bit b) = length r.
Proof. intros H. unfold with_bit. rewrite !app_length, firstn_length, skipn_length. simpl length. lia. Qed.
Lemma with_bit_nth r bit b : bit < N.of_nat (length r) -> nth_error (with_bit r bit b) (N.to_nat bit) = Some b.
Proof. intros H. unfold with_bit. rewrite nth_error_app2; rewrite firstn_length; [|lia]. replace (N.to_nat bit - Nat.min (N.to_nat bit) (length r))%nat with 0%nat by lia. reflexivity. Qed.
Lemma with_bit_self r bit b : nth_error r (N.to_nat bit) = Some b -> with_bit r bit b = r.
Proof.
  intros H. apply nth_error_split in H. destruct H as (l1 & l2 & -> & Hl). unfold with_bit. rewrite <- Hl, firstn_app, Nat.sub_diag, firstn_all. simpl firstn.
  rewrite app_nil_r. rewrite skipn_app. rewrite skipn_all2 by lia. replace (length l1 + 1 - length l1)%nat with 1%nat by lia. reflexivity.
Qed.
Lemma with_bit_twice r bit b c : bit < N.of_nat (length r) -> with_bit (with_bit r bit b) bit c = with_bit r bit c.
Proof.
  intros H. unfold with_bit. rewrite firstn_app, firstn_firstn, firstn_length. replace (Nat.min (N.to_nat bit) (N.to_nat bit)) with (N.to_nat bit) by lia.
  replace (N.to_nat bit - Nat.min (N.to_nat bit) (length r))%nat with 0%nat by lia. simpl firstn. rewrite app_nil_r. f_equal. f_equal.
  rewrite app_assoc, skipn_app, skipn_all2 by (rewrite app_length, firstn_length; simpl; lia). rewrite app_length, firstn_length. simpl length.
  replace (N.to_nat bit + 1 - (Nat.min (N.to_nat bit) (length r) + 1))%nat with 0%nat by lia. reflexivity.
Qed.

(** ** Pure states *)
Lemma pure_eq psi r0 i j : pure psi r0 r0 i j = (psi i * Cconj (psi j))%C.
Proof. unfold pure. destruct (list_eq_dec bool_dec r0 r0); [reflexivity|congruence]. Qed.
Lemma pure_ne psi r0 r i j : r <> r0 -> pure psi r0 r i j = C0.
Proof. intros H. unfold pure. destruct (list_eq_dec bool_dec r r0); [congruence|reflexivity]. Qed.
Lemma pure_act qs f psi r0 : act_linear f -> channel (Act qs f) (pure psi r0) = pure (f psi) r0.
Proof.
  intros Hf. apply e_ext. intros r i j. cbn [channel]. unfold conjugated. destruct (list_eq_dec bool_dec r r0) as [->|Hr].
  - rewrite pure_eq. transitivity (Cconj (f (fun y => Cconj (f psi i) * psi y)%C j)).
    + f_equal. f_equal. apply functional_extensionality. intros y.
      replace (fun x => pure psi r0 r0 x y) with (fun x => Cconj (psi y) * psi x)%C by (apply functional_extensionality; intros x; rewrite pure_eq; ring).
      rewrite act_times by assumption. rewrite Cconj_mul, Cconj_invol. ring.
    + rewrite act_times by assumption. rewrite Cconj_mul, Cconj_invol. reflexivity.
  - rewrite (pure_ne _ _ _ _ _ Hr). transitivity (Cconj (f (fun _ => C0) j)); [|rewrite act_zero by assumption; apply Cconj_0].
    f_equal. f_equal. apply functional_extensionality. intros y. transitivity (Cconj (f (fun _ => C0) i)); [|rewrite act_zero by assumption; apply Cconj_0].
    f_equal. f_equal. apply functional_extensionality. intros x. now apply pure_ne.
Qed.
(** a bit that is overwritten *)
Lemma pure_forget psi r0 bit r b i j : bit < N.of_nat (length r0) -> nth_error r (N.to_nat bit) = Some b ->
  (pure psi r0 (with_bit r bit false) i j + pure psi r0 (with_bit r bit true) i j)%C = pure psi (with_bit r0 bit b) r i j.
Proof.
  intros Hb Hr. assert (Hlr : bit < N.of_nat (length r)) by (apply nth_error_split in Hr; destruct Hr as (l1 & l2 & -> & Hl); rewrite app_length; simpl; lia).
  destruct (list_eq_dec bool_dec r (with_bit r0 bit b)) as [->|Hne].
  - rewrite pure_eq, !with_bit_twice by assumption. destruct (nth_error r0 (N.to_nat bit)) as [c|] eqn:Ec; [|apply nth_error_None in Ec; lia].
    pose proof (with_bit_self r0 bit c Ec) as Es. assert (Hd : with_bit r0 bit (negb c) <> r0).
    { intros E. pose proof (with_bit_nth r0 bit (negb c) Hb) as E1. rewrite E, Ec in E1. destruct c; discriminate. }
    destruct c; cbn [negb] in Hd; rewrite Es, pure_eq, (pure_ne _ _ _ _ _ Hd); ring.
  - rewrite (pure_ne _ (with_bit r0 bit b)) by assumption. assert (Hc : forall c, with_bit r bit c <> r0).
    { intros c E. apply Hne. rewrite <- E, with_bit_twice by assumption. symmetry. now apply with_bit_self. }
    rewrite !pure_ne by apply Hc. ring.
Qed.
Lemma bit_prob_zero n q b psi x : bit_prob n q b psi = 0%R -> x < 2 ^ n -> shows_bit q b x = true -> psi x = C0.
Proof.
  intros H Hx Hs. unfold bit_prob, prob in H. apply Cnorm2_zero. apply (Rsuml_zero _ _ (fun y _ => Cnorm2_nonneg (psi y)) H). apply filter_In. split; [now apply in_seqN|assumption].
Qed.
Lemma collapsed_pure n q b reset psi i j : q < n -> i < 2 ^ n -> j < 2 ^ n ->
  collapsed q b reset (fun x y => psi x * Cconj (psi y))%C i j =
  Cscale (bit_prob n q b psi) (measured n q reset b psi i * Cconj (measured n q reset b psi j))%C.
Proof.
  intros Hq Hi Hj. set (p := bit_prob n q b psi). assert (Hp : (0 <= p)%R) by (apply prob_nonneg).
  assert (Hmeas : forall x, measured n q reset b psi x = projected n q b psi (N.lxor x (if reset && b then 2 ^ q else 0))).
  { intros x. unfold measured, flipped. destruct (reset && b); [reflexivity|now rewrite N.lxor_0_r]. }
  rewrite !Hmeas. unfold collapsed. cbn zeta. pose proof (lxor_side n q (reset && b) i Hq Hi) as Hi'. pose proof (lxor_side n q (reset && b) j Hq Hj) as Hj'.
  set (x := N.lxor i _) in *. set (y := N.lxor j _) in *. unfold projected. fold p.
  destruct (shows_bit q b x) eqn:Ex; cbn [andb]; [|Csolve]. destruct (shows_bit q b y) eqn:Ey; [|Csolve].
  destruct (Req_dec p 0) as [E0|Hn].
  - rewrite (bit_prob_zero n q b psi x) by assumption. rewrite E0. Csolve.
  - assert (E : (p * (/ sqrt p * / sqrt p) = 1)%R) by (rewrite <- Rinv_mult, sqrt_sqrt by assumption; field; assumption).
    transitivity (Cscale (p * (/ sqrt p * / sqrt p)) (psi x * Cconj (psi y)))%C; [rewrite E; Csolve|]. set (t := (/ sqrt p)%R). clear. Csolve.
Qed.
Lemma measuring_pure n q bit reset psi r0 : q < n -> bit < N.of_nat (length r0) ->
  eqn n (measuring q bit reset (pure psi r0))
        (e_add (e_scale (bit_prob n q false psi) (pure (measured n q reset false psi) (with_bit r0 bit false)))
               (e_scale (bit_prob n q true psi) (pure (measured n q reset true psi) (with_bit r0 bit true)))).
Proof.
  intros Hq Hb r i j Hi Hj. unfold measuring, e_add, e_scale. destruct (nth_error r (N.to_nat bit)) as [b|] eqn:Er.
  - assert (E : collapsed q b reset (fun i j => (pure psi r0 (with_bit r bit false) i j + pure psi r0 (with_bit r bit true) i j)%C) i j =
                          collapsed q b reset (pure psi (with_bit r0 bit b) r) i j).
    { unfold collapsed. cbn zeta. now rewrite (pure_forget psi r0 bit r b) by assumption. }
    rewrite E. clear E. assert (Ho : pure (measured n q reset (negb b) psi) (with_bit r0 bit (negb b)) r i j = C0).
    { apply pure_ne. intros ->. rewrite with_bit_nth in Er by assumption. destruct b; discriminate. }
    assert (Hmain : collapsed q b reset (pure psi (with_bit r0 bit b) r) i j = Cscale (bit_prob n q b psi) (pure (measured n q reset b psi) (with_bit r0 bit b) r i j)).
    { destruct (list_eq_dec bool_dec r (with_bit r0 bit b)) as [->|Hne].
      - rewrite pure_eq, <- collapsed_pure by assumption. unfold collapsed. cbn zeta. now rewrite pure_eq.
      - rewrite (pure_ne _ _ _ _ _ Hne). unfold collapsed. cbn zeta. rewrite (pure_ne _ _ _ _ _ Hne). destruct (_ && _); Csolve. }
    rewrite Hmain. destruct b; cbn [negb] in Ho; rewrite Ho; Csolve.
  - rewrite !pure_ne; [Csolve| |]; (intros ->; rewrite with_bit_nth in Er by assumption; discriminate).
Qed.

(** ** One gate *)
Lemma shown_mean n q psi (a b : C) : sqnorm n psi = 1%R ->
  cint (fun u => if shown n q psi u then b else a) 0 1 (Cscale (bit_prob n q false psi) a + Cscale (bit_prob n q true psi) b)%C.
Proof.
  intros H. pose proof (bit_prob_sum n q psi) as E. rewrite H in E. assert (H0 : (0 <= bit_prob n q false psi)%R) by apply prob_nonneg.
  assert (H1 : (0 <= bit_prob n q true psi)%R) by apply prob_nonneg. apply cint_join with (bit_prob n q false psi).
  - replace (bit_prob n q false psi) with (bit_prob n q false psi - 0)%R at 2 by ring. apply cint_piece; [assumption|]. intros u Hu. unfold shown. destruct (Rlt_dec _ _); [reflexivity|lra].
  - replace (bit_prob n q true psi) with (1 - bit_prob n q false psi)%R by lra. apply cint_piece; [lra|]. intros u Hu. unfold shown. destruct (Rlt_dec _ _); [lra|reflexivity].
Qed.
Lemma draws_In (l : list (R * sgate)) p g : In (p, g) l -> (draws g <= fold_right Nat.max 0 (map (fun pg => draws (snd pg)) l))%nat.
Proof. induction l as [|x l IH]; [intros []|]. cbn [map fold_right]. intros [->|H]; [cbn [snd]; lia|]. specialize (IH H). lia. Qed.
Lemma gate_average n V : functional n V -> forall g, fine n g -> proper g -> forall s, sqnorm n (s_psi s) = 1%R ->
  forall k (K : list R -> sstate -> C -> Prop),
  (forall us s', Forall unit_draw us -> step n g us s (SDone s') -> forall k', (k <= k')%nat -> averaged k' (fun us => K us s') (V (pure (s_psi s') (s_reg s')))) ->
  forall k', (draws g + k <= k')%nat ->
  averaged k' (fun us v => forall us1 us2 s', us = us1 ++ us2 -> step n g us1 s (SDone s') -> K us2 s' v) (V (channel g (pure (s_psi s) (s_reg s)))).
Proof.
  intros HV. induction g as [qs f|q bit reset|l IH] using sgate_ind'; intros Hf Hp s Hs k K HK k' Hk.
  - rewrite pure_act by apply Hf. eapply averaged_mono; [|apply (HK [] (SState (f (s_psi s)) (s_reg s))); [constructor|constructor|cbn [draws] in Hk; lia]].
    intros us v _ _ H us1 us2 s' -> Hst. inversion Hst; subst. exact H.
  - cbn [draws] in Hk. destruct k' as [|k']; [lia|]. destruct (N.ltb_spec bit (N.of_nat (length (s_reg s)))) as [Hb|Hb].
    + cbn [channel]. rewrite (fun_eqn n V HV _ _ (measuring_pure n q bit reset (s_psi s) (s_reg s) Hf Hb)), (fun_add n V HV), !(fun_scale n V HV).
      set (a := V (pure (measured n q reset false (s_psi s)) (with_bit (s_reg s) bit false))).
      set (b := V (pure (measured n q reset true (s_psi s)) (with_bit (s_reg s) bit true))).
      apply (averaged_next k' _ (fun u => if shown n q (s_psi s) u then b else a)); [|now apply shown_mean]. intros u Hu.
      set (s1 := SState (measured n q reset (shown n q (s_psi s) u) (s_psi s)) (with_bit (s_reg s) bit (shown n q (s_psi s) u))).
      replace (if shown n q (s_psi s) u then b else a) with (V (pure (s_psi s1) (s_reg s1))) by (unfold s1, a, b; cbn [s_psi s_reg]; now destruct (shown n q (s_psi s) u)).
      eapply averaged_mono; [|apply (HK [u] s1); [constructor; [exact Hu|constructor]|now constructor|lia]].
      intros us v _ _ H us1 us2 s' E Hst. inversion Hst; subst. cbn [app] in E. injection E as <- <-. exact H.
    + apply averaged_const. intros us _ _ us1 us2 s' _ Hst. inversion Hst; subst; lia.
  - cbn [draws] in Hk. destruct k' as [|k']; [lia|]. destruct l as [|x l0] eqn:El.
    { apply averaged_const. intros us _ _ us1 us2 s' _ Hst. inversion Hst as [| | | |? ? ? ? ? ? (l1 & ? & ? & Hx & _)]; subst. destruct l1; discriminate Hx. }
    rewrite <- El in *. assert (Hne : l <> []) by (rewrite El; discriminate). clear El x l0.
    destruct (proper_Choice l Hp) as [Hpos Hprop]. pose proof (fine_Choice n l Hf) as Hfine. rewrite Forall_forall in IH. cbn [channel]. rewrite (fun_mixture n V HV), map_map. cbn [fst snd].
    set (d := Act [] (fun psi => psi)). set (Q := fun g => V (channel g (pure (s_psi s) (s_reg s)))).
    apply (averaged_next k' _ (fun u => Q (pick d 0 l u))).
    + intros u Hu. destruct (pick_In d u l 0 Hne) as [p Hin]. set (g := pick d 0 l u) in *.
      eapply averaged_mono; [|apply (IH (p, g) Hin (Hfine _ Hin) (Hprop _ Hin) s Hs k K)].
      * intros us v _ _ H us1 us2 s' E Hst. inversion Hst as [| | | |? u' g' us' ? ? Hpick Hst']; subst. cbn [app] in E. injection E as <- ->.
        destruct Hpick as (l1 & p' & l2 & -> & H1 & H2). assert (Eg : g = g').
        { unfold g. apply pick_picks; [now apply Forall_app in Hpos|lra|]. destruct H2; [left; lra|now right]. }
        apply (H us' us2 s' eq_refl). cbn [snd]. rewrite Eg. exact Hst'.
      * intros us s' Hus Hst k1 Hk1. apply (HK (u :: us) s'); [constructor; assumption| |assumption].
        econstructor; [|exact Hst]. cbn [snd]. unfold g. clear - Hne Hpos Hu. assert (Hgen : forall l a, l <> [] -> (a <= u)%R -> exists l1 p l2, l = l1 ++ (p, pick d a l u) :: l2 /\ (a + Rsuml fst l1 <= u)%R /\ ((u < a + Rsuml fst l1 + p)%R \/ l2 = [])).
        { clear. induction l as [|[p g] l IH]; intros a Hl Ha; [congruence|]. destruct l as [|y l].
          - exists [], p, []. cbn [pick app]. unfold Rsuml. cbn [fold_right]. split; [reflexivity|]. split; [simpl; lra|now right].
          - rewrite pick_cons. destruct (Rlt_dec u (a + p)) as [Hlt|Hge].
            + exists [], p, (y :: l). split; [reflexivity|]. unfold Rsuml. simpl. split; [lra|left; lra].
            + destruct (IH (a + p)%R ltac:(discriminate) ltac:(lra)) as (l1 & p' & l2 & E & H1 & H2). exists ((p, g) :: l1), p', l2.
              change (Rsuml fst ((p, g) :: l1)) with (p + Rsuml fst l1)%R. split; [cbn [app]; now rewrite <- E|]. split; [lra|]. destruct H2; [left; lra|now right]. }
        destruct (Hgen l 0%R Hne ltac:(apply Hu)) as (l1 & p & l2 & E & H1 & H2). exists l1, p, l2. split; [exact E|]. rewrite Rplus_0_l in *. now split.
      * cbn [snd]. pose proof (draws_In l p g Hin). lia.
    + assert (Em : (fun u => Q (pick d 0 l u)) = pick (Q d) 0 (map (fun pg => (fst pg, Q (snd pg))) l)) by (apply functional_extensionality; intros u; now rewrite pick_map).
      rewrite Em. pose proof (pick_mean (Q d) (map (fun pg => (fst pg, Q (snd pg))) l) 0) as Hpm.
      replace (clip 0) with 0%R in Hpm by (unfold clip; rewrite Rmin_right by lra; rewrite Rmax_left; lra). apply Hpm; [|lra|].
      * destruct l; [congruence|discriminate].
      * apply Forall_forall. intros px Hx. apply in_map_iff in Hx. destruct Hx as (pg & <- & Hx). cbn [fst]. rewrite Forall_forall in Hpos. now apply Hpos.
Qed.

(** ** Lists of gates *)
Lemma conditioned_on n c T psi r0 : lin n T -> holds c r0 = Ok true -> conditioned c T (pure psi r0) = T (pure psi r0).
Proof.
  intros HT H. unfold conditioned.
  replace (fun r => match holds c r with Ok true => pure psi r0 r | _ => fun _ _ => C0 end) with (pure psi r0).
  2: { apply e_ext. intros r i j. destruct (list_eq_dec bool_dec r r0) as [->|Hr]; [now rewrite H|]. rewrite pure_ne by assumption. destruct (holds c r) as [[]| |]; try reflexivity. now rewrite pure_ne. }
  apply e_ext. intros r i j. unfold e_add. assert (E : (match holds c r with Ok false => pure psi r0 r | _ => fun _ _ => C0 end) i j = C0).
  { destruct (list_eq_dec bool_dec r r0) as [->|Hr]; [now rewrite H|]. destruct (holds c r) as [[]| |]; try reflexivity. now rewrite pure_ne. }
  rewrite E. ring.
Qed.
Lemma lin_e_zero n T : lin n T -> T e_zero = e_zero.
Proof.
  intros H. replace e_zero with (e_scale 0 e_zero) at 1 by (apply e_ext; intros; unfold e_scale, e_zero; Csolve). rewrite (lin_scale n T H).
  apply e_ext. intros. unfold e_scale, e_zero. Csolve.
Qed.
Lemma conditioned_off n c T psi r0 : lin n T -> holds c r0 = Ok false -> conditioned c T (pure psi r0) = pure psi r0.
Proof.
  intros HT H. unfold conditioned.
  replace (fun r => match holds c r with Ok true => pure psi r0 r | _ => fun _ _ => C0 end) with e_zero.
  2: { apply e_ext. intros r i j. destruct (list_eq_dec bool_dec r r0) as [->|Hr]; [now rewrite H|]. destruct (holds c r) as [[]| |]; try reflexivity. now rewrite pure_ne. }
  rewrite (lin_e_zero n T HT). apply e_ext. intros r i j. unfold e_add, e_zero.
  destruct (list_eq_dec bool_dec r r0) as [->|Hr]; [rewrite H; ring|]. rewrite pure_ne by assumption. destruct (holds c r) as [[]| |]; try ring. rewrite pure_ne by assumption. ring.
Qed.
Definition list_gives (w : option cond -> bool) (n : N) (l : list (sgate * option cond)) (ms : list N) (s : sstate) (r : list bool) (i j : N) (us : list R) (v : C) : Prop :=
  forall us1 us2 s', us = us1 ++ us2 -> exec_list w n l ms us1 s (SDone s') -> pure (s_psi s') (s_reg s') r i j = v.
Lemma list_average w n r i j : i < 2 ^ n -> j < 2 ^ n -> forall l, Forall (fun gc => fine n (fst gc) /\ proper (fst gc) /\ keeps_norm n (fst gc)) l ->
  forall ms s, sqnorm n (s_psi s) = 1%R -> forall k, (draws_list l <= k)%nat ->
  averaged k (list_gives w n l ms s r i j) (channels l (pure (s_psi s) (s_reg s)) r i j).
Proof.
  intros Hi Hj. induction l as [|[g c] l IH]; intros HF ms s Hs k Hk.
  - apply averaged_const. intros us _ _ us1 us2 s' _ H. inversion H; subst. reflexivity.
  - inversion HF as [|? ? (Hf & Hp & Hn) HF']; subst. cbn [fst draws_list channels] in *.
    assert (Hlin : lin n (channel g)) by now apply lin_channel. destruct (holds c (s_reg s)) as [[]| |] eqn:Ec.
    + rewrite (conditioned_on n) by assumption. destruct (w c && touches ms g) eqn:Et.
      { apply andb_prop in Et. destruct Et as [E1 E2]. apply averaged_const. intros us _ _ us1 us2 s' _ H.
        inversion H as [|? ? ? ? ? ? ? Hc'| | | |? ? ? ? ? ? ? ? ? Hc' Ht|? ? ? ? ? ? ? ? ? ? Hnd]; subst; try congruence; [|exfalso; eapply Hnd; reflexivity].
        specialize (Ht E1). congruence. }
      assert (Ht : w c = true -> touches ms g = false) by (intros E; rewrite E in Et; exact Et).
      pose proof (gate_average n (fun e => channels l e r i j) (fun_entry n (channels l) r i j Hi Hj (lin_channels n l ltac:(eapply Forall_impl; [|exact HF']; intros x (Hx & _); exact Hx))) g Hf Hp s Hs (draws_list l)
                    (fun us s' v => list_gives w n l (if w c then unreset_after g ms else ms) s' r i j us v)) as HG.
      eapply averaged_mono; [|apply HG; [|exact Hk]].
      * intros us v _ _ H us1 us2 s' E Hx. inversion Hx as [|? ? ? ? ? ? ? Hc'| | | |? ? ? ? us' vs ? s1 ? Hc' Ht' Hst Hr|? ? ? ? ? ? ? ? ? ? Hnd]; subst; try congruence; [|exfalso; eapply Hnd; reflexivity].
        rewrite <- app_assoc in H. exact (H us' (vs ++ us2) s1 eq_refl Hst vs us2 s' eq_refl Hr).
      * intros us s' Hus Hst k' Hk'. apply IH; auto. pose proof (step_normalised n g Hn us s _ Hus Hs Hst) as E. exact E.
    + rewrite (conditioned_off n) by assumption. eapply averaged_mono; [|apply (IH HF' ms s Hs k); lia].
      intros us v _ _ H us1 us2 s' E Hx. inversion Hx; subst; try congruence. eapply H; [reflexivity|eassumption].
    + apply averaged_const. intros us _ _ us1 us2 s' _ H. inversion H; subst; congruence.
    + apply averaged_const. intros us _ _ us1 us2 s' _ H. inversion H; subst; congruence.
Qed.
Lemma step_draws n g : forall us s o, step n g us s o -> (length us <= draws g)%nat.
Proof.
  induction g as [qs f|q b r|l IH] using sgate_ind'; intros us s o H; inversion H as [| | | |? u g us' ? ? Hp Hst]; subst; cbn [draws length]; try lia.
  destruct Hp as (l1 & p & l2 & E & _). assert (Hin : In (p, g) l) by (rewrite E; apply in_or_app; right; now left).
  rewrite Forall_forall in IH. pose proof (IH (p, g) Hin _ _ _ Hst) as H1. pose proof (draws_In l p g Hin). cbn [snd] in H1. lia.
Qed.
Lemma exec_draws w n l : forall ms us s o, exec_list w n l ms us s o -> (length us <= draws_list l)%nat.
Proof.
  induction l as [|[g c] l IH]; intros ms us s o H; inversion H; subst; cbn [draws_list length]; try lia.
  - match goal with H : exec_list _ _ l _ _ _ _ |- _ => apply IH in H end. lia.
  - rewrite app_length. match goal with H : exec_list _ _ l _ _ _ _ |- _ => apply IH in H end. match goal with H : step _ _ _ _ _ |- _ => apply step_draws in H end. lia.
  - match goal with H : step _ _ _ _ _ |- _ => apply step_draws in H end. lia.
Qed.
