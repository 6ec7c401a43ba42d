(** Circuits whose runs are never stopped, and an example. *)
From Verif Require Export ChannelProofs4.
From Coq Require Import ZifyBool ZifyN ZifyNat Lra FunctionalExtensionality.

Lemma step_never_stops n g m : bits_exist m g -> forall us s o, length (s_reg s) = m -> sqnorm n (s_psi s) = 1%R -> step n g us s o -> exists s', o = SDone s'.
Proof.
  induction g as [qs f|q b r|l IH] using sgate_ind'; intros Hb us s o Hl Hs H; inversion H as [| | | |? u g us' ? ? Hp Hst]; subst; eauto; cbn [bits_exist] in Hb.
  - lia.
  - contradiction.
  - destruct Hp as (l1 & p & l2 & -> & _). rewrite Forall_forall in IH. assert (Hin : In (p, g) (l1 ++ (p, g) :: l2)) by (apply in_or_app; right; now left).
    refine (IH (p, g) Hin _ us' s o eq_refl Hs Hst). clear - Hb. cbn [snd]. induction l1 as [|x l1 IH]; cbn [app fold_right snd] in Hb; [apply Hb|apply IH, Hb].
Qed.
Lemma touches_less ms ms' g : incl ms ms' -> touches ms' g = false -> touches ms g = false.
Proof.
  intros Hi H. destruct (touches ms g) eqn:E; [|reflexivity]. rewrite <- H. symmetry. unfold touches in *. apply existsb_exists in E. destruct E as (q & Hq & E).
  apply existsb_exists. exists q. split; [now apply Hi|exact E].
Qed.
Lemma unreset_incl g ms ms' : incl ms ms' -> incl (unreset_after g ms) (unreset_after g ms').
Proof. intros H. destruct g as [| q b []|]; cbn [unreset_after]; auto. intros x [<-|Hx]; [now left|right; auto]. Qed.
Lemma unreset_more g ms : incl ms (unreset_after g ms).
Proof. destruct g as [| q b []|]; cbn [unreset_after]; try apply incl_refl. apply incl_tl, incl_refl. Qed.
Lemma step_reg_length n g : forall us s s', step n g us s (SDone s') -> length (s_reg s') = length (s_reg s).
Proof.
  induction g as [qs f|q b r|l IH] using sgate_ind'; intros us s s' H; inversion H as [| | | |? u g us' ? ? Hp Hst]; subst; cbn [s_reg]; auto; [now apply with_bit_length|].
  destruct Hp as (l1 & p & l2 & E & _). rewrite Forall_forall in IH. apply (IH (p, g)) with us'; auto. rewrite E. apply in_or_app. right. now left.
Qed.
Lemma exec_never_stops n m : forall l ms ms', orderly m ms' l -> incl ms ms' -> Forall (fun gc => keeps_norm n (fst gc)) l -> forall us s o, Forall unit_draw us ->
  length (s_reg s) = m -> sqnorm n (s_psi s) = 1%R -> exec_list watch_all n l ms us s o -> exists s', o = SDone s'.
Proof.
  induction l as [|[g c] l IH]; intros ms ms' Ho Hi HF us s o Hu Hl Hs H.
  - inversion H; subst. eauto.
  - destruct Ho as (Hb & Hc & Ht & Ho). inversion HF as [|? ? Hg HF']; subst. cbn [fst] in Hg. destruct (Hc (s_reg s) eq_refl) as [b Eb].
    inversion H as [|? ? ? ? ? ? ? Hc' Hr|? ? ? ? ? Hc'|? ? ? ? ? Hc'|? ? ? ? ? Hc' Hw Hto|? ? ? ? us1 us2 ? s1 ? Hc' Hn' Hst Hr|? ? ? ? ? ? ? Hc' Hn' Hst Hx]; subst; try congruence.
    + refine (IH ms (unreset_after g ms') Ho _ HF' us s o Hu eq_refl Hs Hr). intros x Hx. apply unreset_more. auto.
    + rewrite (touches_less ms ms' g Hi Ht) in Hto. discriminate.
    + apply Forall_app in Hu. destruct Hu as [Hu1 Hu2]. cbn [watch_all] in Hr.
      refine (IH _ _ Ho (unreset_incl g ms ms' Hi) HF' us2 s1 o Hu2 _ (step_normalised n g Hg us1 s (SDone s1) Hu1 Hs Hst) Hr). exact (step_reg_length n g us1 s s1 Hst).
    + exact (step_never_stops n g _ Hb us s o eq_refl Hs Hst).
Qed.
Theorem orderly_never_stops n ps p l psi r0 : Forall (fun q => q < n) (program_operands p) -> instantiate ps p = Some l -> norm_kept n ps p -> sqnorm n psi = 1%R ->
  orderly (length r0) [] l -> never_stops n ps p psi r0.
Proof.
  intros HF Hl Hk Hs Ho us o Hu H. unfold run_program in H. rewrite Hl in H.
  assert (E : existsb (fun q => n <=? q) (program_operands p) = false).
  { destruct (existsb (fun q => n <=? q) (program_operands p)) eqn:E; [|reflexivity]. apply existsb_exists in E. destruct E as (q & Hq & E). rewrite Forall_forall in HF. specialize (HF q Hq). lia. }
  rewrite E in H. exact (exec_never_stops n (length r0) l [] [] Ho (incl_refl _) (instantiate_kept n ps p l Hk Hl) us (SState psi r0) o Hu eq_refl Hs H).
Qed.
Lemma ex_never_stops : never_stops 2 (fun _ => Some 1%R) ex_program ex_zero [false].
Proof.
  eapply orderly_never_stops; [repeat constructor|reflexivity|exact ex_kept|exact ex_zero_norm|].
  assert (Hn : forall r : list bool, length r = length [false] -> exists b, holds None r = Ok b) by (intros r _; eexists; reflexivity).
  cbn [orderly]. refine (conj I (conj Hn (conj eq_refl (conj _ (conj Hn (conj eq_refl (conj I (conj _ (conj eq_refl (conj I (conj Hn (conj eq_refl I)))))))))))).
  - reflexivity.
  - intros [|b [|]] Hr; try discriminate. cbn [holds]. unfold bit_cond, reg_read. eexists. reflexivity.
Qed.
(** H, then measure: a coin *)
Definition coin_circuit : circuit := build [OGate (CElem (true, ex_H)); OGate (CMeas 1 0 false)].
Definition coin : program := [(SFixed (act_of (Call1 GH 0 [] [])), None); (SFixed (Meas 0 0 false), None)].
Definition coin_gates := [(act_of (Call1 GH 0 [] []), @None cond); (Meas 0 0 false, None)].
Lemma conditioned_none n T s : lin n T -> conditioned None T s = T s.
Proof. intros H. unfold conditioned. cbn [holds]. apply e_ext. intros. unfold e_add. replace (fun r => s r) with s by reflexivity. ring. Qed.
Lemma coin_value b i j : i < 2 -> j < 2 -> channels coin_gates (pure ex_zero [false]) [b] i j = if (i =? N.b2n b) && (j =? N.b2n b) then ((1 / 2)%R, 0%R) else C0.
Proof.
  intros Hi Hj. cbn [coin_gates channels]. assert (Hf : fine 1 (act_of (Call1 GH 0 [] []))).
  { apply (acts_fine 1 ex_H); [lia| |repeat constructor]. apply (acts_factory true); [exact I|reflexivity]. }
  rewrite (conditioned_none 1 (channel (Meas 0 0 false))) by (apply lin_channel; reflexivity). rewrite (conditioned_none 1) by (apply lin_channel; exact Hf).
  unfold act_of. rewrite pure_act by apply Hf. cbn [channel].
  unfold measuring. change (nth_error [b] (N.to_nat 0)) with (Some b). cbv iota beta. unfold collapsed. cbn [andb]. cbv zeta. rewrite !N.lxor_0_r.
  change (with_bit [b] 0 false) with [false]. change (with_bit [b] 0 true) with [true].
  rewrite pure_eq, (pure_ne _ [false] [true]) by discriminate.
  set (phi := apply_mat _ _ _ _).
  assert (Hphi : forall x, x < 2 -> phi x = RtoC (/ sqrt 2)).
  { intros x Hx. assert (x = 0 \/ x = 1) as [-> | ->] by lia; unfold phi, apply_mat; cbn [call_targets call_controls call_matrix ctrl_ok combine forallb length]; change (2 ^ N.of_nat 1) with 2;
      rewrite Csum_2; unfold ex_zero.
    - change (scatter [0] 0 0) with 0. change (scatter [0] 1 0) with 1. change (gather [0] 0) with 0. cbn. unfold isq2. Csolve.
    - change (scatter [0] 0 1) with 0. change (scatter [0] 1 1) with 1. change (gather [0] 1) with 1. cbn. unfold isq2. Csolve. }
  rewrite !Hphi by assumption. assert (E : (/ sqrt 2 * / sqrt 2 = 1 / 2)%R) by (rewrite <- Rinv_mult, sqrt_sqrt by lra; lra).
  assert (Hb : forall x, x < 2 -> shows_bit 0 b x = (x =? N.b2n b)) by (intros x Hx; assert (x = 0 \/ x = 1) as [-> | ->] by lia; now destruct b).
  rewrite !Hb by assumption. destruct (_ && _); [|reflexivity]. apply C_eq; Cunfold; cbn [fst snd]; lra.
Qed.
Lemma coin_is : circuit_is coin_circuit coin.
Proof.
  split; [|reflexivity]. apply Forall2_cons; [|apply Forall2_cons; [|apply Forall2_nil]].
  - apply represents_gate. exact (noise1_stands GH 0 eq_refl).
  - apply represents_gate. now apply stands_measure.
Qed.
Lemma coin_kept : norm_kept 1 (fun _ => None) coin.
Proof.
  assert (Hc : cond_defined None) by (intros r; discriminate).
  repeat apply Forall_cons; [| |apply Forall_nil]; (split; [assumption|]); cbn [fst snd item_gate]; intros g [= <-]; [|reflexivity].
  apply (unitary_act_keeps 1 true _ ex_H); try reflexivity; try exact I. repeat constructor.
Qed.
Lemma coin_norm : sqnorm 1 ex_zero = 1%R.
Proof. unfold sqnorm, Rsuml. cbn. unfold Cnorm2, Re, Im, C0, C1. simpl. ring. Qed.
Lemma coin_never_stops : never_stops 1 (fun _ => None) coin ex_zero [false].
Proof.
  eapply orderly_never_stops; [repeat constructor|reflexivity|exact coin_kept|exact coin_norm|].
  assert (Hn : forall r : list bool, length r = length [false] -> exists b, holds None r = Ok b) by (intros r _; eexists; reflexivity).
  cbn [orderly]. refine (conj I (conj Hn (conj eq_refl (conj _ (conj Hn (conj eq_refl I)))))). reflexivity.
Qed.
Theorem coin_fair L b : lanes_ok L -> averaged 1 (run_gives 1 (circuit_update 1 L (fun _ => None) coin_circuit) ex_zero [false] (shows_register [b])) ((1 / 2)%R, 0%R).
Proof.
  intros HL. pose proof (register_average 1 L _ _ _ coin_gates _ _ eq_refl HL coin_is coin_kept coin_norm coin_never_stops eq_refl [b]) as H.
  change (2 ^ 1) with 2 in H. rewrite Csum_2, !coin_value in H by lia. replace ((1 / 2)%R, 0%R) with ((if (0 =? N.b2n b) && (0 =? N.b2n b) then ((1 / 2)%R, 0%R) else C0) + (if (1 =? N.b2n b) && (1 =? N.b2n b) then ((1 / 2)%R, 0%R) else C0))%C; [exact H|].
  destruct b; apply C_eq; cbn; lra.
Qed.
Lemma choice_channel l s : l <> [] -> Forall (fun pg => 0 <= fst pg)%R l -> Rsuml fst l = 1%R ->
  channel (Choice l) s = fold_right (fun pg e => e_add (e_scale (fst pg) (channel (snd pg) s)) e) e_zero l.
Proof.
  intros Hl HF Hsum. cbn [channel]. rewrite mixture_exact.
  - clear. induction l as [|x l IH]; [reflexivity|]. cbn [map fold_right fst snd]. now rewrite IH.
  - destruct l; [congruence|discriminate].
  - lra.
  - apply Forall_forall. intros y Hy. apply in_map_iff in Hy. destruct Hy as (x & <- & Hx). rewrite Forall_forall in HF. exact (HF x Hx).
  - rewrite Rsuml_map. cbn [fst]. rewrite Rplus_0_l. exact Hsum.
Qed.
