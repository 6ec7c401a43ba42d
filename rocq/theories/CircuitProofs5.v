(** The reference semantics: normalisation and determinism. *)
From Verif Require Export CircuitProofs4.
From Coq Require Import ZifyBool ZifyN ZifyNat Permutation Lra.

Section SgateInd.
  Variable P : sgate -> Prop.
  Hypothesis Ha : forall qs f, P (Act qs f).
  Hypothesis Hm : forall q b r, P (Meas q b r).
  Hypothesis Hc : forall l, Forall (fun pg => P (snd pg)) l -> P (Choice l).
  Fixpoint sgate_ind' (g : sgate) : P g :=
    match g with
    | Act qs f => Ha qs f
    | Meas q b r => Hm q b r
    | Choice l => Hc l ((fix go (l : list (R * sgate)) : Forall (fun pg => P (snd pg)) l :=
        match l with [] => Forall_nil _ | x :: r => @Forall_cons _ (fun pg => P (snd pg)) x r (sgate_ind' (snd x)) (go r) end) l)
    end.
End SgateInd.

(** ** Norm *)
Lemma Cnorm2_scale r z : Cnorm2 (Cscale r z) = (r * r * Cnorm2 z)%R.
Proof. unfold Cnorm2, Cscale. simpl. ring. Qed.
Lemma sqnorm_projected n q b psi : (0 < bit_prob n q b psi)%R -> sqnorm n (projected n q b psi) = 1%R.
Proof.
  intros H. set (r := (/ sqrt (bit_prob n q b psi))%R). transitivity (r * r * sqnorm n (fun x => if shows_bit q b x then psi x else C0))%R.
  - unfold sqnorm. rewrite <- Rsuml_scale. apply Rsuml_ext_seqN. intros x _. unfold projected. fold r. destruct (shows_bit q b x); [apply Cnorm2_scale|].
    rewrite Cnorm2_C0. ring.
  - rewrite sqnorm_project. fold (bit_prob n q b psi). unfold r. rewrite <- Rinv_mult, sqrt_sqrt by lra. apply Rinv_l. lra.
Qed.
Lemma lxor_pow2_invol x q : N.lxor (N.lxor x (2 ^ q)) (2 ^ q) = x.
Proof. now rewrite N.lxor_assoc, N.lxor_nilpotent, N.lxor_0_r. Qed.
Lemma sqnorm_flipped n q psi : q < n -> sqnorm n (flipped q psi) = sqnorm n psi.
Proof.
  intros Hq. unfold sqnorm, flipped. rewrite <- (Rsuml_map (fun x => N.lxor x (2 ^ q)) (fun x => Cnorm2 (psi x))). apply Rsuml_perm.
  assert (Hp : 2 ^ q < 2 ^ n) by (apply N.pow_lt_mono_r; lia).
  apply NoDup_Permutation_bis.
  - apply FinFun.Injective_map_NoDup; [|apply NoDup_seqN]. intros x y E. rewrite <- (lxor_pow2_invol x q), <- (lxor_pow2_invol y q). now rewrite E.
  - rewrite map_length. auto.
  - intros x Hx. apply in_map_iff in Hx. destruct Hx as (y & <- & Hy). apply in_seqN in Hy. apply in_seqN. now apply lxor_lt_pow2.
Qed.
Lemma sqnorm_measured n q reset b psi : q < n -> (0 < bit_prob n q b psi)%R -> sqnorm n (measured n q reset b psi) = 1%R.
Proof. intros Hq H. unfold measured. destruct (reset && b); [rewrite sqnorm_flipped by assumption|]; now apply sqnorm_projected. Qed.
Lemma step_normalised n g : keeps_norm n g -> forall us s o, Forall unit_draw us -> sqnorm n (s_psi s) = 1%R -> step n g us s o ->
  match o with SDone s' => sqnorm n (s_psi s') = 1%R | SThrown _ => True | SOutside => False end.
Proof.
  induction g as [qs f|q b r|l IH] using sgate_ind'; intros Hk us s o Hu Hs H; inversion H as [? ? ?|? ? ? u ? ? Hb Hn Hsh|? ? ? ? Hb|? ? ? ? Hb Hn|? u g us' ? ? Hp Hst]; subst.
  - simpl. rewrite Hk. exact Hs.
  - simpl. apply sqnorm_measured; [exact Hk|]. inversion Hu; subst. now apply shown_possible.
  - exact I.
  - contradiction.
  - inversion Hu; subst. destruct Hp as (l1 & p & l2 & -> & _). rewrite Forall_forall in IH.
    assert (Hin : In (p, g) (l1 ++ (p, g) :: l2)) by (apply in_or_app; right; now left).
    apply (IH (p, g) Hin) with (us := us') (s := s) (o := o); auto.
    clear - Hk. induction l1 as [|x l1 IH]; simpl in Hk; [apply Hk|apply IH, Hk].
Qed.
Lemma exec_inside w n l : Forall (fun gc => keeps_norm n (fst gc) /\ cond_defined (snd gc)) l -> forall ms us s, Forall unit_draw us ->
  sqnorm n (s_psi s) = 1%R -> ~ exec_list w n l ms us s SOutside.
Proof.
  induction l as [|[g c] l IH]; intros HF ms us s Hu Hs H; inversion HF as [|? ? [Hk Hc] HF']; subst; [|cbn [fst snd] in *].
  - inversion H.
  - inversion H; subst.
    + eapply IH; eauto.
    + eapply Hc; eassumption.
    + apply Forall_app in Hu. destruct Hu as [Hu1 Hu2].
      match goal with Hst : step n g _ _ (SDone _) |- _ => pose proof (step_normalised n g Hk _ _ _ Hu1 Hs Hst) as Hn end. simpl in Hn. eapply IH; eassumption.
    + match goal with Hst : step n g _ _ SOutside |- _ => exact (step_normalised n g Hk _ _ _ Hu Hs Hst) end.
Qed.
Lemma instantiate_In ps p : forall l, instantiate ps p = Some l -> forall g c, In (g, c) l -> exists i, In (i, c) p /\ item_gate ps i = Some g.
Proof.
  induction p as [|[i c] p IH]; intros l Hl g c' Hin; simpl in Hl; [injection Hl as <-; destruct Hin|].
  destruct (item_gate ps i) as [g0|] eqn:Ei; [|discriminate]. destruct (instantiate ps p) as [l'|]; [|discriminate]. injection Hl as <-.
  destruct Hin as [[= -> ->]|Hin]; [exists i; split; [now left|assumption]|]. destruct (IH l' eq_refl g c' Hin) as (i' & H1 & H2). exists i'. split; [now right|assumption].
Qed.
Lemma program_inside w n ps p us s : norm_kept n ps p -> Forall unit_draw us -> sqnorm n (s_psi s) = 1%R -> ~ run_program w n ps p us s SOutside.
Proof.
  intros Hk Hu Hs H. unfold run_program in H. destruct (existsb _ _); [destruct H; discriminate|]. destruct (instantiate ps p) as [l|] eqn:El; [|destruct H; discriminate].
  revert H. apply exec_inside; auto. apply Forall_forall. intros [g c] Hin. cbn [fst snd]. destruct (instantiate_In ps p l El g c Hin) as (i & H1 & H2).
  unfold norm_kept in Hk. rewrite Forall_forall in Hk. specialize (Hk (i, c) H1). cbn [fst snd] in Hk. split; [now apply Hk|apply Hk].
Qed.
(** what a unitary call gives *)
Lemma unitary_act_keeps n vf k g : n < 64 -> call_typed k -> make vf k = Ok g -> call_unitary k -> Forall (fun q => q < n) (call_operands k) -> keeps_norm n (act_of k).
Proof.
  intros Hn Hty Hm Hun HF psi. unfold act_of. destruct (acts_spec g (act_of k) (acts_factory vf k g Hty Hm)) as (qs & f & E & Hw & _ & Hsem).
  injection E as <- <-. destruct (Hsem n Hn HF) as [Hfit Hf].
  assert (E1 : sqnorm n (apply_mat (call_targets k) (call_controls k) (call_matrix k) psi) = sqnorm n (gate_sem g psi)) by (apply sqnorm_ext; intros; apply Hf).
  rewrite E1. pose proof (gate_sem_norm n g psi Hn Hw Hfit) as Hnorm. rewrite <- !sqnorm_norm2 in Hnorm.
  apply RtoC_inj. pose proof (make_unitary vf k g Hm Hun) as Hgu. pose proof (call_wf_ops vf k g n Hty Hm HF) as Hops.
  destruct k; try exact (Hnorm Hgu); rewrite <- E1, !sqnorm_norm2; unfold norm2; (apply apply_mat_unitary_inner; [assumption|apply Hun]).
Qed.

(** ** Determinism *)
Lemma picks_unique l u g g' : Forall (fun pg => 0 <= fst pg)%R l -> picks l u g -> picks l u g' -> g = g'.
Proof.
  intros HF (l1 & p & l2 & E & H1 & H2) (l1' & p' & l2' & E' & H1' & H2').
  assert (Hpos : forall a, incl a l -> (0 <= Rsuml fst a)%R).
  { intros a Ha. apply Rsuml_nonneg. intros x Hx. rewrite Forall_forall in HF. auto. }
  assert (Hlt : forall l1 p (g : sgate) l2 l1' p' (g' : sgate) l2', l = l1 ++ (p, g) :: l2 -> l = l1' ++ (p', g') :: l2' -> (length l1 < length l1')%nat ->
    ((u < Rsuml fst l1 + p)%R \/ l2 = []) -> (Rsuml fst l1' <= u)%R -> False).
  { clear - Hpos. intros l1 p g l2 l1' p' g' l2' E E' Hl H2 H1'. rewrite E in E'.
    assert (Hpre : exists r, l1' = l1 ++ (p, g) :: r).
    { clear - E' Hl. revert l1' E' Hl. induction l1 as [|x l1 IH]; intros [|y l1'] E' Hl; simpl in *; try lia.
      - injection E' as <- _. now exists l1'.
      - injection E' as <- E'. destruct (IH l1' E' ltac:(lia)) as [r ->]. now exists r. }
    destruct Hpre as [r ->]. destruct H2 as [H2| ->].
    - rewrite Rsuml_app in H1'. cbn [Rsuml fold_right fst] in H1'. assert (0 <= Rsuml fst r)%R.
      { apply Hpos. rewrite E, E'. intros x Hx. apply in_or_app. left. apply in_or_app. right. now right. }
      unfold Rsuml in *. lra.
    - apply (f_equal (@length _)) in E'. rewrite !app_length in E'. simpl in E'. lia. }
  destruct (Nat.lt_trichotomy (length l1) (length l1')) as [Hl|[Hl|Hl]].
  - exfalso. exact (Hlt l1 p g l2 l1' p' g' l2' E E' Hl H2 H1').
  - rewrite E in E'. clear - E' Hl. revert l1' E' Hl. induction l1 as [|x l1 IH]; intros [|y l1'] E' Hl; simpl in *; try lia.
    + now injection E' as _ -> _.
    + injection E' as _ E'. eapply IH; [exact E'|lia].
  - exfalso. exact (Hlt l1' p' g' l2' l1 p g l2 E' E Hl H2' H1).
Qed.
Lemma proper_Choice l : proper (Choice l) -> Forall (fun pg => 0 <= fst pg)%R l /\ forall pg, In pg l -> proper (snd pg).
Proof.
  simpl. induction l as [|x l IH]; simpl; intros H; [split; [constructor|intros ? []]|]. destruct H as (H1 & H2 & H3). destruct (IH H3) as [H4 H5].
  split; [constructor; assumption|]. intros pg [<-|Hin]; auto.
Qed.
Lemma step_deterministic n g : proper g -> forall r us us' s o o', us = map r (seq 0 (length us)) -> us' = map r (seq 0 (length us')) ->
  step n g us s o -> step n g us' s o' -> us = us' /\ o = o'.
Proof.
  induction g as [qs f|q b rs|l IH] using sgate_ind'; intros Hp r us us' s o o' Hr Hr' H H';
    inversion H as [? ? ?|? ? ? u ? ? Hb Hn Hsh|? ? ? ? Hb|? ? ? ? Hb Hn|? u g us1 ? ? Hpk Hst]; subst;
    inversion H' as [? ? ?|? ? ? u' ? ? Hb' Hn' Hsh'|? ? ? ? Hb'|? ? ? ? Hb' Hn'|? u' g' us1' ? ? Hpk' Hst']; subst; try solve [auto|lia|contradiction].
  - simpl in Hr, Hr'. injection Hr as ->. injection Hr' as ->. auto.
  - cbn [length seq map] in Hr, Hr'. injection Hr as -> Hr. injection Hr' as -> Hr'. destruct (proper_Choice l Hp) as [HF Hin].
    assert (Hg : g = g') by (eapply picks_unique; eassumption). subst g'. destruct Hpk as (l1 & p & l2 & -> & _).
    assert (Hgin : In (p, g) (l1 ++ (p, g) :: l2)) by (apply in_or_app; right; now left).
    rewrite Forall_forall in IH. specialize (IH _ Hgin (Hin _ Hgin)). cbn [snd] in IH.
    rewrite <- seq_shift, map_map in Hr, Hr'.
    destruct (IH (fun k => r (S k)) us1 us1' s o o' Hr Hr' Hst Hst') as [-> ->]. auto.
Qed.
Lemma app_inj_len {T} (a : list T) : forall b c d, length a = length b -> a ++ c = b ++ d -> a = b /\ c = d.
Proof. induction a as [|x a IH]; intros [|y b] c d Hl E; simpl in *; try discriminate; [auto|]. injection E as -> E. destruct (IH b c d ltac:(lia) E) as [-> ->]. auto. Qed.
Lemma prefix_split (r : nat -> R) us vs : us ++ vs = map r (seq 0 (length (us ++ vs))) ->
  us = map r (seq 0 (length us)) /\ vs = map (fun k => r (length us + k)%nat) (seq 0 (length vs)).
Proof.
  intros H. rewrite app_length, seq_app, map_app in H. apply app_inj_len in H; [|now rewrite map_length, seq_length]. destruct H as [H1 H2]. split; [exact H1|].
  rewrite H2 at 1. rewrite Nat.add_0_l. replace (length us) with (length us + 0)%nat at 1 by lia. rewrite <- seq_shift_by, map_map. reflexivity.
Qed.
Lemma exec_deterministic w n l : Forall (fun gc => proper (fst gc)) l -> forall ms r us us' s o o', us = map r (seq 0 (length us)) -> us' = map r (seq 0 (length us')) ->
  exec_list w n l ms us s o -> exec_list w n l ms us' s o' -> us = us' /\ o = o'.
Proof.
  induction l as [|[g c] l IH]; intros HF ms r us us' s o o' Hr Hr' H H'; inversion HF as [|? ? Hp HF']; subst; cbn [fst] in *.
  - inversion H; inversion H'; subst. auto.
  - inversion H as [|? ? ? ? ? ? ? Hh He|? ? ? ? ? Hh|? ? ? ? ? Hh|? ? ? ? ? Hh Hw Ht|? ? ? ? u1 v1 ? s1 ? Hh Ht Hst He|? ? ? ? ? ? ? Hh Ht Hst Hno]; subst;
    inversion H' as [|? ? ? ? ? ? ? Hh' He'|? ? ? ? ? Hh'|? ? ? ? ? Hh'|? ? ? ? ? Hh' Hw' Ht'|? ? ? ? u1' v1' ? s1' ? Hh' Ht' Hst' He'|? ? ? ? ? ? ? Hh' Ht' Hst' Hno']; subst;
    try congruence; try solve [eauto]; try solve [exfalso; intuition congruence].
    + destruct (prefix_split r _ _ Hr) as [Ha Hb]. destruct (prefix_split r _ _ Hr') as [Ha' Hb'].
      destruct (step_deterministic n g Hp r _ _ s _ _ Ha Ha' Hst Hst') as [<- [= <-]].
      destruct (IH HF' _ _ _ _ _ _ _ Hb Hb' He He') as [<- <-]. auto.
    + destruct (prefix_split r _ _ Hr) as [Ha Hb]. destruct (step_deterministic n g Hp r _ _ s _ _ Ha Hr' Hst Hst') as [_ <-]. now destruct (Hno' s1).
    + destruct (prefix_split r _ _ Hr') as [Ha Hb]. destruct (step_deterministic n g Hp r _ _ s _ _ Hr Ha Hst Hst') as [_ ->]. now destruct (Hno s1').
    + exact (step_deterministic n g Hp r _ _ s _ _ Hr Hr' Hst Hst').
Qed.
