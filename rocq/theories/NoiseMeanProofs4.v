(** What a sample gives on average is the circuit's channel. *)
From Verif Require Import NoiseProofs NoiseProofs2 NoiseProofs3 NoiseProofs4 NoiseProofs5 NoiseProofs6 NoiseMeanProofs NoiseMeanProofs2 NoiseMeanProofs3.
From Verif Require Import CircuitProofs4 ChannelProofs3 ChannelProofs4 ChannelProofs5.
From Verif Require Import NoiseMeanSpec.
From Coq Require Import FunctionalExtensionality Lia Lra.
Local Open Scope nat_scope.

Definition simple (g : sgate) : Prop := law_ok g /\ (forall j, j < ways g -> exists f, way g j = Some f).
Lemma suml_nth {T} (f : T -> C) (d : T) l : Csuml (fun j => f (nth j l d)) (seq 0 (length l)) = Csuml f l.
Proof.
  rewrite <- (Csuml_map (fun j => nth j l d) f). f_equal. apply nth_ext with (d := d) (d' := d); [now rewrite map_length, seq_length|].
  intros k Hk. rewrite map_length, seq_length in Hk. rewrite (nth_indep _ d (nth 0 l d)) by now rewrite map_length, seq_length. rewrite (map_nth (fun j => nth j l d) _ 0), seq_nth by assumption. reflexivity.
Qed.
Lemma fine_normalised n g : fine n g -> fine n (normalised g).
Proof.
  destruct g as [| |l]; cbn [normalised]; auto. generalize (Rsuml fst l). intros t H. pose proof (fine_Choice n l H) as Hin. clear H. cbn [fine].
  induction l as [|pg l IH]; cbn [map fold_right snd]; [exact I|]. split; [apply Hin; now left|]. apply IH. intros x Hx. apply Hin. now right.
Qed.
Lemma fun_fold n V (l : list (R * ensemble)) : functional n V -> V (fold_right (fun ps e => e_add (e_scale (fst ps) (snd ps)) e) e_zero l) = Csuml (fun ps => Cscale (fst ps) (V (snd ps))) l.
Proof.
  intros HV. induction l as [|ps l IH]; cbn [fold_right Csuml]; [exact (fun_zero n V HV)|]. rewrite (fun_add n V HV), (fun_scale n V HV), IH. reflexivity.
Qed.
Lemma chan_simple n gs i j : (i < 2 ^ n)%N -> (j < 2 ^ n)%N -> Forall simple gs -> Forall (fine n) gs -> forall psi,
  one_sample gs psi (fun phi => phi i * Cconj (phi j))%C = channels (map (fun g => (normalised g, None)) gs) (pure psi []) [] i j.
Proof.
  intros Hi Hj Hsim Hfin. unfold one_sample. induction gs as [|g gs IH]; intros psi; cbn [map expectation channels].
  - rewrite pure_eq. reflexivity.
  - inversion Hsim as [|g' gs' [Hlaw Hway] Hsim']; subst. inversion Hfin as [|g' gs' Hfg Hfin']; subst.
    assert (Hlin : lin n (channels (map (fun g => (normalised g, None)) gs))).
    { apply lin_channels. apply Forall_forall. intros gc Hgc. apply in_map_iff in Hgc. destruct Hgc as (g0 & <- & Hg0). apply fine_normalised. rewrite Forall_forall in Hfin'. now apply Hfin'. }
    rewrite (conditioned_none n) by (apply lin_channel; now apply fine_normalised).
    destruct Hlaw as (Hl1 & Hl2 & Hd & Hm). destruct g as [qs f|q b r|l]; [|exfalso; now apply (Hm q b r)|].
    + cbn [chances length seq Csuml fold_right nth normalised]. rewrite (pure_act qs f psi [] (proj1 Hfg)). rewrite <- (IH Hsim' Hfin').
      transitivity (expectation (map chances gs) (fun path => ended gs (f psi) path i * Cconj (ended gs (f psi) path j))%C); [|reflexivity].
      change (fun js => ended (Act qs f :: gs) psi (0 :: js) i * Cconj (ended (Act qs f :: gs) psi (0 :: js) j))%C with (fun path => ended gs (f psi) path i * Cconj (ended gs (f psi) path j))%C. Csolve.
    + specialize (Hd l eq_refl). destruct Hd as (Hne & Hpos & Hsum). set (t := Rsuml fst l).
      assert (Ht : (0 < t)%R).
      { unfold t. pose proof (ok_sum (map fst l) (conj Hne (conj Hpos Hsum))) as H. rewrite Rsuml_map in H. exact H. }
      set (l' := map (fun pg : R * sgate => ((fst pg / t)%R, snd pg)) l). change (normalised (Choice l)) with (Choice l').
      rewrite choice_channel.
      2:{ unfold l'. destruct l; [contradiction|discriminate]. }
      2:{ unfold l'. apply Forall_forall. intros x Hx. apply in_map_iff in Hx. destruct Hx as (pg & <- & Hpg). cbn [fst]. rewrite Forall_forall in Hpos. apply Rmult_le_pos; [apply Hpos; apply in_map; exact Hpg|left; now apply Rinv_0_lt_compat]. }
      2:{ unfold l'. rewrite Rsuml_map. cbn [fst]. transitivity (Rsuml fst l / t)%R; [|fold t; field; lra]. clear. generalize t. intros u. induction l as [|x l IH]; [cbn; lra|].
          change ((fst x / u + Rsuml (fun x => (fst x / u)%R) l = (fst x + Rsuml fst l) / u)%R). rewrite IH. lra. }
      set (V := fun s => channels (map (fun g => (normalised g, None)) gs) s [] i j). pose proof (fun_entry n _ [] i j Hi Hj Hlin) as HV. fold V in HV.
      transitivity (Csuml (fun pg => Cscale (fst pg / t) (V (channel (snd pg) (pure psi [])))) l).
      * cbn [chances]. rewrite discrete_length, map_length. rewrite <- (suml_nth _ (0%R, Choice []) l). apply Csuml_ext. intros k Hk. apply in_seq in Hk. simpl in Hk.
        destruct (Hway k ltac:(exact (proj2 Hk))) as (f & Ew). cbn [way] in Ew. destruct (nth_error l k) as [[pr [qs f'|qq bb rr|ll]]|] eqn:El; try discriminate. injection Ew as ->.
        pose proof (nth_error_nth l k (0%R, Choice []) El) as En. rewrite En. cbn [fst snd]. f_equal.
        -- unfold discrete. rewrite (nth_indep _ 0%R ((0 / Rsuml (fun p => p) (map fst l))%R)) by (rewrite !map_length; lia).
           rewrite (map_nth (fun p => (p / Rsuml (fun p => p) (map fst l))%R)). change 0%R with (fst (0%R, Choice [])). rewrite map_nth, En, Rsuml_map. reflexivity.
        -- assert (Hfk : fine n (Act qs f)) by (apply (fine_Choice n l Hfg (pr, Act qs f)); eapply nth_error_In; exact El).
           rewrite (pure_act qs f psi [] (proj1 Hfk)). unfold V. rewrite <- (IH Hsim' Hfin'). apply exp_same. intros js. unfold ended. cbn [follow way]. rewrite El. reflexivity.
      * symmetry. transitivity (V (fold_right (fun ps e => e_add (e_scale (fst ps) (snd ps)) e) e_zero (map (fun pg => (fst pg, channel (snd pg) (pure psi []))) l'))).
        -- assert (E : fold_right (fun pg e => e_add (e_scale (fst pg) (channel (snd pg) (pure psi []))) e) e_zero l' =
             fold_right (fun ps e => e_add (e_scale (fst ps) (snd ps)) e) e_zero (map (fun pg => (fst pg, channel (snd pg) (pure psi []))) l')).
           { clear. induction l' as [|x l' IH]; [reflexivity|]. cbn [map fold_right fst snd]. now rewrite IH. }
           rewrite <- E. reflexivity.
        -- rewrite (fun_fold n V _ HV). unfold l'. rewrite map_map, Csuml_map. cbn [fst snd]. reflexivity.
Qed.

Section Circuit.
  Context (n L : N) (ps : string -> option R) (c : circuit) (p : program) (gs : list (sgate * option cond)) (psi : state) (count : nat).
  Context (Hs : sizes_ok n (N.of_nat count) L) (Hcount : 0 < count) (Hc : circuit_is c p) (Hcan : Forall can_simulate (c_gates c))
    (HF : Forall (fun q => (q < n)%N) (program_operands p)) (Hi : instantiate ps p = Some gs).
  Lemma all_simple : Forall simple (map fst gs).
  Proof.
    destruct (circuit_laws ps c p gs count Hc Hcan Hi) as [_ Hok].
    assert (Hw : Forall (fun g => forall j, j < ways g -> exists f, way g j = Some f) (map fst gs)).
    { apply instantiate_gates in Hi. destruct Hc as [Hrep _].
      assert (HFs : Forall (fun si => Forall (fun q => (q < n)%N) (item_operands si)) (map fst p)).
      { apply Forall_forall. intros si Hsi. apply in_map_iff in Hsi. destruct Hsi as ([si' cc] & <- & Hin). apply Forall_forall. intros q Hq.
        rewrite Forall_forall in HF. apply HF. unfold program_operands. apply in_flat_map. exists (si', cc). auto. }
      revert Hi HFs. clear Hok. generalize (map fst gs). revert Hcan. clear - Hrep L. induction Hrep as [|i si is sis Hr H IH]; intros Hcan gs Hi HFs; inversion Hi as [|si' g sis' gs' Hg H2]; subst; [constructor|].
      inversion Hcan; subst. inversion HFs; subst. constructor; [|now apply IH]. intros j Hj.
      destruct (item_choices n L ps i si g Hr ltac:(assumption) Hg ltac:(assumption)) as (probs & gates & _ & _ & Halt). destruct (Halt j Hj) as (g1 & f & _ & Hf & _). eauto. }
    rewrite Forall_forall in *. intros g Hg. split; auto.
  Qed.
  Lemma all_fine : Forall (fine n) (map fst gs).
  Proof.
    pose proof (instantiate_fine n ps p (proj1 Hs) _ gs (proj1 Hc) Hi HF) as H. apply Forall_forall. intros g Hg. apply in_map_iff in Hg. destruct Hg as (gc & <- & Hgc).
    rewrite Forall_forall in H. exact (H gc Hgc).
  Qed.
  Theorem noise_channel i j : (i < 2 ^ n)%N -> (j < 2 ^ n)%N ->
    noise_expects n L ps c psi count (tally (fun phi => phi i * Cconj (phi j))%C)
      (Cscale (INR count) (channels (map (fun g => (normalised (fst g), None)) gs) (pure psi []) [] i j)).
  Proof.
    intros Hii Hj. replace (map (fun g : sgate * option cond => (normalised (fst g), None)) gs) with (map (fun g => (normalised g, @None cond)) (map fst gs)) by now rewrite map_map.
    rewrite <- (chan_simple n (map fst gs) i j Hii Hj all_simple all_fine psi). apply (noise_mean n L ps c p gs psi count Hs Hcount Hc Hcan HF Hi). intros a b Hab. now rewrite !Hab.
  Qed.
End Circuit.
