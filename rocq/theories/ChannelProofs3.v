(** Channels of circuits: what averaged of the library's runs are. *)
From Verif Require Export ChannelProofs2 CircuitProofs17 CircuitProofs10.
From Verif Require Import GatesProofs8.
From Coq Require Import ZifyBool ZifyN ZifyNat Lra FunctionalExtensionality.

(** ** Gates of circuits are linear and local *)
Lemma acts_fine n g s : n < 64 -> acts g s -> Forall (fun q => q < n) (operands s) -> fine n s.
Proof.
  intros Hn Ha HF. destruct (acts_spec g s Ha) as (qs & f & -> & Hw & _ & Hsem). destruct (Hsem n Hn HF) as [Hfit Hf]. cbn [fine]. split.
  - intros a b c x. rewrite !Hf. unfold gate_sem. rewrite (apply_mat_add _ _ _ a (fun y => c * b y)%C), apply_mat_scale. reflexivity.
  - intros a b H x Hx. rewrite !Hf. apply (gate_sem_ext n 1); auto; [intros y Hy; apply H|]; lia.
Qed.
Lemma stands_fine n g : n < 64 -> forall s, stands g s -> Forall (fun q => q < n) (operands s) -> fine n s.
Proof.
  intros Hn. induction g as [[t g]|t b r|t d gs IH] using cgate_ind'; intros s H HF.
  - inversion H as [? ? ? Ha|? ? ? ? Hm|]; subst; [now apply (acts_fine n g s)|]. inversion HF; subst. assumption.
  - inversion H; subst. inversion HF; subst. assumption.
  - inversion H as [|? ? ? ? Hm|? ? ? ss Hd Hl H2]; subst; [inversion HF; subst; assumption|]. clear H Hd. revert d Hl HF IH.
    induction H2 as [|g s gs ss Hg H2 IH2]; intros d Hl HF IH; destruct d as [|p d]; cbn [combine]; try exact I.
    inversion IH; subst. cbn [combine operands flat_map snd] in HF. apply Forall_app in HF. destruct HF as [HF1 HF2]. cbn [fine fold_right snd]. split; [auto|].
    apply (IH2 d); auto.
Qed.
Lemma pstands_fine n g : n < 64 -> forall s v, pstands (inr g) s -> Forall (fun q => q < n) (operands (s v)) -> fine n (s v).
Proof.
  intros Hn. induction g as [t k b c|t b p c|t d gs IH] using pgate_ind'; intros s v H HF.
  - exact (acts_fine n _ _ Hn (pacts_at _ s v H I) HF).
  - exact (acts_fine n _ _ Hn (pacts_at _ s v H I) HF).
  - destruct (pstands_choice_inv _ _ _ _ H) as (ss & _ & Hl & H2 & ->). clear H. revert d Hl HF IH.
    induction H2 as [|g s gs ss Hg H2 IH2]; intros d Hl HF IH; destruct d as [|p d]; cbn [combine map]; try exact I.
    inversion IH as [|? ? Hone]; subst. cbn [combine map operands flat_map snd] in HF. apply Forall_app in HF. destruct HF as [HF1 HF2]. cbn [fine fold_right snd]. split; [|apply (IH2 d); auto].
    destruct g as [g|g]; [|now apply Hone]. inversion Hg; subst. now apply (stands_fine n g).
Qed.
Lemma represents_fine n i si ps g : n < 64 -> represents i si -> item_gate ps si = Some g -> Forall (fun q => q < n) (item_operands si) -> fine n g.
Proof.
  intros Hn H. inversion H; subst; cbn [item_gate item_operands].
  - intros [= <-] HF. now apply (stands_fine n g0).
  - destruct (ps key); [|discriminate]. intros [= <-] HF. apply (pstands_fine n g0); auto. rewrite Forall_forall in *. intros q Hq. apply HF.
    now apply (pstands_operands g0 s r 0 q).
Qed.
Lemma instantiate_fine n ps p : n < 64 -> forall items l, Forall2 represents items (map fst p) -> instantiate ps p = Some l ->
  Forall (fun q => q < n) (program_operands p) -> Forall (fun gc => fine n (fst gc)) l.
Proof.
  intros Hn. induction p as [|[si c] p IH]; intros items l H Hl HF; inversion H as [|i si' items' ? Hi Hr]; subst; cbn [instantiate] in Hl; [injection Hl as <-; constructor|].
  destruct (item_gate ps si) as [g|] eqn:Eg; [|discriminate]. destruct (instantiate ps p) as [l'|] eqn:El; [|discriminate]. injection Hl as <-.
  unfold program_operands in HF. cbn [flat_map fst] in HF. apply Forall_app in HF. destruct HF as [HF1 HF2].
  constructor; [now apply (represents_fine n i si ps)|now apply (IH items')].
Qed.
Lemma instantiate_kept n ps p l : norm_kept n ps p -> instantiate ps p = Some l -> Forall (fun gc => keeps_norm n (fst gc)) l.
Proof.
  intros Hk Hl. apply Forall_forall. intros [g c] Hin. destruct (instantiate_In ps p l Hl g c Hin) as (i & H1 & H2). unfold norm_kept in Hk. rewrite Forall_forall in Hk.
  now apply (Hk (i, c) H1).
Qed.

(** ** The average of an entry *)
Lemma never_stops_fits n ps p psi r0 : never_stops n ps p psi r0 -> Forall (fun q => q < n) (program_operands p) /\ exists l, instantiate ps p = Some l.
Proof.
  intros H. destruct (existsb (fun q => n <=? q) (program_operands p)) eqn:E.
  { destruct (H [] (SThrown (SState psi r0))) as [s Hs]; [constructor|unfold run_program; now rewrite E|discriminate]. }
  split.
  - apply Forall_forall. intros q Hq. destruct (N.ltb_spec q n) as [|Hle]; [assumption|].
    enough (existsb (fun q => n <=? q) (program_operands p) = true) by congruence. apply existsb_exists. exists q. split; [assumption|lia].
  - destruct (instantiate ps p) as [l|] eqn:El; [now exists l|]. destruct (H [] (SThrown (SState psi r0))) as [s Hs]; [constructor|unfold run_program; now rewrite E, El|discriminate].
Qed.
Lemma seq_prefix (f : nat -> R) m k : (m <= k)%nat -> map f (seq 0 k) = map f (seq 0 m) ++ skipn m (map f (seq 0 k)).
Proof.
  intros H. replace k with (m + (k - m))%nat by lia. rewrite seq_app, map_app, skipn_app, map_length, seq_length, Nat.sub_diag. rewrite skipn_all2 by (rewrite map_length, seq_length; lia). reflexivity.
Qed.
Lemma run_result n L ps c p l psi r0 : n < 64 -> lanes_ok L -> circuit_is c p -> norm_kept n ps p -> sqnorm n psi = 1%R -> never_stops n ps p psi r0 ->
  instantiate ps p = Some l -> forall w us, length us = draws_list l -> (forall x, x < 2 ^ n -> w_amp w x = psi x) -> w_reg w = r0 -> (forall k, unit_draw (w_rand w k)) ->
  starts_with w us ->
  runs (circuit_update n L ps c) w (done (fun _ w' => exists us1 us2 s', us = us1 ++ us2 /\ exec_list watch_all n l [] us1 (SState psi r0) (SDone s') /\ same_state n w' s')).
Proof.
  intros Hn HL Hc Hk Hs Hstop Hl w us Hlen Ha Hr Hu Hst.
  assert (Hw : same_state n w (SState psi r0)) by (split; assumption).
  eapply runs_weaken; [apply (circuit_runs n L ps c p w (SState psi r0) Hn HL Hc Hw Hu)|].
  - intros us' Hus. now apply program_inside.
  - intros o (us' & so & Hrun & [Hused Hrest] & Hend).
    assert (Hun : Forall unit_draw us') by (rewrite Hused; apply Forall_forall; intros x Hx; apply in_map_iff in Hx; destruct Hx as (m & <- & _); apply Hu).
    destruct (Hstop us' so Hun Hrun) as [s' ->]. destruct o as [[] w'|w'|]; cbn [ends_as] in Hend; try contradiction. cbn [done].
    unfold run_program in Hrun. rewrite Hl in Hrun. destruct (existsb _ _); [destruct Hrun; discriminate|].
    pose proof (exec_draws _ _ _ _ _ _ _ Hrun) as Hd. exists us', (skipn (length us') us), s'. split; [|split; [exact Hrun|exact Hend]].
    unfold starts_with in Hst. rewrite Hst at 1. rewrite Hlen, (seq_prefix (w_rand w) (length us') (draws_list l) Hd), <- Hused. f_equal. now rewrite Hst, Hlen at 1.
Qed.
Section Circuit.
  Variables (n L : N) (ps : string -> option R) (c : circuit) (p : program) (l : list (sgate * option cond)) (psi : state) (r0 : list bool).
  Hypotheses (Hn : n < 64) (HL : lanes_ok L) (Hc : circuit_is c p) (Hk : norm_kept n ps p) (Hs : sqnorm n psi = 1%R) (Hstop : never_stops n ps p psi r0)
    (Hl : instantiate ps p = Some l).
  Lemma program_fine : Forall (fun gc => fine n (fst gc) /\ proper (fst gc) /\ keeps_norm n (fst gc)) l.
  Proof.
    destruct (never_stops_fits n ps p psi r0 Hstop) as [HF _]. pose proof (instantiate_fine n ps p Hn _ l (proj1 Hc) Hl HF) as H1.
    pose proof (instantiate_proper ps p _ l (proj1 Hc) Hl) as H2. pose proof (instantiate_kept n ps p l Hk Hl) as H3.
    rewrite Forall_forall in *. intros x Hx. auto.
  Qed.
  Theorem entry_average r i j : i < 2 ^ n -> j < 2 ^ n ->
    averaged (draws_list l) (run_gives n (circuit_update n L ps c) psi r0 (entry r i j)) (channels l (pure psi r0) r i j).
  Proof.
    intros Hi Hj. eapply averaged_mono; [|apply (list_average watch_all n r i j Hi Hj l program_fine [] (SState psi r0) Hs (draws_list l) (le_n _))].
    intros us v Hlen Hus H w Ha Hr Hu Hst. eapply runs_weaken; [apply (run_result n L ps c p l psi r0 Hn HL Hc Hk Hs Hstop Hl w us Hlen Ha Hr Hu Hst)|].
    intros [[] w'|w'|]; cbn [done]; auto. intros (us1 & us2 & s' & E & Hx & Hamp & Hreg). rewrite <- (H us1 us2 s' E Hx). unfold entry, pure. rewrite Hreg.
    destruct (list_eq_dec bool_dec (s_reg s') r) as [->|Hne]; destruct (list_eq_dec bool_dec _ _) as [E'|E']; try congruence. now rewrite !Hamp.
  Qed.
End Circuit.
