(** The averages of a circuit do not depend on the order of unrelated gates. *)
From Verif Require Export OrderProofs2.
From Verif Require Import ChannelProofs5.
From Coq Require Import ZifyBool ZifyN ZifyNat Permutation Lra FunctionalExtensionality.

Lemma stands_writes g : forall s, stands g s -> incl (writes s) (bits_of_gate g).
Proof.
  induction g as [[t e]|t b r|t dist gs IH] using cgate_ind'; intros s Hs; inversion Hs as [? ? ? Ha|? ? ? ? Hm|? ? ? ss Hd Hl H2]; subst.
  - destruct (acts_spec e s Ha) as (qs & h & -> & _). intros k [].
  - unfold make_measurement in Hm. inv_bind Hm. inv_bind Hm. discriminate Hm.
  - unfold make_measurement in Hm. inv_bind Hm. inv_bind Hm. injection Hm as <- -> ->. cbn [writes bits_of_gate]. apply incl_refl.
  - unfold make_measurement in Hm. inv_bind Hm. inv_bind Hm. discriminate Hm.
  - cbn [writes bits_of_gate]. clear Hs Hd. revert dist Hl. induction H2 as [|g s gs ss Hg H2 IH2]; intros [|d dist] Hl; try discriminate; cbn [combine flat_map snd]; [apply incl_refl|].
    inversion IH as [|? ? I1 I2]; subst. apply incl_app; [apply incl_appl; now apply I1|apply incl_appr; apply IH2; [assumption|now injection Hl]].
Qed.
Lemma pstands_writes g : forall s v, pstands (inr g) s -> incl (writes (s v)) (bits_of_param g).
Proof.
  induction g as [t k b c|t b p c|t d gs IH] using pgate_ind'; intros s v H.
  - destruct (acts_spec _ _ (pacts_at _ s v H I)) as (qs & h & -> & _). intros x [].
  - destruct (acts_spec _ _ (pacts_at _ s v H I)) as (qs & h & -> & _). intros x [].
  - apply pstands_choice_inv in H. destruct H as (ss & _ & Hl & H2 & ->). cbn [writes bits_of_param]. revert d Hl.
    induction H2 as [|g s gs ss Hg H2 IH2]; intros [|x d] Hl; try discriminate; cbn [combine map flat_map snd]; [apply incl_refl|].
    inversion IH as [|? ? I1 I2]; subst. apply incl_app; [apply incl_appl|apply incl_appr; apply IH2; [assumption|now injection Hl]].
    destruct g as [g|g]; [|now apply I1]. inversion Hg; subst. now apply stands_writes.
Qed.
Lemma known_writes ps x y g : known x y -> item_gate ps (fst y) = Some g -> incl (writes g) (bits_written (fst x)).
Proof.
  intros [H _] Hg. destruct x as [i f], y as [j f']. cbn [fst] in *. destruct H as [g0 s H|g0 key s H]; cbn [item_gate bits_written] in *.
  - injection Hg as <-. now apply stands_writes.
  - destruct (ps key) as [v|]; [|discriminate]. injection Hg as <-. now apply pstands_writes.
Qed.

Lemma orderly_less m l : forall ms ms', incl ms ms' -> orderly m ms' l -> orderly m ms l.
Proof.
  induction l as [|[g c] l IH]; intros ms ms' Hi H; [exact I|]. destruct H as (H1 & H2 & H3 & H4). split; [assumption|]. split; [assumption|]. split; [now apply touches_less with ms'|].
  eapply IH; [|exact H4]. now apply unreset_incl.
Qed.
Lemma orderly_swap m l1 : forall ms g c h d l2, (forall i, In i (operands g) -> ~ In i (operands h)) -> orderly m ms (l1 ++ (g, c) :: (h, d) :: l2) -> orderly m ms (l1 ++ (h, d) :: (g, c) :: l2).
Proof.
  induction l1 as [|[x e] l1 IH]; intros ms g c h d l2 Hd H; cbn [app] in *.
  - destruct H as (H1 & H2 & H3 & H4 & H5 & H6 & H7). split; [assumption|]. split; [assumption|]. split; [apply touches_less with (unreset_after g ms); [apply unreset_more|assumption]|].
    split; [assumption|]. split; [assumption|]. split; [now rewrite touches_after|]. eapply orderly_less; [|exact H7].
    destruct g as [| q b []|], h as [| q' b' []|]; cbn [unreset_after]; try apply incl_refl. intros i [<-|[<-|Hi]]; [right; now left|now left|right; now right].
  - destruct H as (H1 & H2 & H3 & H4). split; [assumption|]. split; [assumption|]. split; [assumption|]. now apply IH with (g := g) (h := h).
Qed.
Lemma channels_app l1 l2 s : channels (l1 ++ l2) s = channels l2 (channels l1 s).
Proof. revert s. induction l1 as [|[g c] l1 IH]; intros s; cbn [app channels]; auto. Qed.
Lemma draws_app l1 l2 : draws_list (l1 ++ l2) = (draws_list l1 + draws_list l2)%nat.
Proof. induction l1 as [|[g c] l1 IH]; cbn [app draws_list]; [reflexivity|]. rewrite IH. lia. Qed.

Section Program.
  Variables (n : N) (ps : string -> option R) (m : nat).
  Hypothesis Hn : n < 64.
  Lemma rearranged_program items items' : rearranged items items' -> forall p l, Forall2 known items p -> Forall (OrderProofs.below n) p -> instantiate ps p = Some l -> orderly m [] l ->
    exists p' l', Forall2 known items' p' /\ Permutation p p' /\ instantiate ps p' = Some l' /\ orderly m [] l' /\ draws_list l' = draws_list l /\ forall s, channels l' s = channels l s.
  Proof.
    induction 1 as [l0|l1 a b l2 Hm|l0 l0' l0'' _ IH1 _ IH2]; intros p l Hk Hb Hl Ho.
    - exists p, l. auto 8.
    - apply Forall2_app_inv_l in Hk. destruct Hk as (p1 & q & H1 & Hq & ->). inversion Hq as [|? ya ? q' Ha Hq']; subst. inversion Hq' as [|? yb ? p2 Hb' H2]; subst.
      apply Forall_app in Hb. destruct Hb as [_ Hb]. inversion Hb as [|? ? Bya Hb0]; subst. inversion Hb0 as [|? ? Byb Bp2]; subst.
      rewrite OrderProofs.instantiate_app in Hl. destruct ya as [i c], yb as [i' c']. cbn [instantiate] in Hl.
      destruct (instantiate ps p1) as [k1|] eqn:E1; [|discriminate]. destruct (item_gate ps i) as [g|] eqn:Eg; [|discriminate]. destruct (item_gate ps i') as [g'|] eqn:Eg'; [|discriminate].
      destruct (instantiate ps p2) as [k2|] eqn:E2; [|discriminate]. injection Hl as <-.
      exists (p1 ++ (i', c') :: (i, c) :: p2), (k1 ++ (g', c') :: (g, c) :: k2).
      destruct Hm as (M1 & M2 & M3 & M4). pose proof (apart_operands ps a (i, c) b (i', c') g g' Ha Hb' M1 Eg Eg') as Hd.
      split; [apply Forall2_app; [assumption|]; constructor; [assumption|]; now constructor|]. split; [apply Permutation_app_head; constructor|].
      split; [rewrite OrderProofs.instantiate_app; cbn [instantiate]; rewrite E1, Eg, Eg', E2; reflexivity|]. split; [now apply orderly_swap|].
      split; [rewrite !draws_app; cbn [draws_list]; lia|]. intros s. rewrite !channels_app. cbn [channels]. f_equal.
      pose proof (known_writes ps a (i, c) g Ha Eg) as Wa. pose proof (known_writes ps b (i', c') g' Hb' Eg') as Wb.
      destruct Ha as [Ra Sa], Hb' as [Rb Sb]. cbn [snd] in Sa, Sb.
      apply conditioned_comm.
      + apply (known_local n ps Hn a (i, c)); try assumption. now split.
      + apply (known_local n ps Hn b (i', c')); try assumption. now split.
      + assumption.
      + intros k Hk Hk'. exact (M2 k (Wa k Hk) (Wb k Hk')).
      + intros Hc. rewrite Sa in M3. rewrite (M3 Hc) in Wb. now apply incl_l_nil.
      + intros Hc. rewrite Sb in M4. rewrite (M4 Hc) in Wa. now apply incl_l_nil.
    - destruct (IH1 p l Hk Hb Hl Ho) as (p' & l' & K' & P' & L' & O' & D' & C'). destruct (IH2 p' l' K') as (p'' & l'' & K'' & P'' & L'' & O'' & D'' & C''); [eapply Permutation_Forall; eassumption|assumption..|].
      exists p'', l''. split; [assumption|]. split; [now transitivity p'|]. split; [assumption|]. split; [assumption|]. split; [congruence|]. intros s. now rewrite C'', C'.
  Qed.
End Program.

Section Average.
  Variables (n L L' : N) (ps : string -> option R) (c c' : circuit) (p : program) (l : list (sgate * option cond)) (psi : state) (r0 : list bool).
  Hypotheses (Hn : n < 64) (HL : lanes_ok L) (HL' : lanes_ok L') (Hc : circuit_is c p) (Hk : norm_kept n ps p) (Hs : sqnorm n psi = 1%R)
    (HF : Forall (fun q => q < n) (program_operands p)) (Hl : instantiate ps p = Some l) (Ho : orderly (length r0) [] l)
    (Hlen : length (c_gates c') = length (c_conds c')) (Hre : rearranged (in_order c) (in_order c')).
  Lemma other_program : exists p' l', circuit_is c' p' /\ norm_kept n ps p' /\ never_stops n ps p' psi r0 /\ instantiate ps p' = Some l' /\ draws_list l' = draws_list l /\
    forall s, channels l' s = channels l s.
  Proof.
    destruct (rearranged_program n ps (length r0) Hn _ _ Hre p l (known_circuit c p Hc)) as (p' & l' & K & P & E & O & D & Ch); try assumption.
    { apply Forall_forall. intros y Hy. unfold OrderProofs.below. rewrite Forall_forall in *. intros q Hq. apply HF. apply in_flat_map. now exists y. }
    assert (Hk' : norm_kept n ps p') by (unfold norm_kept in *; eapply Permutation_Forall; eassumption).
    exists p', l'. split; [now apply circuit_known|]. split; [assumption|]. split; [|auto].
    apply orderly_never_stops with l'; try assumption. rewrite Forall_forall in *. intros q Hq. apply HF. unfold program_operands in *. apply in_flat_map in Hq. destruct Hq as (y & Hy & Hq).
    apply in_flat_map. exists y. split; [now apply (Permutation_in y (Permutation_sym P))|assumption].
  Qed.
  Theorem order_average r i j : i < 2 ^ n -> j < 2 ^ n -> exists v,
    averaged (draws_list l) (run_gives n (circuit_update n L ps c) psi r0 (entry r i j)) v /\ averaged (draws_list l) (run_gives n (circuit_update n L' ps c') psi r0 (entry r i j)) v.
  Proof.
    intros Hi Hj. destruct other_program as (p' & l' & Hc' & Hk' & Hst & Hl' & D & Ch). exists (channels l (pure psi r0) r i j). split.
    - apply (entry_average n L ps c p l); try assumption. now apply orderly_never_stops with l.
    - rewrite <- D, <- Ch. now apply (entry_average n L' ps c' p' l').
  Qed.
  Theorem order_register r : exists v,
    averaged (draws_list l) (run_gives n (circuit_update n L ps c) psi r0 (shows_register r)) v /\ averaged (draws_list l) (run_gives n (circuit_update n L' ps c') psi r0 (shows_register r)) v.
  Proof.
    destruct other_program as (p' & l' & Hc' & Hk' & Hst & Hl' & D & Ch). exists (Csum (2 ^ n) (fun i => channels l (pure psi r0) r i i)). split.
    - apply (register_average n L ps c p l); try assumption. now apply orderly_never_stops with l.
    - rewrite <- D. replace (fun i => channels l (pure psi r0) r i i) with (fun i => channels l' (pure psi r0) r i i) by (apply functional_extensionality; intros; now rewrite Ch).
      now apply (register_average n L' ps c' p' l').
  Qed.
End Average.
