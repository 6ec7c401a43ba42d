(** The steps of Circuit::optimize keep the invariant. *)
From Verif Require Export OptimizeProofs5.
From Coq Require Import ZifyBool ZifyN ZifyNat Permutation Lra FunctionalExtensionality.

Lemma merge_any_elem vf a b : merge_any vf (CElem a) (CElem b) = bindR (merge_gate vf a b) (fun r => Ok (CElem (fst r), snd r)).
Proof. destruct a as [[] []]; reflexivity. Qed.

Section Steps.
  Variables (vf : bool) (nq n : N) (M : Prop).
  Hypothesis Hn : n < 64.
  Notation Inv := (Inv nq n M).

  Lemma fine_olist e s q : fine n M e s -> In q (olist (IGate (CElem e))) <-> In q (operands s).
  Proof.
    intros (_ & Ha & HF & _). destruct e as [b e]. apply (olist_spec n Hn (IGate (CElem (b, e))) (SFixed s)); [|exact HF]. constructor. now constructor.
  Qed.
  Lemma fine_mask e s q : fine n M e s -> N.testbit (base_operands (g_base (snd e))) q = true <-> In q (operands s).
  Proof. intros H. destruct (fine_act n M Hn e s H) as (qs & -> & _ & _ & Hi & _). symmetry. apply Hi. Qed.

  (** pushing a waiting gate *)
  Lemma inv_push_waiting st pre W ss pout t m k g st' : Inv st pre W [] ss pout t m -> In k W -> pool_at st k = Ok g -> o_push nq (IGate g) None st = Ok st' ->
    Inv st' pre (remove Nat.eq_dec k W) [] ss (pout ++ [(SFixed (sg ss k), None)]) t m /\ o_pool st' = o_pool st /\ o_lost st' = o_lost st /\
    (forall q k', o_wait st' q = Some k' <-> o_wait st q = Some k' /\ k' <> k).
  Proof.
    intros HI Hk Hg Hp. unfold pool_at in Hg. destruct (nth_error (o_pool st) k) as [g'|] eqn:Eg; [|discriminate]. injection Hg as <-.
    destruct (pool_sg _ _ _ Hn _ _ _ _ _ _ _ _ _ _ HI Eg) as (e & -> & Hf & Hlk). unfold o_push in Hp. apply on_operands_ok in Hp. destruct Hp as [Hlt Hp]. injection Hp as <-.
    destruct (i_act _ _ _ _ _ _ _ _ _ _ _ HI k Hk) as (_ & Hne & Hop).
    assert (Hin : forall q, In q (olist (IGate (CElem e))) <-> o_wait st q = Some k) by (intros q; rewrite (fine_olist e _ q Hf); apply Hop).
    assert (Hw : forall q k', set_wait (olist (IGate (CElem e))) None (o_wait st) q = Some k' <-> o_wait st q = Some k' /\ k' <> k).
    { intros q k'. destruct (in_dec N.eq_dec q (olist (IGate (CElem e)))) as [Hq|Hq].
      - rewrite set_wait_in by assumption. apply Hin in Hq. rewrite Hq. split; [discriminate|]. intros [[= <-] Hc]. now elim Hc.
      - rewrite set_wait_out by assumption. split; [|tauto]. intros E. split; [assumption|]. intros ->. apply Hq. now apply Hin. }
    split; [|cbn [o_pool o_lost o_wait]; auto].
    pose proof (remove_Permutation k W (i_nodup _ _ _ _ _ _ _ _ _ _ _ HI) Hk) as HP.
    destruct HI as [H1 H2 H3 H4 H5 H6 H7 H8 H9 H10] eqn:EI. constructor; cbn [o_pool o_out o_wait o_phase o_lost].
    - assumption.
    - rewrite !map_app. apply Forall2_app; [assumption|]. constructor; [|constructor]. constructor. destruct e as [b e]. constructor. apply Hf.
    - rewrite !map_app. now f_equal.
    - unfold program_operands. rewrite flat_map_app. apply Forall_app. split; [assumption|]. cbn [flat_map fst item_operands]. rewrite app_nil_r. apply Hf.
    - now apply NoDup_remove_nat.
    - intros q k' E. apply Hw in E. destruct E as [E Hne']. destruct (H6 q k' E) as [Hq [Hk'|[]]]. split; [assumption|]. left. now apply in_remove_iff.
    - intros k' Hk'. apply in_remove_iff in Hk'. destruct Hk' as [Hk' Hne']. destruct (H7 k' Hk') as (A & B & C). split; [assumption|]. split; [assumption|].
      intros q. rewrite Hw, C. tauto.
    - assumption.
    - rewrite app_length. cbn [length] in *. apply Permutation_length in HP. cbn [length] in HP. lia.
    - clear EI. intros ps. destruct (H10 ps) as [[E1 E2]|(l & lo & E1 & E2 & Hu)]; [left|right]; rewrite instantiate_snoc, E2; cbn [item_gate]; [auto|].
      exists l, (lo ++ [(sg ss k, None)]). split; [assumption|]. split; [reflexivity|]. cbn [plain map] in *. rewrite app_nil_r in *.
      apply upto_trans0 with (lo ++ wl ss W); [assumption|]. rewrite <- app_assoc. cbn [app].
      pose proof (upto_app n 0 lo (wl ss W) (wl ss (k :: remove Nat.eq_dec k W)) [] (Forall_nil _) (wl_perm _ _ _ Hn _ _ _ _ _ _ _ _ _ HI HP)) as Hu'.
      now rewrite !app_nil_r in Hu'.
  Qed.
  Lemma inv_push_all ks : forall st pre W ss pout t m st', Inv st pre W [] ss pout t m -> NoDup ks -> incl ks W -> push_all nq ks st = Ok st' ->
    exists W' pout', Inv st' pre W' [] ss pout' t m /\ o_pool st' = o_pool st /\ o_lost st' = o_lost st /\ (forall k, In k W' <-> In k W /\ ~ In k ks) /\
      (forall q k, o_wait st' q = Some k <-> o_wait st q = Some k /\ ~ In k ks).
  Proof.
    induction ks as [|k ks IH]; intros st pre W ss pout t m st' HI Hnd Hinc H; cbn [push_all] in H.
    - injection H as <-. exists W, pout. split; [assumption|]. split; [reflexivity|]. split; [reflexivity|]. split; [simpl; tauto|]. simpl. tauto.
    - inv_bind H. inv_bind H. inversion Hnd as [|? ? Hk Hnd']; subst.
      destruct (inv_push_waiting _ _ _ _ _ _ _ _ _ _ HI (Hinc k (or_introl eq_refl)) E E0) as (HI' & Hp & Hl & Hw).
      destruct (IH v0 pre (remove Nat.eq_dec k W) ss _ t m st' HI' Hnd') as (W' & pout' & HI'' & Hp' & Hl' & HW & Hw').
      + intros x Hx. apply in_remove_iff. split; [apply Hinc; now right|]. intros ->. contradiction.
      + assumption.
      + exists W', pout'. split; [assumption|]. split; [congruence|]. split; [congruence|]. split.
        * intros x. rewrite HW, in_remove_iff. simpl. intuition.
        * intros q x. rewrite Hw', Hw. simpl. intuition.
  Qed.

  (** pushing an item none of whose qubits waits *)
  Lemma inv_push st pre W ss pout t m i f si st' : Inv st pre W [] ss pout t m -> represents i si -> Forall (fun q => q < n) (item_operands si) ->
    (item_measures si -> M) -> (forall ps g, item_gate ps si = Some g -> local g /\ forall q, In q (operands g) <-> In q (item_operands si)) ->
    (forall q, In q (olist i) -> o_wait st q = None) -> o_push nq i f st = Ok st' ->
    exists pout', Inv st' (pre ++ [(si, f)]) W [] ss pout' t m /\ o_pool st' = o_pool st /\ o_lost st' = o_lost st.
  Proof.
    intros HI Hr HF HM Hl Hno H. unfold o_push in H. apply on_operands_ok in H. destruct H as [_ H]. injection H as <-.
    exists (pout ++ [(si, f)]). split; [|split; reflexivity].
    assert (Hw : forall q, set_wait (olist i) None (o_wait st) q = o_wait st q).
    { intros q. destruct (in_dec N.eq_dec q (olist i)) as [Hq|Hq]; [rewrite set_wait_in by assumption; symmetry; auto|now apply set_wait_out]. }
    pose proof (wl_acts _ _ _ Hn _ _ _ _ _ _ _ _ HI) as Hacts.
    assert (Hap : forall ps g, item_gate ps si = Some g -> Forall (fun a => apart a (g, f)) (wl ss W)).
    { intros ps g Hg. apply Forall_forall. intros x Hx. apply in_map_iff in Hx. destruct Hx as (k & <- & Hk). intros q Hq Hq'. cbn [fst] in *.
      apply (Hl ps g Hg) in Hq'. apply (olist_spec n Hn i si Hr HF) in Hq'. apply Hno in Hq'.
      destruct (i_act _ _ _ _ _ _ _ _ _ _ _ HI k Hk) as (_ & _ & E). apply E in Hq. congruence. }
    assert (Hkeep : forall ps g, item_gate ps si = Some g -> measuring g = true -> Forall (fun a => forall qs f, fst a = Act qs f -> keeps n f) (wl ss W)).
    { intros ps g Hg Hm. assert (HM' : M) by (apply HM; destruct si as [s|key s]; cbn [item_gate item_measures] in *; [now injection Hg as ->|]; destruct (ps key) as [v|]; [|discriminate]; injection Hg as <-; eauto).
      apply Forall_forall. intros x Hx. apply in_map_iff in Hx. destruct Hx as (k & <- & Hk). intros qs h E. cbn [fst] in E.
      destruct (sg_fine _ _ _ Hn _ _ _ _ _ _ _ _ _ HI Hk) as (e & _ & Hf). destruct (fine_act n M Hn e _ Hf) as (qs' & E' & _ & _ & _ & K). rewrite E' in E. injection E as _ <-. auto. }
    destruct HI as [H1 H2 H3 H4 H5 H6 H7 H8 H9 H10]. constructor; cbn [o_pool o_out o_wait o_phase o_lost].
    - assumption.
    - rewrite !map_app. apply Forall2_app; [assumption|]. now constructor.
    - rewrite !map_app. now f_equal.
    - unfold program_operands. rewrite flat_map_app. apply Forall_app. split; [assumption|]. cbn [flat_map fst]. now rewrite app_nil_r.
    - assumption.
    - intros q k. rewrite Hw. apply H6.
    - intros k Hk. destruct (H7 k Hk) as (A & B & C). split; [assumption|]. split; [assumption|]. intros q. rewrite Hw. apply C.
    - assumption.
    - rewrite !app_length. cbn [length] in *. lia.
    - cbn [plain map] in *. rewrite app_nil_r in *. intros ps. rewrite !instantiate_snoc.
      destruct (item_gate ps si) as [g|] eqn:Eg; [|left; destruct (H10 ps) as [[-> ->]|(l & lo & -> & -> & _)]; auto].
      destruct (H10 ps) as [[-> ->]|(l & lo & -> & -> & Hu)]; [left; auto|right]. exists (l ++ [(g, f)]), (lo ++ [(g, f)]). split; [reflexivity|]. split; [reflexivity|].
      destruct (Hl ps g Eg) as [Hloc _]. apply upto_trans0 with ((lo ++ wl ss W) ++ [(g, f)]).
      + apply (upto_app n t [] l (lo ++ wl ss W) [(g, f)]); [constructor; [exact Hloc|constructor]|assumption].
      + rewrite <- !app_assoc. cbn [app].
        pose proof (upto_app n 0 lo (wl ss W ++ [(g, f)]) ((g, f) :: wl ss W) [] (Forall_nil _) (upto_pass n (wl ss W) g f Hacts Hloc (Hap ps g Eg) (Hkeep ps g Eg))) as Hu'.
        now rewrite !app_nil_r in Hu'.
  Qed.

  (** a gate that will wait *)
  Lemma inv_tail st pre W ss pout t m e s : Inv st pre W [] ss pout t m -> fine n M e s -> Inv st (pre ++ [(SFixed s, None)]) W [s] ss pout t m.
  Proof.
    intros HI Hf. destruct HI as [H1 H2 H3 H4 H5 H6 H7 H8 H9 H10]. constructor; try assumption.
    - intros q k E. destruct (H6 q k E) as [Hq [Hk|[]]]. auto.
    - rewrite app_length. cbn [length] in *. lia.
    - cbn [plain map] in *. rewrite app_nil_r in H10. apply same_runs_app; [|assumption]. eapply fine_local; eassumption.
  Qed.
  Lemma inv_wait st pre W ss pout t m e s st' : Inv st pre W [s] ss pout t m -> fine n M e s ->
    (forall q k, In q (operands s) -> o_wait st q = Some k -> ~ In k W) -> o_waitfor nq (CElem e) st = Ok st' -> o_lost st' = false ->
    Inv st' pre (W ++ [length ss]) [] (ss ++ [s]) pout t m /\ o_lost st = false.
  Proof.
    intros HI Hf Hno H Hlost. unfold o_waitfor in H. apply on_operands_ok in H. destruct H as [Hlt H]. injection H as <-. cbn [o_lost] in Hlost.
    apply orb_false_iff in Hlost. destruct Hlost as [Hl0 Hz]. split; [|assumption].
    assert (Hol : forall q, In q (olist (IGate (CElem e))) <-> In q (operands s)) by (intros q; now apply fine_olist).
    assert (Hne : operands s <> []).
    { intros E. destruct e as [b e]. cbn [operand_mask] in Hz. apply N.eqb_neq in Hz. apply Hz. apply N.bits_inj. intros q. rewrite N.bits_0. apply not_true_is_false.
      intros Hq. apply (fine_mask (b, e) s q Hf) in Hq. rewrite E in Hq. destruct Hq. }
    assert (Hlen := Forall2_len _ _ _ (i_pool _ _ _ _ _ _ _ _ _ _ _ HI)).
    assert (Hsg : forall k, (k < length ss)%nat -> sg (ss ++ [s]) k = sg ss k) by (intros k Hk; unfold sg; now rewrite app_nth1).
    assert (Hnew : sg (ss ++ [s]) (length ss) = s) by (unfold sg; now rewrite nth_middle).
    assert (HWl : forall k, In k W -> (k < length ss)%nat) by (intros k Hk; apply (i_act _ _ _ _ _ _ _ _ _ _ _ HI k Hk)).
    destruct HI as [H1 H2 H3 H4 H5 H6 H7 H8 H9 H10]. constructor; cbn [o_pool o_out o_wait o_phase o_lost].
    - apply Forall2_app; [assumption|]. constructor; [eauto|constructor].
    - assumption.
    - assumption.
    - assumption.
    - apply (Permutation_NoDup (l := length ss :: W)); [apply Permutation_cons_append|]. constructor; [|assumption]. intros Hin. apply HWl in Hin. lia.
    - intros q k E. destruct (in_dec N.eq_dec q (olist (IGate (CElem e)))) as [Hq|Hq].
      + rewrite set_wait_in in E by assumption. injection E as <-. rewrite Forall_forall in Hlt. split; [auto|]. left. apply in_or_app. right. left. congruence.
      + rewrite set_wait_out in E by assumption. destruct (H6 q k E) as [Hq' [Hk|Hk]]; (split; [assumption|]); [left; apply in_or_app; now left|].
        elim Hq. apply Hol. cbn [flat_map] in Hk. now rewrite app_nil_r in Hk.
    - intros k Hk. rewrite app_length. cbn [length]. apply in_app_or in Hk. destruct Hk as [Hk|[<-|[]]].
      + destruct (H7 k Hk) as (A & B & C). rewrite Hsg by assumption. split; [lia|]. split; [assumption|]. intros q. rewrite C.
        destruct (in_dec N.eq_dec q (olist (IGate (CElem e)))) as [Hq|Hq]; [|now rewrite set_wait_out by assumption].
        rewrite set_wait_in by assumption. split; [|intros [= E]; lia]. intros E. elim (Hno q k); try assumption. now apply Hol.
      + rewrite Hnew. split; [lia|]. split; [assumption|]. intros q. rewrite <- Hol. split.
        * intros Hq. rewrite set_wait_in by assumption. congruence.
        * intros E. destruct (in_dec N.eq_dec q (olist (IGate (CElem e)))) as [Hq|Hq]; [assumption|]. rewrite set_wait_out in E by assumption.
          destruct (H6 q _ E) as [_ [Hk|Hk]]; [apply HWl in Hk; lia|]. apply Hol. cbn [flat_map] in Hk. now rewrite app_nil_r in Hk.
    - assumption.
    - rewrite app_length. cbn [length] in *. lia.
    - cbn [plain map] in *. rewrite app_nil_r. unfold wl in *. rewrite map_app. cbn [map]. rewrite Hnew.
      replace (map (fun k => (sg (ss ++ [s]) k, None : option cond)) W) with (map (fun k => (sg ss k, None : option cond)) W); [assumption|].
      apply map_ext_in. intros k Hk. now rewrite Hsg by auto.
  Qed.
  (** merging a waiting gate into the last one *)
  Lemma inv_merge st pre W ss pout t m k h e s g' ph st' : Inv st pre W [s] ss pout t m -> fine n M e s -> In k W ->
    pool_at st k = Ok h -> merge_any vf h (CElem e) = Ok (g', ph) ->
    st' = OSt (o_out st) (o_phase st + ph)%R (o_pool st) (o_wait st) (o_lost st || negb (operand_mask g' =? N.lor (operand_mask h) (operand_mask (CElem e)))) ->
    o_lost st' = false ->
    exists e' s' t', g' = CElem e' /\ fine n M e' s' /\ Inv st' pre (remove Nat.eq_dec k W) [s'] ss pout t' (S m) /\ o_lost st = false /\
      (forall q, In q (operands s') <-> In q (operands (sg ss k)) \/ In q (operands s)).
  Proof.
    intros HI Hf Hk Hh Hm -> Hlost. cbn [o_lost] in Hlost. apply orb_false_iff in Hlost. destruct Hlost as [Hl0 Hops]. apply negb_false_iff, N.eqb_eq in Hops.
    unfold pool_at in Hh. destruct (nth_error (o_pool st) k) as [h'|] eqn:Eh; [|discriminate]. injection Hh as <-.
    destruct (pool_sg _ _ _ Hn _ _ _ _ _ _ _ _ _ _ HI Eh) as (e1 & -> & Hf1 & Hlk). rewrite merge_any_elem in Hm. inv_bind Hm. injection Hm as <- <-. destruct v as [e' ph]. cbn [fst snd] in *.
    destruct e' as [b' e']. destruct e1 as [b1 e1]. destruct e as [b e]. cbn [operand_mask] in Hops.
    destruct (fine_merge n M Hn vf _ _ _ _ _ _ Hf1 Hf E Hops) as (s' & u & Hf' & Hu & Hup).
    assert (Hop : forall q, In q (operands s') <-> In q (operands (sg ss k)) \/ In q (operands s)).
    { intros q. rewrite <- (fine_mask _ _ q Hf'), <- (fine_mask _ _ q Hf1), <- (fine_mask _ _ q Hf). cbn [snd]. rewrite Hops, N.lor_spec, orb_true_iff. reflexivity. }
    exists (b', e'), s', (t + u)%R. split; [reflexivity|]. split; [assumption|]. split; [|auto].
    pose proof (remove_Permutation k W (i_nodup _ _ _ _ _ _ _ _ _ _ _ HI) Hk) as HP.
    assert (HP' : Permutation W (remove Nat.eq_dec k W ++ [k])) by (rewrite HP at 1; apply Permutation_cons_append).
    pose proof (wl_perm _ _ _ Hn _ _ _ _ _ _ _ _ _ HI HP') as Hperm.
    assert (Hloc : locals [(s, None)]) by (constructor; [exact (fine_local _ _ Hn _ _ Hf)|constructor]).
    destruct HI as [H1 H2 H3 H4 H5 H6 H7 H8 H9 H10]. constructor; cbn [o_pool o_out o_wait o_phase o_lost]; try assumption.
    - now apply NoDup_remove_nat.
    - intros q k' Eq. destruct (H6 q k' Eq) as [Hq [Hk'|Hk']]; (split; [assumption|]).
      + destruct (Nat.eq_dec k' k) as [->|Hne]; [|left; now apply in_remove_iff]. right. cbn [flat_map]. rewrite app_nil_r. apply Hop. left. now apply (H7 k Hk).
      + right. cbn [flat_map] in *. rewrite app_nil_r in *. apply Hop. now right.
    - intros k' Hk'. apply in_remove_iff in Hk'. now apply H7.
    - replace (t + u - (o_phase st + ph))%R with ((t - o_phase st) + (u - ph))%R by ring. eapply Rle_trans; [apply Rabs_triang|]. rewrite S_INR. lra.
    - apply Permutation_length in HP. cbn [length] in *. lia.
    - apply same_runs_trans with (wl ss W ++ plain [s]); [|assumption]. intros lo. cbn [plain map].
      replace u with (0 + u)%R by ring. apply upto_trans with (lo ++ wl ss (remove Nat.eq_dec k W ++ [k]) ++ [(s, None)]).
      + apply (upto_app n 0 lo (wl ss W)); assumption.
      + unfold wl. rewrite map_app, <- app_assoc. cbn [map app].
        pose proof (upto_app n u (lo ++ map (fun k => (sg ss k, None)) (remove Nat.eq_dec k W)) _ _ [] (Forall_nil _) Hup) as Hu'. rewrite !app_nil_r in Hu'.
        rewrite <- !app_assoc in Hu'. exact Hu'.
  Qed.
  (** a gate that only turns the phase *)
  Lemma inv_phase st pre W ss pout t m f p : Inv st pre W [] ss pout t m -> (forall psi x, f psi x = (Cexpi p * psi x)%C) ->
    Inv (OSt (o_out st) (o_phase st + p)%R (o_pool st) (o_wait st) (o_lost st)) (pre ++ [(SFixed (Act [] f), None)]) W [] ss pout (t + p)%R m.
  Proof.
    intros HI Hf. assert (Hloc : local (Act [] f)).
    { cbn [local]. replace f with (fun (psi : state) x => (Cexpi p * psi x)%C); [apply acts_on_times|]. apply functional_extensionality. intros psi. apply functional_extensionality. intros x. symmetry. apply Hf. }
    destruct HI as [H1 H2 H3 H4 H5 H6 H7 H8 H9 H10]. constructor; cbn [o_pool o_out o_wait o_phase o_lost]; try assumption.
    - now replace (t + p - (o_phase st + p))%R with (t - o_phase st)%R by ring.
    - rewrite app_length. cbn [length] in *. lia.
    - cbn [plain map] in *. rewrite app_nil_r in *. apply same_runs_trans with (wl ss W ++ [(Act [] f, None)]); [|now apply same_runs_app].
      intros lo. pose proof (upto_app n p (lo ++ wl ss W) _ _ [] (Forall_nil _) (upto_nothing n p f Hf)) as Hu. rewrite !app_nil_r in Hu. now rewrite <- app_assoc in Hu.
  Qed.
End Steps.
