(** The invariant of the loop of Circuit::optimize. *)
From Verif Require Export OptimizeProofs4.
From Coq Require Import ZifyBool ZifyN ZifyNat Permutation Lra FunctionalExtensionality.

(** ** Lists of indices *)
Lemma insert_unique_In k l x : In x (insert_unique k l) <-> x = k \/ In x l.
Proof.
  induction l as [|h l IH]; cbn [insert_unique]; [simpl; intuition|]. destruct (Nat.ltb_spec k h); [simpl; intuition|].
  destruct (Nat.eqb_spec k h) as [->|]; [simpl; intuition|]. simpl. rewrite IH. intuition.
Qed.
Lemma sort_unique_In l x : In x (sort_unique l) <-> In x l.
Proof. induction l as [|h l IH]; [reflexivity|]. cbn [sort_unique fold_right]. rewrite insert_unique_In. fold (sort_unique l). rewrite IH. simpl. intuition. Qed.
Lemma insert_unique_sorted k l : Sorted.StronglySorted lt l -> Sorted.StronglySorted lt (insert_unique k l).
Proof.
  induction 1 as [|h l Hs IH Hf]; cbn [insert_unique]; [repeat constructor|]. destruct (Nat.ltb_spec k h).
  - constructor; [now constructor|]. constructor; [assumption|]. eapply Forall_impl; [|exact Hf]. simpl. lia.
  - destruct (Nat.eqb_spec k h); [now constructor|]. constructor; [assumption|]. apply Forall_forall. intros x Hx. apply insert_unique_In in Hx.
    destruct Hx as [->|Hx]; [lia|]. rewrite Forall_forall in Hf. auto.
Qed.
Lemma sort_unique_NoDup l : NoDup (sort_unique l).
Proof.
  assert (Hs : Sorted.StronglySorted lt (sort_unique l)) by (induction l; [constructor|now apply insert_unique_sorted]).
  induction Hs as [|h r Hs IH Hf]; constructor; [|assumption]. intros Hin. rewrite Forall_forall in Hf. specialize (Hf _ Hin). lia.
Qed.
Lemma waiting_In qs w k : In k (waiting qs w) <-> exists q, In q qs /\ w q = Some k.
Proof.
  unfold waiting. rewrite sort_unique_In, in_flat_map. split; intros (q & H1 & H2); exists q; split; try assumption.
  - destruct (w q) as [k'|]; [|destruct H2]. destruct H2 as [->|[]]. reflexivity.
  - rewrite H2. now left.
Qed.
Lemma set_wait_spec qs v : forall w q, set_wait qs v w q = if existsb (N.eqb q) qs then v else w q.
Proof.
  unfold set_wait. induction qs as [|a qs IH]; intros w q; [reflexivity|]. cbn [fold_left existsb]. rewrite IH. unfold upd.
  destruct (existsb (N.eqb q) qs); [now rewrite orb_true_r|]. rewrite orb_false_r. reflexivity.
Qed.
Lemma set_wait_in qs v w q : In q qs -> set_wait qs v w q = v.
Proof. intros H. rewrite set_wait_spec. replace (existsb (N.eqb q) qs) with true; [reflexivity|]. symmetry. apply existsb_exists. exists q. split; [assumption|apply N.eqb_refl]. Qed.
Lemma set_wait_out qs v w q : ~ In q qs -> set_wait qs v w q = w q.
Proof.
  intros H. rewrite set_wait_spec. replace (existsb (N.eqb q) qs) with false; [reflexivity|]. symmetry. apply not_true_is_false. intros E.
  apply existsb_exists in E. destruct E as (q' & Hi & Eq). apply N.eqb_eq in Eq. now subst.
Qed.
Lemma on_operands_ok {T} nq i (k : list N -> res T) r : on_operands nq i k = Ok r -> Forall (fun q => q < nq) (olist i) /\ k (olist i) = Ok r.
Proof. unfold on_operands. destruct (forallb _ _) eqn:E; [|discriminate]. intros H. split; [|assumption]. apply Forall_forall. intros q Hq. rewrite forallb_forall in E. specialize (E q Hq). lia. Qed.
Lemma in_remove_iff (k x : nat) l : In x (remove Nat.eq_dec k l) <-> In x l /\ x <> k.
Proof. split; [apply in_remove|]. intros [H1 H2]. now apply in_in_remove. Qed.
Lemma NoDup_remove_nat k l : NoDup l -> NoDup (remove Nat.eq_dec k l).
Proof.
  induction 1 as [|x l Hx Hl IH]; [constructor|]. cbn [remove]. destruct (Nat.eq_dec k x); [assumption|]. constructor; [|assumption].
  intros H. apply in_remove in H. tauto.
Qed.
Lemma remove_Permutation k l : NoDup l -> In k l -> Permutation l (k :: remove Nat.eq_dec k l).
Proof.
  intros Hn Hk. apply NoDup_Permutation; [assumption|constructor; [|now apply NoDup_remove_nat]|].
  - intros H. apply in_remove in H. tauto.
  - intros x. simpl. rewrite in_remove_iff. destruct (Nat.eq_dec x k); intuition congruence.
Qed.

Section Invariant.
  Variables (vf : bool) (nq n : N) (M : Prop).
  Hypothesis Hn : n < 64.

  Lemma olist_spec i si : represents i si -> Forall (fun q => q < n) (item_operands si) -> forall q, In q (olist i) <-> In q (item_operands si).
  Proof.
    intros Hr HF q. unfold olist. rewrite mask_to_vector_bits.
    - rewrite in_bits. now apply item_mask_operands.
    - unfold two64. apply N.lt_le_trans with (2 ^ n); [|apply N.pow_le_mono_r; lia]. apply lt_pow2_testbit. intros j Hj. apply not_true_is_false. intros E.
      apply (item_mask_operands i si j Hr) in E. rewrite Forall_forall in HF. specialize (HF j E). lia.
  Qed.

  Definition nowhere : sgate := Choice [].
  Definition sg (ss : list sgate) (k : nat) : sgate := nth k ss nowhere.
  Definition wl (ss : list sgate) (W : list nat) : list (sgate * option cond) := map (fun k => (sg ss k, None)) W.
  Definition plain (l : list sgate) : list (sgate * option cond) := map (fun s => (s, None)) l.
  Definition same_runs (t : R) (pre pout : program) (rest : list (sgate * option cond)) : Prop := forall ps,
    (instantiate ps pre = None /\ instantiate ps pout = None) \/
    exists l lo, instantiate ps pre = Some l /\ instantiate ps pout = Some lo /\ upto n t l (lo ++ rest).

  Record Inv (st : ost) (pre : program) (W : list nat) (tl : list sgate) (ss : list sgate) (pout : program) (t : R) (m : nat) : Prop := {
    i_pool : Forall2 (fun g s => exists e, g = CElem e /\ fine n M e s) (o_pool st) ss;
    i_out : Forall2 represents (map fst (o_out st)) (map fst pout);
    i_conds : map snd (o_out st) = map snd pout;
    i_below : Forall (fun q => q < n) (program_operands pout);
    i_nodup : NoDup W;
    i_wait : forall q k, o_wait st q = Some k -> q < nq /\ (In k W \/ In q (flat_map operands tl));
    i_act : forall k, In k W -> (k < length ss)%nat /\ operands (sg ss k) <> [] /\ forall q, In q (operands (sg ss k)) <-> o_wait st q = Some k;
    i_phase : (Rabs (t - o_phase st) <= INR m * eps)%R;
    i_count : (length (o_out st) + m + length W + length tl <= length pre)%nat;
    i_runs : same_runs t pre pout (wl ss W ++ plain tl)
  }.

  Lemma fine_is_act e s : fine n M e s -> is_act (s, None).
  Proof. intros H. destruct (fine_act n M Hn e s H) as (qs & -> & Ho & _). exists qs, (gate_sem (snd e)). auto. Qed.
  Lemma fine_local e s : fine n M e s -> local s.
  Proof. intros H. destruct (fine_act n M Hn e s H) as (qs & -> & Ho & _). exact Ho. Qed.
  Lemma pool_sg st pre W tl ss pout t m k g : Inv st pre W tl ss pout t m -> nth_error (o_pool st) k = Some g ->
    exists e, g = CElem e /\ fine n M e (sg ss k) /\ (k < length ss)%nat.
  Proof.
    intros HI Hg. assert (Hlen := Forall2_len _ _ _ (i_pool _ _ _ _ _ _ _ _ HI)). assert (Hk : (k < length (o_pool st))%nat) by (apply nth_error_Some; congruence).
    destruct (nth_error ss k) as [s|] eqn:Es; [|apply nth_error_None in Es; lia].
    destruct (Forall2_nth_error _ _ _ (i_pool _ _ _ _ _ _ _ _ HI) k g s Hg Es) as (e & -> & Hf). exists e. unfold sg. rewrite (nth_error_nth _ _ _ Es). split; [reflexivity|]. split; [assumption|lia].
  Qed.
  Lemma sg_fine st pre W tl ss pout t m k : Inv st pre W tl ss pout t m -> In k W -> exists e, nth_error (o_pool st) k = Some (CElem e) /\ fine n M e (sg ss k).
  Proof.
    intros HI Hk. destruct (i_act _ _ _ _ _ _ _ _ HI k Hk) as (Hl & _). assert (Hlen := Forall2_len _ _ _ (i_pool _ _ _ _ _ _ _ _ HI)).
    destruct (nth_error (o_pool st) k) as [g|] eqn:Eg; [|apply nth_error_None in Eg; lia]. destruct (pool_sg _ _ _ _ _ _ _ _ _ _ HI Eg) as (e & -> & Hf & _). eauto.
  Qed.
  Lemma wl_acts st pre W tl ss pout t m : Inv st pre W tl ss pout t m -> Forall is_act (wl ss W).
  Proof. intros HI. apply Forall_forall. intros x Hx. apply in_map_iff in Hx. destruct Hx as (k & <- & Hk). destruct (sg_fine _ _ _ _ _ _ _ _ _ HI Hk) as (e & _ & Hf). eapply fine_is_act; eassumption. Qed.
  Lemma wl_apart st pre W tl ss pout t m : Inv st pre W tl ss pout t m -> ForallOrdPairs apart (wl ss W).
  Proof.
    intros HI. assert (Hd : forall k k', In k W -> In k' W -> k <> k' -> apart (sg ss k, None) (sg ss k', None)).
    { intros k k' H1 H2 Hne i Hi Hj. cbn [fst] in *. destruct (i_act _ _ _ _ _ _ _ _ HI k H1) as (_ & _ & E1). destruct (i_act _ _ _ _ _ _ _ _ HI k' H2) as (_ & _ & E2).
      apply E1 in Hi. apply E2 in Hj. congruence. }
    pose proof (i_nodup _ _ _ _ _ _ _ _ HI) as Hnd. clear HI. induction Hnd as [|k W Hk Hnd IH]; [constructor|]. cbn [wl map]. constructor.
    - apply Forall_forall. intros x Hx. apply in_map_iff in Hx. destruct Hx as (k' & <- & Hk'). apply Hd; [now left|now right|]. intros ->. contradiction.
    - apply IH. intros; apply Hd; auto; now right.
  Qed.
  Lemma wl_perm st pre W tl ss pout t m W' : Inv st pre W tl ss pout t m -> Permutation W W' -> upto n 0 (wl ss W) (wl ss W').
  Proof. intros HI HP. apply upto_perm; [now apply Permutation_map|eapply wl_acts; eassumption|eapply wl_apart; eassumption]. Qed.

  Lemma same_runs_trans t u pre pout rest rest' : (forall lo, upto n u (lo ++ rest) (lo ++ rest')) -> same_runs t pre pout rest -> same_runs (t + u) pre pout rest'.
  Proof. intros Hu H ps. destruct (H ps) as [HN|(l & lo & E1 & E2 & Hl)]; [now left|right]. exists l, lo. split; [assumption|]. split; [assumption|]. now apply upto_trans with (lo ++ rest). Qed.
  Lemma instantiate_snoc ps p i f : instantiate ps (p ++ [(i, f)]) =
    match instantiate ps p, item_gate ps i with Some l, Some g => Some (l ++ [(g, f)]) | _, _ => None end.
  Proof.
    induction p as [|[j c] p IH]; cbn [app instantiate].
    - destruct (item_gate ps i); reflexivity.
    - rewrite IH. destruct (item_gate ps j); [|reflexivity]. destruct (instantiate ps p); [|reflexivity]. destruct (item_gate ps i); reflexivity.
  Qed.
  (** appending the same gate on both sides *)
  Lemma same_runs_app t pre pout rest s : local s -> same_runs t pre pout rest -> same_runs t (pre ++ [(SFixed s, None)]) pout (rest ++ [(s, None)]).
  Proof.
    intros Hl H ps. destruct (H ps) as [[E1 E2]|(l & lo & E1 & E2 & Hu)]; [left|right]; rewrite instantiate_snoc, E1; cbn [item_gate]; [auto|].
    exists (l ++ [(s, None)]), lo. split; [reflexivity|]. split; [assumption|]. rewrite app_assoc. apply (upto_app n t [] l (lo ++ rest) [(s, None)]); [|assumption].
    constructor; [exact Hl|constructor].
  Qed.
End Invariant.
