(** C31, C49, C50: histories, sampling, classical registers. *)
From Verif Require Export StateProofs.
From Coq Require Import ZifyBool ZifyN ZifyNat Permutation Sorting.Sorted FunctionalExtensionality.

Lemma Rsuml_ext_seqN (f g : N -> R) k : (forall x, x < k -> f x = g x) -> Rsuml f (seqN k) = Rsuml g (seqN k).
Proof. intros H. apply Rsuml_ext. intros x Hx. apply H. now apply in_seqN. Qed.
Lemma sqnorm_ext n psi phi : (forall x, x < 2 ^ n -> psi x = phi x) -> sqnorm n psi = sqnorm n phi.
Proof. intros H. apply Rsuml_ext_seqN. intros x Hx. now rewrite H. Qed.
Lemma sets_weaken D p w psi phi : (forall a, a < D -> psi a = phi a) -> sets D p w psi -> sets D p w phi.
Proof.
  intros E H. eapply runs_weaken; [exact H|]. intros [t w'|w'|]; simpl; auto. intros (H1 & H2). split; [|assumption].
  intros a Ha. rewrite H1 by assumption. auto.
Qed.

(** ** Histories *)
Definition agrees (D : N) (psi phi : state) : Prop := forall a, a < D -> psi a = phi a.
Lemma run_sop_ok n o psi w : agrees (2 ^ n) (w_amp w) psi -> sop_ok n o psi ->
  match vector_op n o psi with
  | Some psi' => sets (2 ^ n) (run_sop n o) w psi'
  | None => throws (run_sop n o) w
  end.
Proof.
  intros Ha Hok. destruct o; cbn [run_sop vector_op sop_ok] in *.
  - apply set_zero_state_ok.
  - apply set_zero_norm_ok.
  - destruct (N.ltb_spec x (2 ^ n)); [now apply set_basis_ok|now apply set_basis_throws].
  - eapply sets_weaken; [|now apply set_amp_ok]. intros a Hlt. cbv beta. now rewrite Ha.
  - rewrite <- (sqnorm_ext n _ _ Ha) in *. eapply sets_weaken; [|now apply normalize_ok]. intros a Hlt. cbv beta. now rewrite Ha.
  - eapply sets_weaken; [|apply multiply_ok]. intros a Hlt. cbv beta. now rewrite Ha.
  - eapply sets_weaken; [|apply add_ok].
    + intros a Hlt. cbv beta. now rewrite Ha.
    + destruct Hok as [|Hm]; [now left|]. right. apply N.pow_le_mono_r; lia.
  - destruct (N.eqb_spec (N.of_nat (length l)) (2 ^ n)); [now apply load_ok|now apply load_throws].
Qed.
Definition ends_with (D : N) (psi' : state) (threw : bool) (w : world) (o : houtcome world unit) : Prop :=
  match o with
  | HDone _ w' => threw = false /\ only_amplitudes D psi' w w'
  | HThrown w' => threw = true /\ only_amplitudes D psi' w w'
  | HUndefined => False
  end.
Lemma vector_op_agree n o psi phi : agrees (2 ^ n) psi phi ->
  match vector_op n o psi, vector_op n o phi with
  | Some a, Some b => agrees (2 ^ n) a b
  | None, None => True
  | _, _ => False
  end.
Proof.
  intros H. destruct o; cbn [vector_op]; try (intros a Ha; cbv beta; rewrite ?H by assumption; reflexivity).
  - destruct (x <? 2 ^ n); [intros a Ha; reflexivity|exact I].
  - rewrite (sqnorm_ext n psi phi H). intros a Ha. cbv beta. now rewrite H.
  - destruct (N.of_nat (length l) =? 2 ^ n); [intros a Ha; reflexivity|exact I].
Qed.
Lemma run_sops_ok n l : forall psi w, agrees (2 ^ n) (w_amp w) psi -> sops_ok n l psi ->
  runs (run_sops n l) w (ends_with (2 ^ n) (fst (vector_ops n l psi)) (snd (vector_ops n l psi)) w).
Proof.
  induction l as [|o l IH]; intros psi w Ha Hok.
  - simpl. apply runs_ret. simpl. repeat split; auto.
  - destruct Hok as [Ho Hr]. pose proof (run_sop_ok n o psi w Ha Ho) as Hs. cbn [run_sops fold_right vector_ops].
    destruct (vector_op n o psi) as [psi'|] eqn:E.
    + eapply runs_bind_done; [exact Hs|]. intros [] w1 (H1 & H2 & H3 & H4).
      eapply runs_weaken; [apply (IH psi' w1); [exact H1|now apply Hr]|].
      intros [t w'|w'|]; simpl; [| |contradiction].
      * intros [-> (K1 & K2 & K3 & K4)]. split; [reflexivity|]. repeat split; auto; congruence.
      * intros [-> (K1 & K2 & K3 & K4)]. split; [reflexivity|]. repeat split; auto; congruence.
    + eapply runs_bind; [exact Hs| | |]; cbv beta; try discriminate.
      intros w1 [= ->]. simpl. repeat split; auto.
Qed.

(** ** Sampling *)
Lemma seqN_succ' n : seqN (N.succ n) = seqN n ++ [n].
Proof. apply seqN_succ. Qed.
Lemma cumulative_succ psi k : cumulative psi (k + 1) = (cumulative psi k + Cnorm2 (psi k))%R.
Proof. unfold cumulative. rewrite N.add_1_r, seqN_succ, Rsuml_app. simpl. lra. Qed.
Lemma stacked_cumulative psi k : stacked_prob psi k = cumulative psi k.
Proof.
  unfold stacked_prob. rewrite <- (N2Nat.id k) at 2. generalize (N.to_nat k) as j.
  induction j as [|j IH]; [reflexivity|]. simpl stacked. rewrite IH.
  replace (N.of_nat (S j)) with (N.of_nat j + 1) by lia. now rewrite cumulative_succ.
Qed.
Lemma cumulative_mono psi a b : a <= b -> (cumulative psi a <= cumulative psi b)%R.
Proof.
  intros H. replace b with (a + (b - a)) by lia. generalize (b - a) as d. clear.
  intros d. induction d using N.peano_ind; [rewrite N.add_0_r; lra|].
  replace (a + N.succ d) with (a + d + 1) by lia. rewrite cumulative_succ. pose proof (Cnorm2_nonneg (psi (a + d))). lra.
Qed.
Lemma cumulative_0 psi : cumulative psi 0 = 0%R. Proof. reflexivity. Qed.
Lemma bsearch_spec st r top fuel : forall lo hi, (N.to_nat (hi - lo) <= fuel)%nat -> lo < hi -> hi <= top ->
  (st lo <= r)%R -> (hi = top \/ (r < st hi)%R) ->
  let x := bsearch fuel st r lo hi in lo <= x /\ x < hi /\ (st x <= r)%R /\ (x + 1 = top \/ (r < st (x + 1)%N)%R).
Proof.
  induction fuel as [|f IH]; intros lo hi Hf Hlt Htop Hlo Hhi; cbn [bsearch]; [lia|].
  destruct (N.ltb_spec 1 (hi - lo)) as [H|H].
  - set (mid := (lo + hi) / 2).
    assert (Hm : lo < mid < hi).
    { unfold mid. split; [apply N.lt_le_trans with (lo + 1); [lia|]; apply N.div_le_lower_bound; lia|apply N.div_lt_upper_bound; lia]. }
    destruct (Rlt_dec r (st mid)) as [Hr|Hr].
    + destruct (IH lo mid) as (H1 & H2 & H3 & H4); try lia; auto. repeat split; auto; lia.
    + destruct (IH mid hi) as (H1 & H2 & H3 & H4); try lia; auto; [lra|]. repeat split; auto; lia.
  - assert (E : hi = lo + 1) by lia. subst hi. repeat split; auto; lia.
Qed.
Lemma choose_spec n psi r : (0 <= r)%R ->
  (choose n psi r < 2 ^ n /\ selects psi r (choose n psi r)) \/ (choose n psi r = 2 ^ n /\ (sqnorm n psi <= r)%R).
Proof.
  intros Hr. unfold choose. pose proof (pow2_pos n).
  destruct (bsearch_spec (stacked_prob psi) r (2 ^ n + 1) (N.to_nat (2 ^ n + 1)) 0 (2 ^ n + 1)) as (H1 & H2 & H3 & H4); try lia.
  - rewrite stacked_cumulative, cumulative_0. exact Hr.
  - set (x := bsearch _ _ _ _ _) in *. rewrite stacked_cumulative in H3.
    destruct H4 as [H4|H4].
    + right. assert (x = 2 ^ n) by lia. split; [assumption|]. rewrite H0 in H3. exact H3.
    + destruct (N.eq_dec x (2 ^ n)) as [E|E]; [right; split; [assumption|]; rewrite E in H3; exact H3|].
      left. split; [lia|]. unfold selects. rewrite stacked_cumulative in H4. auto.
Qed.
Lemma selects_unique psi r x y : selects psi r x -> selects psi r y -> x = y.
Proof.
  unfold selects. intros [H1 H2] [H3 H4]. destruct (N.lt_trichotomy x y) as [H|[H|H]]; [|assumption|].
  - pose proof (cumulative_mono psi (x + 1) y ltac:(lia)). lra.
  - pose proof (cumulative_mono psi (y + 1) x ltac:(lia)). lra.
Qed.
Lemma selects_positive psi r x : selects psi r x -> (0 < Cnorm2 (psi x))%R.
Proof. unfold selects. rewrite cumulative_succ. lra. Qed.
Lemma selects_below n psi r x : (r < sqnorm n psi)%R -> selects psi r x -> x < 2 ^ n.
Proof.
  intros Hr [H1 H2]. destruct (N.ltb_spec x (2 ^ n)); [assumption|].
  pose proof (cumulative_mono psi (2 ^ n) x ltac:(lia)). unfold sqnorm in Hr. unfold cumulative in *. lra.
Qed.

Section Rounds.
  Context {K : Type} (keqb : K -> K -> bool) (keqb_spec : forall a b, reflect (a = b) (keqb a b)).
  Variables (n : N) (pick : K -> R -> N).
  Lemma sampling_store_spec draw : forall todo i result next r, NoDup todo ->
    sampling_store n keqb pick draw i todo result = (next, r) ->
    (forall s, In s next -> In s todo) /\ NoDup next /\
    (forall s, ~ In s todo -> r s = result s) /\
    (forall k s, nth_error todo k = Some s ->
       (pick s (draw (i + N.of_nat k)) = 2 ^ n /\ In s next) \/
       (pick s (draw (i + N.of_nat k)) <> 2 ^ n /\ ~ In s next /\ r s = pick s (draw (i + N.of_nat k)))).
  Proof.
    induction todo as [|s todo IH]; intros i result next r Hnd E; cbn [sampling_store] in E.
    - injection E as <- <-. split; [auto|]. split; [constructor|]. split; [auto|]. intros [|k] ? [=].
    - inversion Hnd as [|? ? Hs Hnd']; subst. destruct (N.eqb_spec (pick s (draw i)) (2 ^ n)) as [Ed|Ed].
      + destruct (sampling_store n keqb pick draw (i + 1) todo result) as [next' r'] eqn:E'.
        injection E as <- <-. destruct (IH _ _ _ _ Hnd' E') as (H1 & H2 & H3 & H4). refine (conj _ (conj _ (conj _ _))).
        * intros x [<-|Hx]; [now left|right; auto].
        * constructor; [|assumption]. intros Hc. apply Hs. auto.
        * intros x Hx. apply H3. intros Hc. apply Hx. now right.
        * intros [|k] x; cbn [nth_error].
          -- intros [= <-]. change (N.of_nat 0) with 0; rewrite N.add_0_r. left. split; [assumption|now left].
          -- intros Hk. specialize (H4 k x Hk). replace (i + N.of_nat (S k)) with (i + 1 + N.of_nat k) by lia.
             assert (s <> x) by (intros ->; apply Hs; eapply nth_error_In; eassumption).
             destruct H4 as [[A B]|(A & B & D0)]; [left; split; [assumption|now right]|right].
             split; [assumption|]. split; [|assumption]. intros [?|?]; [congruence|contradiction].
      + destruct (IH _ _ _ _ Hnd' E) as (H1 & H2 & H3 & H4). refine (conj _ (conj _ (conj _ _))).
        * intros x Hx. right. auto.
        * assumption.
        * intros x Hx. rewrite H3 by (intros Hc; apply Hx; now right). unfold upd. destruct (keqb_spec x s); [subst; exfalso; apply Hx; now left|reflexivity].
        * intros [|k] x; cbn [nth_error].
          -- intros [= <-]. change (N.of_nat 0) with 0; rewrite N.add_0_r. right. split; [assumption|]. split; [intros Hc; apply Hs; auto|].
             rewrite H3 by assumption. unfold upd. destruct (keqb_spec s s); [reflexivity|congruence].
          -- intros Hk. specialize (H4 k x Hk). replace (i + N.of_nat (S k)) with (i + 1 + N.of_nat k) by lia. exact H4.
  Qed.
  Lemma sampling_loop_spec rounds : forall todo result r, NoDup todo ->
    sampling_loop n keqb pick rounds todo result = Some r ->
    (forall s, ~ In s todo -> r s = result s) /\
    (forall s, In s todo -> exists draw i, In draw rounds /\ pick s (draw i) <> 2 ^ n /\ r s = pick s (draw i)).
  Proof.
    induction rounds as [|draw rounds IH]; intros todo result r Hnd E.
    - destruct todo; [|discriminate]. injection E as <-. split; [reflexivity|intros ? []].
    - cbn [sampling_loop] in E. destruct todo as [|t0 todo0] eqn:Et; [injection E as <-; split; [reflexivity|intros ? []]|].
      rewrite <- Et in *. clear Et. destruct (sampling_store n keqb pick draw 0 todo result) as [next r1] eqn:Es.
      destruct (sampling_store_spec _ _ _ _ _ _ Hnd Es) as (H1 & H2 & H3 & H4).
      destruct (IH _ _ _ H2 E) as [K1 K2]. split.
      + intros s Hs. rewrite K1 by (intros Hc; apply Hs; auto). auto.
      + intros s Hs. apply In_nth_error in Hs as [k Hk]. destruct (H4 k s Hk) as [[A B]|(A & B & D0)].
        * destruct (K2 s B) as (d & i & Hd & Hp). exists d, i. split; [now right|assumption].
        * exists draw, (0 + N.of_nat k). split; [now left|]. split; [assumption|]. now rewrite K1.
  Qed.
  (** a round in which every search succeeds ends the loop *)
  Lemma sampling_loop_one draw rest todo result : NoDup todo ->
    (forall k s, nth_error todo k = Some s -> pick s (draw (N.of_nat k)) <> 2 ^ n) ->
    exists r, sampling_loop n keqb pick (draw :: rest) todo result = Some r /\
      forall k s, nth_error todo k = Some s -> r s = pick s (draw (N.of_nat k)).
  Proof.
    intros Hnd H. cbn [sampling_loop]. destruct todo as [|t0 todo0] eqn:Et.
    - exists result. split; [reflexivity|]. intros [|k] ? [=].
    - rewrite <- Et in *. clear Et. destruct (sampling_store n keqb pick draw 0 todo result) as [next r1] eqn:Es.
      destruct (sampling_store_spec _ _ _ _ _ _ Hnd Es) as (H1 & H2 & H3 & H4).
      assert (next = []).
      { destruct next as [|s next]; [reflexivity|]. exfalso. assert (Hs : In s todo) by (apply H1; now left).
        apply In_nth_error in Hs as [k Hk]. destruct (H4 k s Hk) as [[A B]|(A & B & D0)].
        - rewrite N.add_0_l in A. now apply (H k s Hk).
        - apply B. now left. }
      subst next. exists r1. split; [destruct rest; reflexivity|]. intros k s Hk. destruct (H4 k s Hk) as [[A []]|(A & B & D0)].
      now rewrite N.add_0_l in D0.
  Qed.
  Lemma sampling_loop_never rounds : forall todo result, NoDup todo -> todo <> [] ->
    (forall draw i s, In draw rounds -> pick s (draw i) = 2 ^ n) ->
    sampling_loop n keqb pick rounds todo result = None.
  Proof.
    induction rounds as [|draw rounds IH]; intros todo result Hnd Hne H; destruct todo as [|t0 todo0]; try congruence; [reflexivity|].
    cbn [sampling_loop]. destruct (sampling_store n keqb pick draw 0 (t0 :: todo0) result) as [next r1] eqn:Es.
    destruct (sampling_store_spec _ _ _ _ _ _ Hnd Es) as (H1 & H2 & H3 & H4).
    apply IH; [assumption| |intros d i s Hd; apply H; now right].
    destruct (H4 O t0 eq_refl) as [[A B]|(A & B & D0)]; [destruct next; [destruct B|discriminate]|].
    rewrite H in A by now left. congruence.
  Qed.
End Rounds.

Definition rounds_nonneg (rounds : list (N -> R)) : Prop := forall draw i, In draw rounds -> unit_draw (draw i).
Lemma sampling_sound n psi count rounds l : rounds_nonneg rounds -> sampling n psi count rounds = Some l ->
  length l = N.to_nat count /\
  forall x, In x l -> x < 2 ^ n /\ exists draw i, In draw rounds /\ selects psi (draw i) x.
Proof.
  intros Hr E. unfold sampling in E.
  destruct (sampling_loop n N.eqb (fun _ => choose n psi) rounds (seqN count) (fun _ => 0)) as [r|] eqn:El; [|discriminate].
  injection E as <-. split; [now rewrite map_length, length_seqN|].
  destruct (sampling_loop_spec N.eqb neqb_spec _ _ _ _ _ _ (NoDup_seqN count) El) as [_ H].
  intros x Hx. apply in_map_iff in Hx as (s & <- & Hs). destruct (H s Hs) as (draw & i & Hd & Hne & ->).
  destruct (choose_spec n psi (draw i)) as [[H1 H2]|[H1 H2]]; [apply (Hr draw i Hd)| |contradiction].
  split; [assumption|]. exists draw, i. auto.
Qed.
Lemma nth_error_seqN n k s : nth_error (seqN n) k = Some s -> s = N.of_nat k /\ s < n.
Proof.
  intros H. assert (Hk : (k < N.to_nat n)%nat) by (rewrite <- length_seqN; apply nth_error_Some; congruence).
  rewrite (nth_error_nth' _ 0) in H by (rewrite length_seqN; assumption). injection H as <-. rewrite nth_seqN by assumption.
  split; [reflexivity|lia].
Qed.
Lemma nth_error_seqN' n k : (k < N.to_nat n)%nat -> nth_error (seqN n) k = Some (N.of_nat k).
Proof. intros H. rewrite (nth_error_nth' _ 0) by (now rewrite length_seqN). now rewrite nth_seqN. Qed.
Lemma sampling_one_round n psi count draw rest : (forall i, 0 <= draw i < sqnorm n psi)%R ->
  exists l, sampling n psi count (draw :: rest) = Some l /\ length l = N.to_nat count /\
    forall k, k < count -> selects psi (draw k) (nth (N.to_nat k) l 0).
Proof.
  intros Hd. assert (Hc : forall i, choose n psi (draw i) <> 2 ^ n /\ selects psi (draw i) (choose n psi (draw i))).
  { intros i. destruct (Hd i) as [D1 D2]. destruct (choose_spec n psi (draw i) D1) as [[H1 H2]|[H1 H2]]; [split; [lia|assumption]|lra]. }
  destruct (sampling_loop_one N.eqb neqb_spec n (fun _ => choose n psi) draw rest (seqN count) (fun _ => 0) (NoDup_seqN count)) as (r & E & H).
  { intros k s _. apply Hc. }
  unfold sampling. rewrite E. eexists. split; [reflexivity|]. split; [now rewrite map_length, length_seqN|].
  intros k Hk. rewrite (nth_indep _ 0 (r 0)) by (rewrite map_length, length_seqN; lia). rewrite map_nth, nth_seqN by lia.
  rewrite N2Nat.id. rewrite (H (N.to_nat k) k); [rewrite N2Nat.id; apply Hc|]. rewrite nth_error_seqN' by lia. f_equal. lia.
Qed.
Lemma sampling_zero n psi count rounds : sqnorm n psi = 0%R -> 0 < count -> rounds_nonneg rounds -> sampling n psi count rounds = None.
Proof.
  intros Hz Hc Hr. unfold sampling. rewrite (sampling_loop_never N.eqb neqb_spec); [reflexivity|apply NoDup_seqN| |].
  - intros E. apply (f_equal (@length N)) in E. rewrite length_seqN in E. simpl in E. lia.
  - intros draw i s Hd. destruct (Hr draw i Hd) as [D1 D2]. destruct (choose_spec n psi (draw i) D1) as [[H1 H2]|[H1 H2]]; [|assumption].
    exfalso. assert (Hx : Cnorm2 (psi (choose n psi (draw i))) = 0%R).
    { apply (Rsuml_zero (fun x => Cnorm2 (psi x)) (seqN (2 ^ n))); [intros; apply Cnorm2_nonneg|assumption|now apply in_seqN]. }
    apply selects_positive in H2. lra.
Qed.
(** batched *)
Lemma pair_eqb_spec a b : reflect (a = b) (pair_eqb a b).
Proof.
  unfold pair_eqb. destruct a as [a1 a2], b as [b1 b2]. simpl.
  destruct (N.eqb_spec a1 b1), (N.eqb_spec a2 b2); subst; simpl; constructor; congruence.
Qed.
Lemma b_sampling_sound B n psi count rounds l : rounds_nonneg rounds -> b_sampling B n psi count rounds = Some l ->
  length l = N.to_nat B /\
  forall b, b < B -> length (nth (N.to_nat b) l []) = N.to_nat count /\
    forall x, In x (nth (N.to_nat b) l []) -> x < 2 ^ n /\ exists draw i, In draw rounds /\ selects (batch n b psi) (draw i) x.
Proof.
  intros Hr E. unfold b_sampling in E.
  match type of E with context [sampling_loop n pair_eqb ?P rounds ?T ?r0] =>
    destruct (sampling_loop n pair_eqb P rounds T r0) as [r|] eqn:El; [|discriminate];
    pose proof (sampling_loop_spec pair_eqb pair_eqb_spec n P rounds T r0 r
      (NoDup_list_prod _ _ (NoDup_seqN B) (NoDup_seqN count)) El) as [_ H] end.
  injection E as <-. split; [now rewrite map_length, length_seqN|]. intros b Hb.
  set (f := fun b => map (fun s => r (b, s)) (seqN count)).
  rewrite (nth_indep _ [] (f 0)) by (rewrite map_length, length_seqN; lia). rewrite map_nth, nth_seqN by lia. rewrite N2Nat.id.
  unfold f. split; [now rewrite map_length, length_seqN|].
  intros x Hx. apply in_map_iff in Hx as (s & <- & Hs). destruct (H (b, s)) as (draw & i & Hd & Hne & ->).
  { apply in_prod; [now apply in_seqN|assumption]. }
  cbn [fst] in *.
  destruct (choose_spec n (batch n b psi) (draw i)) as [[H1 H2]|[H1 H2]]; [apply (Hr draw i Hd)| |].
  - split; [exact H1|]. exists draw, i. auto.
  - contradiction.
Qed.
