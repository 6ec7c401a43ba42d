(** A gate object refines the reference gate it stands for. *)
From Verif Require Export CircuitProofs.
From Coq Require Import ZifyBool ZifyN ZifyNat Permutation Lra.

Section CgateInd.
  Variable P : cgate -> Prop.
  Hypothesis He : forall g, P (CElem g).
  Hypothesis Hm : forall t b r, P (CMeas t b r).
  Hypothesis Hp : forall t d gs, Forall P gs -> P (CProb t d gs).
  Fixpoint cgate_ind' (g : cgate) : P g :=
    match g with
    | CElem g => He g
    | CMeas t b r => Hm t b r
    | CProb t d gs => Hp t d gs ((fix go (l : list cgate) : Forall P l := match l with [] => Forall_nil _ | x :: r => Forall_cons x (cgate_ind' x) (go r) end) gs)
    end.
End CgateInd.
Section PgateInd.
  Variable P : pgate -> Prop.
  Definition on_param (g : cgate + pgate) : Prop := match g with inl g => True | inr g => P g end.
  Hypothesis Hr : forall t k b c, P (PRot t k b c).
  Hypothesis Hpr : forall t b p c, P (PPauliRotation t b p c).
  Hypothesis Hp : forall t d gs, Forall on_param gs -> P (PProb t d gs).
  Fixpoint pgate_ind' (g : pgate) : P g :=
    match g with
    | PRot t k b c => Hr t k b c
    | PPauliRotation t b p c => Hpr t b p c
    | PProb t d gs => Hp t d gs ((fix go (l : list (cgate + pgate)) : Forall on_param l :=
        match l with
        | [] => Forall_nil _
        | x :: r => @Forall_cons _ on_param x r (match x as y return on_param y with inl g => I | inr g => pgate_ind' g end) (go r)
        end) gs)
    end.
End PgateInd.

(** ** Register *)
Lemma reg_set_with_bit r bit b : bit < N.of_nat (length r) -> reg_set r (N.to_nat bit) b = with_bit r bit b.
Proof.
  unfold with_bit. intros H. assert (H' : (N.to_nat bit < length r)%nat) by lia. clear H. revert H'. generalize (N.to_nat bit) as k. clear bit.
  induction r as [|x r IH]; intros [|k] H; simpl in *; try lia; [reflexivity|]. rewrite IH by lia. reflexivity.
Qed.
Lemma with_bit_length r bit b : bit < N.of_nat (length r) -> length (with_bit r bit b) = length r.
Proof. intros H. rewrite <- reg_set_with_bit by assumption. apply reg_set_length. Qed.

(** ** Random choice *)
Lemma upper_bound_spec u l : Forall (fun p => 0 <= p)%R l -> forall acc, (acc <= u)%R ->
  let j := N.to_nat (upper_bound (partial_sums acc l) u) in
  (j <= length l)%nat /\ (forall i, (i <= j)%nat -> (acc + Rsuml (fun p => p) (firstn i l) <= u)%R) /\
  ((j < length l)%nat -> (u < acc + Rsuml (fun p => p) (firstn (S j) l))%R).
Proof.
  induction l as [|d l IH]; intros Hl acc Ha.
  - simpl. split; [lia|]. split; [|lia]. intros i _. rewrite firstn_nil. simpl. lra.
  - inversion Hl as [|? ? Hd Hl']; subst. cbn [partial_sums upper_bound length]. destruct (Rlt_dec u (acc + d)) as [Hlt|Hge].
    + simpl. split; [lia|]. split; [|intros _; lra]. intros i Hi. replace i with 0%nat by lia. simpl. lra.
    + specialize (IH Hl' (acc + d)%R ltac:(lra)). cbv zeta in *. destruct IH as (H1 & H2 & H3).
      replace (N.to_nat (1 + upper_bound (partial_sums (acc + d) l) u)) with (S (N.to_nat (upper_bound (partial_sums (acc + d) l) u))) by lia.
      split; [lia|]. split.
      * intros [|i] Hi; [simpl; lra|]. cbn [firstn Rsuml fold_right]. specialize (H2 i ltac:(lia)). unfold Rsuml in H2. lra.
      * intros Hj. specialize (H3 ltac:(lia)). cbn [firstn Rsuml fold_right] in *. unfold Rsuml in H3. lra.
Qed.
Lemma partial_sums_length l : forall acc, length (partial_sums acc l) = length l.
Proof. induction l; intros; simpl; auto. Qed.
Lemma select_spec u l : (0 <= u)%R -> l <> [] -> Forall (fun p => 0 <= p)%R l ->
  let i := N.to_nat (select_index l u) in
  (i < length l)%nat /\ (Rsuml (fun p => p) (firstn i l) <= u)%R /\
  ((u < Rsuml (fun p => p) (firstn (S i) l))%R \/ S i = length l).
Proof.
  intros Hu Hne Hl. assert (Hlen : (0 < length l)%nat) by (destruct l; [congruence|simpl; lia]).
  destruct (upper_bound_spec u l Hl 0 Hu) as (H1 & H2 & H3).
  assert (Hub : upper_bound (cumulative_distribution l) u = 1 + upper_bound (partial_sums 0 l) u).
  { unfold cumulative_distribution. cbn [upper_bound]. destruct (Rlt_dec u 0); [lra|reflexivity]. }
  unfold select_index. rewrite Hub. set (j := upper_bound (partial_sums 0 l) u) in *.
  replace (length (cumulative_distribution l)) with (S (length l)) by (unfold cumulative_distribution; simpl; now rewrite partial_sums_length).
  replace (1 + j - 1) with j by lia. cbv zeta. 
  destruct (Nat.lt_ge_cases (N.to_nat j) (length l)) as [Hj|Hj].
  - replace (N.min j _) with j by lia. split; [assumption|]. split; [specialize (H2 (N.to_nat j) ltac:(lia)); lra|]. left. specialize (H3 Hj). lra.
  - replace (N.to_nat (N.min j _)) with (length l - 1)%nat by lia. split; [lia|]. split; [specialize (H2 (length l - 1)%nat ltac:(lia)); lra|]. right. lia.
Qed.
Lemma firstn_combine {A B} (l : list A) : forall (l' : list B) i, length l = length l' -> map fst (firstn i (combine l l')) = firstn i l.
Proof. induction l as [|x l IH]; intros [|y l'] [|i] H; simpl in *; try discriminate; auto. f_equal. apply IH. lia. Qed.
Lemma Rsuml_fst (l : list (R * sgate)) : Rsuml fst l = Rsuml (fun p => p) (map fst l).
Proof. now rewrite Rsuml_map. Qed.
Lemma select_picks u dist ss : (0 <= u)%R -> dist <> [] -> Forall (fun p => 0 <= p)%R dist -> length dist = length ss ->
  exists s, nth_error ss (N.to_nat (select_index dist u)) = Some s /\ picks (combine dist ss) u s.
Proof.
  intros Hu Hne Hd Hlen. destruct (select_spec u dist Hu Hne Hd) as (Hi & H1 & H2). cbv zeta in *. set (i := N.to_nat (select_index dist u)) in *.
  clearbody i.
  destruct (nth_error ss i) as [s|] eqn:Es; [|apply nth_error_None in Es; lia].
  destruct (nth_error dist i) as [p|] eqn:Ep; [|apply nth_error_None in Ep; lia].
  exists s. split; [reflexivity|].
  assert (Ec : nth_error (combine dist ss) i = Some (p, s)).
  { clear - Es Ep. revert ss i Es Ep. induction dist as [|d l IH]; intros [|x ss] [|i] Es Ep; simpl in *; try discriminate; try congruence; auto. }
  destruct (nth_error_split _ _ Ec) as (l1 & l2 & E & El1).
  assert (E1 : l1 = firstn i (combine dist ss)) by (rewrite E, <- El1, firstn_app, Nat.sub_diag, firstn_all; simpl; now rewrite app_nil_r).
  exists l1, p, l2. split; [exact E|]. rewrite Rsuml_fst, E1, firstn_combine by assumption. split; [assumption|].
  destruct H2 as [H2|H2].
  - left. eapply Rlt_le_trans; [exact H2|]. apply Req_le. clear - Ep. revert i Ep.
    induction dist as [|d l IH]; intros [|i] Ep; simpl in *; try discriminate; [injection Ep as ->; unfold Rsuml; simpl; destruct l; simpl; lra|].
    specialize (IH i Ep). destruct l; unfold Rsuml in *; simpl in *; [destruct i; discriminate|lra].
  - right. pose proof (f_equal (@length _) E) as L. rewrite app_length, combine_length, <- Hlen, Nat.min_id in L. simpl in L.
    destruct l2; [reflexivity|simpl in L; lia].
Qed.

(** ** Refinement *)
Definition refines (n : N) (p : host world unit) (sg : sgate) (keeps : bool) : Prop :=
  forall w s, same_state n w s -> (forall k, unit_draw (w_rand w k)) ->
    (forall us, Forall unit_draw us -> ~ step n sg us s SOutside) ->
    runs p w (fun o => exists us so, step n sg us s so /\ used w us o /\ ends_as n o so /\ (keeps = true -> home_kept w o)).
Lemma used_nil_done w (t : unit) w' : w_rand w' = w_rand w -> used w [] (HDone t w').
Proof. intros H. split; [reflexivity|]. intros i. simpl. now rewrite H. Qed.
Lemma elem_refines n L t g sg : n < 64 -> lanes_ok L -> acts g sg -> Forall (fun q => q < n) (operands sg) ->
  refines n (cgate_update n L (CElem (t, g))) sg (stays g).
Proof.
  intros Hn HL Ha HF w s [Hs1 Hs2] Hu Hout. destruct (acts_spec g sg Ha) as (qs & f & -> & Hw & Ho & Hsem).
  destruct (Hsem n Hn HF) as [Hfit Hf]. cbn [cgate_update].
  eapply runs_weaken; [apply elem_update_runs; assumption|]. intros [t' w'|w'|]; simpl; try contradiction.
  intros (H1 & H2 & H3 & H4). exists [], (SDone (SState (f (s_psi s)) (s_reg s))). split; [constructor|].
  split; [now apply used_nil_done|]. split; [|exact H4]. split; simpl; [|congruence].
  intros x Hx. rewrite H1 by assumption. rewrite Hf.
  apply (gate_sem_ext n 1); try assumption; rewrite N.mul_1_l; assumption.
Qed.
Lemma measurement_mask q bit reset g : make_measurement q bit reset = Ok g -> q < 64 /\ g = CMeas (2 ^ q) bit reset.
Proof.
  unfold make_measurement, vector_to_mask. cbn [vector_to_mask_aux]. destruct (N.leb_spec 64 q) as [|Hq]; [discriminate|].
  rewrite N.bits_0, shl64_one, N.lor_0_l by assumption. cbn [bindR]. unfold make_base. rewrite N.land_0_r. cbn. intros [= <-]. auto.
Qed.
Lemma with_bit_ok w bit b : bit < N.of_nat (length (w_reg w)) ->
  runs (write_bit bit b) w (fun o => o = HDone tt (set_reg (with_bit (w_reg w) bit b) w)).
Proof.
  intros H. unfold write_bit. eapply returns_bind; [apply runs_get; reflexivity|]. unfold reg_write. replace (bit <? _) with true by lia.
  cbn [hlift]. eapply returns_bind; [apply runs_ret; reflexivity|]. apply runs_modify. now rewrite reg_set_with_bit.
Qed.
Lemma measurement_refines n L q bit reset g : n < 64 -> lanes_ok L -> make_measurement q bit reset = Ok g -> q < n ->
  refines n (cgate_update n L g) (Meas q bit reset) true.
Proof.
  intros Hn HL Hm Hq w s [Hs1 Hs2] Hu Hout. apply measurement_mask in Hm. destruct Hm as [_ ->]. cbn [cgate_update].
  unfold measurement_update. rewrite (proj2 (within_bounds_iff n (GBase (2 ^ q) 0 0) Hn)).
  2: { cbn. split; [apply N.pow_lt_mono_r; lia|apply N.neq_0_lt_0, N.pow_nonzero; lia]. }
  cbn [hcheck]. eapply returns_bind; [apply runs_ret; reflexivity|]. eapply returns_bind; [apply runs_get; reflexivity|].
  assert (Hsq : sqnorm n (w_amp w) = sqnorm n (s_psi s)) by (apply sqnorm_ext; exact Hs1).
  destruct (N.leb_spec (N.of_nat (length (w_reg w))) bit) as [Hb|Hb]; cbn [negb hcheck].
  - eapply runs_bind; [apply runs_throw; instantiate (1 := fun o => o = HThrown w); reflexivity|intros ? ? [=]| |intros [=]].
    intros w1 [= ->]. exists [], (SThrown s). split; [constructor; rewrite <- Hs2; assumption|].
    split; [split; [reflexivity|simpl; reflexivity]|]. split; [split; assumption|]. simpl. auto.
  - eapply returns_bind; [apply runs_ret; reflexivity|].
    assert (Hn1 : sqnorm n (s_psi s) = 1%R).
    { destruct (Req_EM_T (sqnorm n (s_psi s)) 1) as [E|E]; [exact E|]. exfalso. apply (Hout []); [constructor|]. apply step_not_normalised; [rewrite <- Hs2; assumption|assumption]. }
    rewrite <- Hsq in Hn1. eapply runs_bind_done; [apply measure_runs; try assumption; apply Hu|].
    intros z w1 (-> & Ha1 & Hh1 & Hr1 & Hd1). rewrite negb_involutive. eapply runs_weaken; [apply with_bit_ok; now rewrite Hr1|].
    intros o ->. set (b := shown n q (w_amp w) (w_rand w 0%nat)) in *.
    assert (Eb : b = shown n q (s_psi s) (w_rand w 0%nat)).
    { unfold b, shown. now rewrite (bit_prob_ext n q false _ _ Hs1). }
    exists [w_rand w 0%nat], (SDone (SState (measured n q reset b (s_psi s)) (with_bit (s_reg s) bit b))).
    split; [apply step_measure; [rewrite <- Hs2; assumption|congruence|exact Eb]|].
    split; [split; [reflexivity|simpl; exact Hd1]|]. split; [|simpl; intros _; exact Hh1].
    split; simpl; [|now rewrite Hr1, Hs2]. intros x Hx. rewrite Ha1 by assumption.
    assert (Hproj : forall y, y < 2 ^ n -> projected n q b (w_amp w) y = projected n q b (s_psi s) y).
    { intros y Hy. unfold projected. rewrite (bit_prob_ext n q b _ _ Hs1), Hs1 by assumption. reflexivity. }
    unfold measured. destruct (reset && b); [|now apply Hproj]. unfold flipped. apply Hproj. apply lxor_lt_pow2; [assumption|apply N.pow_lt_mono_r; lia].
Qed.

Lemma choice_refines n dist (progs : list (host world unit)) ss keeps : distribution_ok dist -> length dist = length ss ->
  length progs = length ss ->
  (forall i p s, nth_error progs i = Some p -> nth_error ss i = Some s -> refines n p s keeps) ->
  refines n (r <~ hdraw;; nth (N.to_nat (select_index dist r)) progs hundefined) (Choice (combine dist ss)) keeps.
Proof.
  intros (Hne & Hpos & _) Hlen Hlen' Hr w s Hs Hu Hout.
  set (w1 := World (w_amp w) (w_home w) (w_reg w) (fun k => w_rand w (S k))).
  destruct (select_picks (w_rand w 0%nat) dist ss (proj1 (Hu 0%nat)) Hne Hpos Hlen) as (sg & Es & Hp).
  destruct (nth_error progs (N.to_nat (select_index dist (w_rand w 0%nat)))) as [p|] eqn:Ep.
  2: { apply nth_error_None in Ep. assert (nth_error ss (N.to_nat (select_index dist (w_rand w 0%nat))) <> None) by congruence. apply nth_error_Some in H. lia. }
  eapply runs_bind; [instantiate (1 := fun o => o = HDone (w_rand w 0%nat) w1); split; [intros o ->; reflexivity|eexists; reflexivity]| |intros ? [=]|intros [=]].
  intros t w' [= -> ->]. rewrite (nth_error_nth progs _ hundefined Ep).
  eapply runs_weaken; [apply (Hr _ p sg Ep Es w1 s)|].
  - exact Hs.
  - intros k. apply (Hu (S k)).
  - intros us Hus Hst. apply (Hout (w_rand w 0%nat :: us)); [constructor; auto|]. eapply step_choice; eassumption.
  - intros o (us & so & H1 & (H2 & H3) & H4 & H5). exists (w_rand w 0%nat :: us), so. split; [eapply step_choice; eassumption|].
    split; [|split; [exact H4|exact H5]]. split.
    + cbn [length seq map]. f_equal. rewrite H2 at 1. rewrite <- seq_shift, map_map. reflexivity.
    + destruct o as [t0 w'|w'|]; [| |contradiction]; intros i; rewrite H3; reflexivity.
Qed.
Lemma Forall2_len {A B} (R : A -> B -> Prop) l l' : Forall2 R l l' -> length l = length l'.
Proof. induction 1; simpl; congruence. Qed.
Lemma Forall2_nth_error {A B} (R : A -> B -> Prop) l l' : Forall2 R l l' -> forall i x y, nth_error l i = Some x -> nth_error l' i = Some y -> R x y.
Proof. induction 1 as [|a b l l' H _ IH]; intros [|i] x y; simpl; try discriminate; [congruence|apply IH]. Qed.
Lemma nth_combine_operands dist ss i s : length dist = length ss -> nth_error ss i = Some s ->
  incl (operands s) (operands (Choice (combine dist ss))).
Proof.
  intros Hlen Hs q Hq. cbn [operands]. apply in_flat_map. destruct (nth_error dist i) as [p|] eqn:Ep.
  - exists (p, s). split; [|exact Hq]. revert ss i Hlen Hs Ep. induction dist as [|d l IH]; intros [|x ss] [|i] Hl Hs Ep; simpl in *; try discriminate; [left; congruence|right; eapply IH; eauto].
  - apply nth_error_None in Ep. assert (nth_error ss i <> None) by congruence. apply nth_error_Some in H. lia.
Qed.
Lemma refines_weaken n p s (a b : bool) : (b = true -> a = true) -> refines n p s a -> refines n p s b.
Proof.
  intros H Hr w st Hs Hu Ho. eapply runs_weaken; [apply (Hr w st Hs Hu Ho)|]. intros o (us & so & H1 & H2 & H3 & H4). exists us, so.
  split; [exact H1|]. split; [exact H2|]. split; [exact H3|]. intros Hb. exact (H4 (H Hb)).
Qed.
Lemma cgate_refines n L : n < 64 -> lanes_ok L -> forall g sg, stands g sg -> Forall (fun q => q < n) (operands sg) ->
  refines n (cgate_update n L g) sg (cstays g).
Proof.
  intros Hn HL g. induction g as [[t g]|t b r|t d gs IH] using cgate_ind'; intros sg H HF.
  - inversion H as [? ? ? Ha|? ? ? ? Hm|]; subst; [now apply elem_refines|apply measurement_mask in Hm; destruct Hm; discriminate].
  - inversion H as [|q bit reset ? Hm|]; subst. cbn [operands] in HF. inversion HF; subst.
    cbn [cstays]. pose proof (measurement_mask _ _ _ _ Hm) as [_ E]. eapply measurement_refines; eassumption.
  - inversion H as [|? ? ? ? Hm|? ? ? ss Hd Hl H2]; subst; [apply measurement_mask in Hm; destruct Hm; discriminate|].
    pose proof (Forall2_len _ _ _ H2) as Hl2. cbn [cgate_update]. apply choice_refines; [assumption|congruence|now rewrite map_length|].
    intros i p s Hp Hs. rewrite nth_error_map in Hp. destruct (nth_error gs i) as [g|] eqn:Eg; [|discriminate]. injection Hp as <-.
    rewrite Forall_forall in IH. assert (Hin : In g gs) by (eapply nth_error_In; eassumption).
    apply (refines_weaken n _ _ (cstays g)).
    + cbn [cstays]. intros Hall. rewrite forallb_forall in Hall. now apply Hall.
    + apply IH; [assumption|eapply Forall2_nth_error; eassumption|]. apply Forall_forall. intros q Hq. rewrite Forall_forall in HF. apply HF.
      assert (Hl3 : length d = length ss) by congruence. exact (nth_combine_operands d ss i s Hl3 Hs q Hq).
Qed.
