(** C66: what an operation leaves alone, and what names of one object keep in common. *)
From Verif Require Export ObjectsProofs2.
From Coq Require Import ZifyBool ZifyN ZifyNat Lia.

(** ** Programs that keep the buffer of the object *)
Definition homely {T} (p : host world T) : Prop := forall w r, p w r -> match r with HDone _ w' | HThrown w' => w_home w' = w_home w | HUndefined => True end.
Lemma homely_ret {T} (t : T) : homely (hret t). Proof. intros w r ->. reflexivity. Qed.
Lemma homely_throw {T} : homely (hthrow (T := T)). Proof. intros w r ->. reflexivity. Qed.
Lemma homely_undefined {T} : homely (hundefined (T := T)). Proof. intros w r ->. exact I. Qed.
Lemma homely_lift {T} (x : res T) : homely (hlift x). Proof. destruct x; [apply homely_ret|apply homely_throw|apply homely_undefined]. Qed.
Lemma homely_get {T} (f : world -> T) : homely (hget f). Proof. intros w r ->. reflexivity. Qed.
Lemma homely_check b : homely (hcheck b). Proof. destruct b; [apply homely_ret|apply homely_throw]. Qed.
Lemma homely_bind {T U} (p : host world T) (k : T -> host world U) : homely p -> (forall t, homely (k t)) -> homely (hbind p k).
Proof.
  intros H1 H2 w r (o1 & Ho1 & Hr). specialize (H1 w o1 Ho1). destruct o1 as [t w1|w1|]; [|now subst r|now subst r].
  specialize (H2 t w1 r Hr). destruct r; congruence.
Qed.
Lemma homely_plan D ks : homely (hplan D (InPlace ks)).
Proof. intros w r (junk & scheds & H). destruct (run_plan _ _ _ _ _); subst; try contradiction; cbn; auto. Qed.
Lemma homely_sum {T} (z : T) add D it f : homely (hsum z add D it f).
Proof. intros w r (t & _ & ->). destruct (reduce _ _ _ _); cbn; auto. Qed.
Lemma homely_draw : homely hdraw. Proof. intros w r ->. reflexivity. Qed.
Lemma homely_set_reg x : homely (hmodify (set_reg x)). Proof. intros w r ->. reflexivity. Qed.
#[local] Hint Resolve homely_ret homely_throw homely_undefined homely_lift homely_get homely_check homely_plan homely_sum homely_draw homely_set_reg : homely.
Ltac home := repeat (apply homely_bind; [|intros ?]); auto with homely.
Lemma homely_normalize n : homely (normalize n).
Proof. unfold normalize, get_squared_norm, sum_R. home. destruct (Req_EM_T _ _); unfold one_kernel; auto with homely. Qed.
Lemma homely_sop n m : homely (run_sop n m).
Proof.
  destruct m; cbn [run_sop]; unfold set_zero_state, set_zero_norm_state, set_computational_basis, set_amplitude_at, multiply_coef, load, one_kernel; auto with homely.
  - destruct (_ <=? _); auto with homely.
  - destruct (_ <? _); auto with homely. intros w r ->. reflexivity.
  - apply homely_normalize.
  - intros w r (scheds & H). destruct (run_kernels _ _ _ _ _); subst; try contradiction; cbn; auto.
  - destruct (negb _); auto with homely.
Qed.
Lemma homely_bop B n m : homely (run_bop B n m).
Proof.
  destruct m; cbn [run_bop]; unfold b_set_zero_state, b_set_zero_norm_state, b_set_computational_basis, b_multiply_coef, b_load, b_set_state_vector, b_set_state_vector_at, one_kernel; auto with homely;
    try (destruct (_ <=? _); auto with homely); try (destruct (negb _); auto with homely); try (destruct (negb _); auto with homely).
  - unfold b_normalize, for_batches. induction (seqN B) as [|b l IH]; cbn [fold_right]; [apply homely_ret|]. apply homely_bind; [|intros _; exact IH].
    unfold sum_R. home. destruct (Req_EM_T _ _); auto with homely.
  - intros w r H. unfold b_add_state_vector_with_coef in H. destruct (_ || _); [now subst|]. destruct H as (scheds & H). destruct (run_kernels _ _ _ _ _); subst; try contradiction; cbn; auto.
Qed.
Lemma stays_in_place n D L g p : stays g = true -> update_plan n D L g = Ok p -> exists ks, p = InPlace ks.
Proof.
  intros Hst Hp. destruct g; cbn [stays update_plan] in Hst, Hp; try discriminate; try (destruct (within_bounds n _); [|discriminate]); try (injection Hp as <-; eauto).
  destruct ((m_rows M =? 1) && _); [eauto|]. destruct ((m_rows M =? 2) && _); [eauto|]. destruct ((m_rows M =? 4) && _); [eauto|]. discriminate.
Qed.
Lemma homely_gate n D L g : stays g = true -> homely (hbind (hlift (update_plan n D L g)) (hplan D)).
Proof.
  intros Hst w r (o1 & Ho1 & Hr). pose proof (stays_in_place n D L g) as H. destruct (update_plan n D L g) as [p| |]; cbn [hlift] in Ho1; rewrite Ho1 in Hr; [|now subst|now subst].
  destruct (H p Hst eq_refl) as [ks ->]. exact (homely_plan D ks w r Hr).
Qed.
Lemma homely_measurement n L t bit reset : homely (measurement_update n L t bit reset).
Proof.
  unfold measurement_update, apply_measurement_update, write_bit, hbernoulli, hkernel, get_zero_probability, normalize, get_squared_norm, one_kernel, sum_R. home; repeat match goal with |- homely (if ?b then _ else _) => destruct b end; home.
Qed.
Lemma homely_nth (l : list (host world unit)) k : Forall homely l -> homely (nth k l hundefined).
Proof. intros H. destruct (nth_in_or_default k l hundefined) as [Hi| ->]; [|apply homely_undefined]. rewrite Forall_forall in H. now apply H. Qed.
Lemma homely_cgate n L : forall g, cstays g = true -> homely (cgate_update n L g).
Proof.
  fix IH 1. intros [[b g]|t bit reset|c d gs]; cbn [cstays cgate_update]; intros Hst.
  - now apply homely_gate.
  - apply homely_measurement.
  - apply homely_bind; [apply homely_draw|]. intros r. apply homely_nth.
    induction gs as [|g gs IHg]; cbn [map]; constructor; cbn [forallb] in Hst; apply andb_true_iff in Hst; destruct Hst as [H1 H2]; [now apply IH|now apply IHg].
Qed.
Lemma homely_pgate n L v : forall g, pstays g = true -> homely (pgate_update n L g v).
Proof.
  fix IH 1. intros [c k b pc|c b p pc|c d gs]; cbn [pstays pgate_update]; intros Hst.
  - apply homely_gate. reflexivity.
  - unfold hkernel. home.
  - apply homely_bind; [apply homely_draw|]. intros r. apply homely_nth.
    induction gs as [|g gs IHg]; cbn [map]; constructor; cbn [forallb] in Hst; apply andb_true_iff in Hst; destruct Hst as [H1 H2]; [destruct g; [now apply homely_cgate|now apply IH]|now apply IHg].
Qed.
Lemma homely_circuit n L ps c : circuit_stays c -> homely (circuit_update n L ps c).
Proof.
  intros H. unfold circuit_update. home. unfold circuit_stays in H. generalize (c_conds c) as fs. generalize 0 as mask. induction (c_gates c) as [|i l IH]; intros mask fs; cbn [run_items]; [auto with homely|].
  destruct fs as [|f fs]; [auto with homely|]. apply homely_bind; [destruct f; cbn [checked_cond]; home|]. assert (Hl : forall i, In i l -> item_stays i = true) by (intros; apply H; now right).
  intros [|]; [|now apply IH]. apply homely_bind; [|intros m; now apply IH]. unfold guarded_update. home. pose proof (H i (or_introl eq_refl)) as Hi.
  destruct i as [g|g key]; cbn [item_stays item_update] in *; [now apply homely_cgate|]. apply homely_bind; [auto with homely|]. intros v. now apply homely_pgate.
Qed.

(** ** What an operation changes *)
Definition moved (R S W : list nat) (st st' : store) : Prop :=
  (st_next st <= st_next st')%nat /\
  (forall z, ~ In z (R ++ W) -> st_env st' z = st_env st z) /\
  (forall z o', st_env st' z = Some o' -> st_env st z = Some o' \/ (st_next st <= o_buf o' < st_next st')%nat \/
     exists y oy, In y S /\ st_env st y = Some oy /\ o_buf o' = o_buf oy) /\
  (forall b a, (b < st_next st)%nat -> st_heap st' b a = st_heap st b a \/
     exists x ox, In x W /\ st_env st x = Some ox /\ o_buf ox = b /\ o_off ox <= a < o_off ox + size (o_shape ox)).
Lemma after_weaken r (P Q : store -> Prop) : after r P -> (forall st, P st -> Q st) -> after r Q.
Proof. destruct r; cbn; auto. Qed.
Lemma found_all {T} x (k : obj -> host store T) st r : hbind (lookup x) k st r -> (exists o, st_env st x = Some o /\ k o st r) \/ r = HUndefined.
Proof. intros (o1 & Ho & Hr). unfold lookup in Ho. destruct (st_env st x) as [o|]; subst o1; [left; eauto|now right]. Qed.
Lemma alloc_all x s (k : unit -> host store unit) st r : hbind (alloc x s) k st r -> exists junk, k tt (fresh x s junk st) r.
Proof. intros (o1 & (junk & ->) & Hr). eauto. Qed.
Lemma get_all {T U} (f : store -> T) (k : T -> host store U) st r : hbind (hget f) k st r -> k (f st) st r.
Proof. intros (o1 & -> & Hr). exact Hr. Qed.
Lemma put_out m off len psi a : ~ (off <= a < off + len) -> put m off len psi a = m a.
Proof. intros H. unfold put. destruct (N.leb_spec off a), (N.ltb_spec a (off + len)); cbn; auto; lia. Qed.
(** a method on an object *)
Lemma method_all x o reg p st r : method x o reg p st r -> after r (fun st' =>
  (st_next st <= st_next st')%nat /\ (forall z, z <> x -> st_env st' z = st_env st z) /\
  (st_env st' x = st_env st x \/ st_env st' x = Some (Obj (o_shape o) (st_next st) 0) /\ st_next st' = S (st_next st)) /\
  forall b a, (b < st_next st)%nat -> st_heap st' b a = st_heap st b a \/ o_buf o = b /\ o_off o <= a < o_off o + size (o_shape o)).
Proof.
  intros (r' & _ & ->).
  assert (H : forall w', (fun st' =>
    (st_next st <= st_next st')%nat /\ (forall z, z <> x -> st_env st' z = st_env st z) /\
    (st_env st' x = st_env st x \/ st_env st' x = Some (Obj (o_shape o) (st_next st) 0) /\ st_next st' = S (st_next st)) /\
    forall b a, (b < st_next st)%nat -> st_heap st' b a = st_heap st b a \/ o_buf o = b /\ o_off o <= a < o_off o + size (o_shape o)) (settle x o w' st)).
  { intros w'. unfold settle. assert (Hb : forall psi b a, put_at (st_heap st) (o_buf o) (put (st_heap st (o_buf o)) (o_off o) (size (o_shape o)) psi) b a = st_heap st b a \/ o_buf o = b /\ o_off o <= a < o_off o + size (o_shape o)).
    { intros psi b a. destruct (Nat.eq_dec b (o_buf o)) as [->|Hne]; [|left; now rewrite put_at_ne]. rewrite put_at_eq.
      destruct (N.le_gt_cases (o_off o) a), (N.lt_ge_cases a (o_off o + size (o_shape o))); try (left; apply put_out; lia). right. auto. }
    destruct (w_home w') as [h|].
    - refine (conj _ (conj _ (conj _ _))); [cbn; lia| | |].
      + intros z Hz. cbn. now rewrite put_at_ne.
      + right. cbn. now rewrite put_at_eq.
      + intros b a Hlt. cbn. rewrite put_at_ne by lia. apply Hb.
    - refine (conj _ (conj _ (conj _ _))); [cbn; lia|reflexivity|now left|intros b a _; apply Hb]. }
  destruct r' as [t w'|w'|]; cbn [after]; [apply H|apply H|exact I].
Qed.
Lemma method_moved x o reg p st r R S W : In x W -> st_env st x = Some o -> method x o reg p st r -> after r (moved R S W st).
Proof.
  intros Hx Ho Hm. eapply after_weaken; [exact (method_all x o reg p st r Hm)|]. intros st' (H1 & H2 & H3 & H4). refine (conj H1 (conj _ (conj _ _))).
  - intros z Hz. apply H2. intros ->. apply Hz. apply in_or_app. now right.
  - intros z o' Hz. destruct (Nat.eq_dec z x) as [->|Hne]; [|rewrite (H2 z Hne) in Hz; now left]. destruct H3 as [H3|[H3 H5]]; rewrite H3 in Hz; [now left|].
    injection Hz as <-. cbn [o_buf]. right. left. lia.
  - intros b a Hb. destruct (H4 b a Hb) as [H|[H H']]; [now left|]. right. exists x, o. auto.
Qed.
(** an allocation and a method on the new object *)
Lemma fresh_moved x s junk reg p st r : sound st -> method x (Obj s (st_next st) 0) reg p (fresh x s junk st) r -> after r (moved [x] [] [] st).
Proof.
  intros Hs Hm. eapply after_weaken; [exact (method_all _ _ _ _ _ _ Hm)|]. intros st' (H1 & H2 & H3 & H4). cbn [st_next fresh o_shape o_buf o_off] in *. refine (conj _ (conj _ (conj _ _))).
  - lia.
  - intros z Hz. rewrite H2 by (intros ->; apply Hz; now left). cbn. rewrite put_at_ne; [reflexivity|]. intros ->. apply Hz. now left.
  - intros z o' Hz. destruct (Nat.eq_dec z x) as [->|Hne].
    + right. left. destruct H3 as [H3|[H3 H5]]; rewrite H3 in Hz; [cbn in Hz; rewrite put_at_eq in Hz|]; injection Hz as <-; cbn [o_buf]; lia.
    + left. rewrite (H2 z Hne) in Hz. cbn in Hz. now rewrite put_at_ne in Hz.
  - intros b a Hb. left. destruct (H4 b a ltac:(lia)) as [H|[H H']]; [|lia]. rewrite H. cbn. now rewrite put_at_ne by lia.
Qed.
Lemma moved_same R S W st : moved R S W st st.
Proof. refine (conj _ (conj _ (conj _ _))); auto. Qed.
Lemma name_moved x o st y oy R S W : In x R -> In y S -> st_env st y = Some oy -> o_buf o = o_buf oy -> moved R S W st (name x o st).
Proof.
  intros Hx Hy Ho Hb. refine (conj _ (conj _ (conj _ _))); [cbn; lia| | |].
  - intros z Hz. cbn. rewrite put_at_ne; [reflexivity|]. intros ->. apply Hz. apply in_or_app. now left.
  - intros z o' Hz. cbn in Hz. destruct (Nat.eq_dec z x) as [->|Hne]; [|rewrite put_at_ne in Hz by assumption; now left]. rewrite put_at_eq in Hz. injection Hz as <-. right. right. exists y, oy. auto.
  - intros b a _. now left.
Qed.
Lemma ostep_moved L op st r : sound st -> ostep L op st r -> after r (moved (rebinds op) (sources op) (writes op) st).
Proof.
  intros Hs H. destruct op as [x s|x y|x y|x m|x m|x c y|x y|x vf k|x ps c reg|x s b|x s b|s b y|s y]; cbn [ostep rebinds sources writes] in *.
  - apply alloc_all in H. destruct H as [junk H]. apply found_all in H. destruct H as [(o & Ho & H)| ->]; [|exact I]. cbn in Ho. rewrite put_at_eq in Ho. injection Ho as <-.
    exact (fresh_moved _ _ _ _ _ _ _ Hs H).
  - apply found_all in H. destruct H as [(o & Ho & ->)| ->]; [|exact I]. cbn [after]. apply (name_moved x o st y o); auto; now left.
  - apply found_all in H. destruct H as [(o & Ho & H)| ->]; [|exact I]. apply alloc_all in H. destruct H as [junk H]. apply found_all in H. destruct H as [(o' & Ho' & ->)| ->]; [|exact I].
    cbn in Ho'. rewrite put_at_eq in Ho'. injection Ho' as <-. cbn [after]. refine (conj _ (conj _ (conj _ _))); cbn.
    + lia.
    + intros z Hz. rewrite put_at_ne; [reflexivity|]. intros ->. apply Hz. now left.
    + intros z o' Hz. destruct (Nat.eq_dec z x) as [->|Hne]; [rewrite put_at_eq in Hz; injection Hz as <-; cbn; right; left; lia|rewrite put_at_ne in Hz by assumption; now left].
    + intros b a Hb. left. rewrite !put_at_ne by lia. reflexivity.
  - apply found_all in H. destruct H as [(o & Ho & H)| ->]; [|exact I]. eapply method_moved; [now left|exact Ho|exact H].
  - apply found_all in H. destruct H as [(o & Ho & H)| ->]; [|exact I]. eapply method_moved; [now left|exact Ho|exact H].
  - apply found_all in H. destruct H as [(o & Ho & H)| ->]; [|exact I]. apply found_all in H. destruct H as [(o2 & Ho2 & H)| ->]; [|exact I]. apply get_all in H. eapply method_moved; [now left|exact Ho|exact H].
  - apply found_all in H. destruct H as [(o & Ho & H)| ->]; [|exact I]. apply found_all in H. destruct H as [(o2 & Ho2 & H)| ->]; [|exact I]. apply get_all in H. eapply method_moved; [now left|exact Ho|exact H].
  - apply found_all in H. destruct H as [(o & Ho & H)| ->]; [|exact I]. destruct H as (o1 & Hg & H). destruct (make vf k) as [g| |]; cbn [hlift] in Hg; rewrite Hg in H; [|subst r; apply moved_same|subst r; exact I].
    eapply method_moved; [now left|exact Ho|exact H].
  - apply found_all in H. destruct H as [(o & Ho & H)| ->]; [|exact I]. eapply method_moved; [now left|exact Ho|exact H].
  - apply found_all in H. destruct H as [(o & Ho & H)| ->]; [|exact I]. destruct (o_shape o) as [n|B n]; [red in H; subst r; exact I|]. destruct (B <=? b); [red in H; subst r; apply moved_same|]. red in H. subst r. cbn [after]. apply (name_moved x _ st s o); auto; now left.
  - apply found_all in H. destruct H as [(o & Ho & H)| ->]; [|exact I]. destruct (o_shape o) as [n|B n]; [red in H; subst r; exact I|]. destruct (B <=? b); [red in H; subst r; apply moved_same|]. apply get_all in H.
    apply alloc_all in H. destruct H as [junk H]. apply found_all in H. destruct H as [(o' & Ho' & H)| ->]; [|exact I]. cbn in Ho'. rewrite put_at_eq in Ho'. injection Ho' as <-.
    exact (fresh_moved _ _ _ _ _ _ _ Hs H).
  - apply found_all in H. destruct H as [(o & Ho & H)| ->]; [|exact I]. apply found_all in H. destruct H as [(o2 & Ho2 & H)| ->]; [|exact I]. apply get_all in H. eapply method_moved; [now left|exact Ho|exact H].
  - apply found_all in H. destruct H as [(o & Ho & H)| ->]; [|exact I]. apply found_all in H. destruct H as [(o2 & Ho2 & H)| ->]; [|exact I]. apply get_all in H. eapply method_moved; [now left|exact Ho|exact H].
Qed.
Lemma moved_sound R S W st st' : sound st -> moved R S W st st' -> sound st'.
Proof.
  intros Hs (H1 & _ & H3 & _) z o Hz. destruct (H3 z o Hz) as [H|[H|(y & oy & _ & Hy & E)]]; [specialize (Hs z o H); lia|lia|]. specialize (Hs y oy Hy). lia.
Qed.
Lemma moved_frame R S W st st' z : sound st -> moved R S W st st' -> ~ In z (R ++ W) ->
  (forall x ox oz, In x W -> st_env st x = Some ox -> st_env st z = Some oz -> apart ox oz) -> unchanged st st' z.
Proof.
  intros Hs (H1 & H2 & _ & H4) Hz Ha. split; [now apply H2|]. unfold amplitudes. rewrite (H2 z Hz). destruct (st_env st z) as [oz|] eqn:Ez; [|reflexivity]. f_equal. apply map_ext_in. intros a Hin. apply in_seqN in Hin.
  unfold content. destruct (H4 (o_buf oz) (o_off oz + a) (Hs z oz Ez)) as [H|(x & ox & Hx & Ex & Eb & Hr)]; [exact H|]. exfalso. destruct (Ha x ox oz Hx Ex eq_refl) as [H|[H|H]]; [congruence| |]; lia.
Qed.
(** an operation leaves the objects alone that have no amplitude in common with the one it writes *)
Theorem frame L op st r z : sound st -> ostep L op st r -> ~ In z (rebinds op ++ writes op) ->
  (forall x ox oz, In x (writes op) -> st_env st x = Some ox -> st_env st z = Some oz -> apart ox oz) -> after r (fun st' => sound st' /\ unchanged st st' z).
Proof.
  intros Hs H Hz Ha. eapply after_weaken; [exact (ostep_moved L op st r Hs H)|]. intros st' Hm. split; [eapply moved_sound; eassumption|eapply moved_frame; eassumption].
Qed.
Lemma unchanged_trans st1 st2 st3 z : unchanged st1 st2 z -> unchanged st2 st3 z -> unchanged st1 st3 z.
Proof. intros [A1 A2] [B1 B2]. split; congruence. Qed.
Lemma orun_after L (I : store -> store -> Prop) (P : oop -> Prop) : (forall st, I st st) -> (forall a b c, I a b -> I b c -> I a c) ->
  forall (Inv : store -> Prop), (forall op st r, P op -> Inv st -> ostep L op st r -> after r (fun st' => Inv st' /\ I st st')) ->
  forall l st r, Forall P l -> Inv st -> orun L l st r -> after r (fun st' => Inv st' /\ I st st').
Proof.
  intros Hr Ht Inv Hstep. induction l as [|op l IH]; intros st r HF Hi H; cbn [orun fold_right] in H.
  - red in H. subst r. split; [exact Hi|apply Hr].
  - inversion HF; subst. destruct H as (o1 & Ho1 & H). specialize (Hstep op st o1 ltac:(assumption) Hi Ho1). destruct o1 as [t st1|st1|]; cbn [after] in Hstep; [|subst r; exact Hstep|subst r; exact Logic.I].
    destruct Hstep as [S1 S2]. eapply after_weaken; [apply (IH st1 r); assumption|]. intros st' [E1 E2]. split; [exact E1|]. now apply (Ht _ st1).
Qed.
(** A program confined to a group of objects *)
Theorem confined L G l st r : sound st -> closed G st -> Forall (within G) l -> orun L l st r -> after r (fun st' => sound st' /\ closed G st' /\ forall z, ~ G z -> unchanged st st' z).
Proof.
  intros Hs Hc HF H. pose proof (orun_after L (fun st st' => forall z, ~ G z -> unchanged st st' z) (within G)) as HO.
  specialize (HO ltac:(intros s z _; now split) ltac:(intros a b c H1 H2 z Hz; eapply unchanged_trans; [now apply H1|now apply H2]) (fun st => sound st /\ closed G st)).
  eapply after_weaken; [eapply HO; [|exact HF|split; [exact Hs|exact Hc]|exact H]|cbn beta; tauto]. clear. intros op st r Hw [Hs Hc] H.
  unfold within in Hw. rewrite Forall_forall in Hw. assert (HG : forall x, In x (rebinds op ++ writes op) -> G x) by (intros x Hx; apply Hw; apply in_app_or in Hx; apply in_or_app; destruct Hx; [now left|right; apply in_or_app; now left]).
  assert (HS : forall x, In x (sources op) -> G x) by (intros x Hx; apply Hw; apply in_or_app; right; apply in_or_app; now right).
  eapply after_weaken; [exact (ostep_moved L op st r Hs H)|]. intros st' Hm. pose proof Hm as (H1 & H2 & H3 & _). split; [split; [eapply moved_sound; eassumption|]|].
  - intros x y ox oy Gx Gy Ex Ey. assert (Ey' : st_env st y = Some oy) by (rewrite <- (H2 y); [exact Ey|intros Hy; apply Gy; now apply HG]).
    destruct (H3 x ox Ex) as [H'|[H'|(z & oz & Hz & Ez & E)]].
    + now apply (Hc x y).
    + pose proof (Hs y oy Ey'). lia.
    + rewrite E. apply (Hc z y); auto.
  - intros z Hz. eapply moved_frame; [exact Hs|exact Hm|intros Hi; apply Hz; now apply HG|]. intros x ox oz Hx Ex Ez. left. apply (Hc x z); auto. apply HG. apply in_or_app. now right.
Qed.
(** copies *)
Theorem copied L x y st r : sound st -> x <> y -> ostep L (OCopy x y) st r -> after r (fun st' => sound st' /\ closed (eq x) st' /\ amplitudes st' x = amplitudes st y /\ unchanged st st' y).
Proof.
  intros Hs Hne H. pose proof (frame L (OCopy x y) st r y Hs H ltac:(intros [E|[]]; congruence) ltac:(intros ? ? ? [])) as Hf. pose proof (ostep_moved L _ st r Hs H) as Hm. cbn [ostep rebinds sources writes] in *. apply found_all in H. destruct H as [(o & Ho & H)| ->]; [|exact I]. apply alloc_all in H. destruct H as [junk H].
  apply found_all in H. destruct H as [(o' & Ho' & ->)| ->]; [|exact I]. cbn in Ho'. rewrite put_at_eq in Ho'. injection Ho' as <-. cbn [after] in *. destruct Hf as [F1 F2]. split; [exact F1|]. split; [|split; [|exact F2]].
  - intros a b oa ob <- Hb Ea Eb. cbn in Ea, Eb. rewrite put_at_eq in Ea. injection Ea as <-. rewrite put_at_ne in Eb by congruence. pose proof (Hs b ob Eb). cbn. lia.
  - unfold amplitudes. cbn. rewrite put_at_eq, Ho. f_equal. apply map_ext_in. intros a Hin. apply in_seqN in Hin. unfold content. cbn. rewrite put_at_eq. change a with (0 + a) at 1. rewrite put_in by assumption.
    unfold content. cbn. rewrite put_at_ne; [reflexivity|]. pose proof (Hs y o Ho). lia.
Qed.
