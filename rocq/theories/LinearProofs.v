(** Circuits of gates are linear and keep inner products; circuits with measurements and noise do not see a global phase. *)
From Verif Require Export LinearSpec.
From Verif Require Import SignalProofs2 ChannelProofs5 OrderProofs4 OptimizeProofs2 OrderProofs CircuitProofs17 CircuitProofs5 CircuitProofs4.
From Coq Require Import ZifyBool ZifyN ZifyNat Lra FunctionalExtensionality.

Definition id_state (psi : state) : state := psi.
Lemma id_linear : act_linear id_state.
Proof. intros a b c x. reflexivity. Qed.
Lemma then_linear f F : act_linear f -> act_linear F -> act_linear (fun psi => F (f psi)).
Proof.
  intros Hf HF a b c x. replace (f (fun y => a y + c * b y)%C) with (fun y => f a y + c * f b y)%C by (apply functional_extensionality; intros y; symmetry; apply Hf). apply HF.
Qed.
Lemma acts_run n l : Forall (fun gc => cond_defined (snd gc) /\ exists qs f, fst gc = Act qs f /\ act_linear f /\ act_local n f) l -> forall ms r,
  exists F b, act_linear F /\ act_local n F /\ ((forall gc, In gc l -> keeps_norm n (fst gc)) -> keeps n F) /\
    forall psi us o, exec_list watch_all n l ms us (SState psi r) o -> us = [] /\ o = if (b : bool) then SDone (SState (F psi) r) else SThrown (SState (F psi) r).
Proof.
  induction l as [|[g c] l IH]; intros HF ms r.
  - exists id_state, true. split; [exact id_linear|]. split; [intros a b H x Hx; now apply H|]. split; [intros _ psi; reflexivity|]. intros psi us o H. inversion H; subst. auto.
  - inversion HF as [|? ? [Hd (qs & f & Hg & Hf & Hloc)] HF']; subst. cbn [fst snd] in *. subst g. destruct (holds c r) as [[]| |] eqn:E.
    + destruct (touches ms (Act qs f)) eqn:Et.
      * exists id_state, false. split; [exact id_linear|]. split; [intros a b H x Hx; now apply H|]. split; [intros _ psi; reflexivity|]. intros psi us o H.
        inversion H as [|? ? ? ? ? ? ? Hh He|? ? ? ? ? Hh|? ? ? ? ? Hh|? ? ? ? ? Hh Hw Ht|? ? ? ? u1 v1 ? s1 ? Hh Ht Hst He|? ? ? ? ? ? ? Hh Ht Hst Hno]; subst; cbn [s_reg] in *; try congruence; [auto|..];
          specialize (Ht eq_refl); congruence.
      * destruct (IH HF' ms r) as (F & b & HL & HLo & HK & H1). exists (fun psi => F (f psi)), b. split; [now apply then_linear|]. split; [intros x y H z Hz; apply HLo; [intros u Hu; now apply Hloc|assumption]|]. split.
        { intros Hk psi. rewrite HK by (intros gc Hin; apply Hk; now right). exact (Hk _ (or_introl eq_refl) psi). }
        intros psi us o H. inversion H as [|? ? ? ? ? ? ? Hh He|? ? ? ? ? Hh|? ? ? ? ? Hh|? ? ? ? ? Hh Hw Ht|? ? ? ? u1 v1 ? s1 ? Hh Ht Hst He|? ? ? ? ? ? ? Hh Ht Hst Hno]; subst; cbn [s_reg] in *; try congruence.
        -- inversion Hst; subst. cbn [s_psi s_reg app unreset_after] in *. cbn [watch_all] in He. exact (H1 _ _ _ He).
        -- inversion Hst; subst. elim (Hno _ eq_refl).
    + destruct (IH HF' ms r) as (F & b & HL & HLo & HK & H1). exists F, b. split; [assumption|]. split; [assumption|]. split; [intros Hk; apply HK; intros gc Hin; apply Hk; now right|].
      intros psi us o H. inversion H as [|? ? ? ? ? ? ? Hh He|? ? ? ? ? Hh|? ? ? ? ? Hh|? ? ? ? ? Hh Hw Ht|? ? ? ? u1 v1 ? s1 ? Hh Ht Hst He|? ? ? ? ? ? ? Hh Ht Hst Hno]; subst; cbn [s_reg] in *; try congruence. now apply H1.
    + exists id_state, false. split; [exact id_linear|]. split; [intros a b H x Hx; now apply H|]. split; [intros _ psi; reflexivity|]. intros psi us o H.
      inversion H as [|? ? ? ? ? ? ? Hh He|? ? ? ? ? Hh|? ? ? ? ? Hh|? ? ? ? ? Hh Hw Ht|? ? ? ? u1 v1 ? s1 ? Hh Ht Hst He|? ? ? ? ? ? ? Hh Ht Hst Hno]; subst; cbn [s_reg] in *; try congruence. auto.
    + now elim (Hd r).
Qed.
(** a circuit of gates is one linear map on the state *)
Lemma acts_program n ps c p : n < 64 -> circuit_is c p -> acts_only ps p -> forall r,
  exists F b, act_linear F /\ act_local n F /\ (norm_kept n ps p -> keeps n F) /\
    forall psi us o, run_program watch_all n ps p us (SState psi r) o -> us = [] /\ o = if (b : bool) then SDone (SState (F psi) r) else SThrown (SState (F psi) r).
Proof.
  intros Hn Hc Ha r. assert (Hthrow : exists F b, act_linear F /\ act_local n F /\ (norm_kept n ps p -> keeps n F) /\
    forall psi (us : list R) o, us = [] /\ o = SThrown (SState psi r) -> us = [] /\ o = if (b : bool) then SDone (SState (F psi) r) else SThrown (SState (F psi) r)).
  { exists id_state, false. split; [exact id_linear|]. split; [intros a b H x Hx; now apply H|]. split; [intros _ psi; reflexivity|]. auto. }
  unfold run_program. destruct (existsb _ (program_operands p)) eqn:Eo; [exact Hthrow|]. destruct (instantiate ps p) as [l|] eqn:El; [|exact Hthrow].
  assert (HFo : Forall (fun q => q < n) (program_operands p)).
  { apply Forall_forall. intros q Hq. destruct (N.ltb_spec q n) as [|Hle]; [assumption|]. exfalso. assert (X : existsb (fun q => n <=? q) (program_operands p) = true); [|congruence]. apply existsb_exists. exists q. split; [assumption|lia]. }
  pose proof (instantiate_fine n ps p Hn _ l (proj1 Hc) El HFo) as Hfine. rewrite Forall_forall in Hfine.
  destruct (acts_run n l) with (ms := @nil N) (r := r) as (F & b & HL & HLo & HK & H1).
  { apply Forall_forall. intros [g k] Hin. destruct (instantiate_In ps p l El g k Hin) as (i & Hi & Hg). unfold acts_only in Ha. rewrite Forall_forall in Ha. destruct (Ha _ Hi) as [Hd Hx]. cbn [fst snd] in *. split; [assumption|].
    destruct (Hx g Hg) as (qs & f & ->). exists qs, f. split; [reflexivity|]. exact (Hfine _ Hin). }
  exists F, b. split; [assumption|]. split; [assumption|]. split; [|exact H1]. intros Hk. apply HK. intros [g k] Hin. destruct (instantiate_In ps p l El g k Hin) as (i & Hi & Hg). unfold norm_kept in Hk. rewrite Forall_forall in Hk. now apply (Hk _ Hi).
Qed.
Lemma acts_inside n ps c p us s : n < 64 -> circuit_is c p -> acts_only ps p -> ~ run_program watch_all n ps p us s SOutside.
Proof. intros Hn Hc Ha H. destruct s as [psi r]. destruct (acts_program n ps c p Hn Hc Ha r) as (F & b & _ & _ & _ & H1). destruct (H1 _ _ _ H) as [_ X]. destruct b; discriminate. Qed.
(** one run of the code, for every world with that register *)
Lemma acts_update n ps c p r : n < 64 -> circuit_is c p -> acts_only ps p ->
  exists F b, act_linear F /\ act_local n F /\ (norm_kept n ps p -> keeps n F) /\
    forall L w, lanes_ok L -> w_reg w = r -> (forall k, unit_draw (w_rand w k)) -> runs (circuit_update n L ps c) w (fun o => exists w',
      o = (if (b : bool) then HDone tt w' else HThrown w') /\ w_reg w' = r /\ (forall k, w_rand w' k = w_rand w k) /\ forall x, x < 2 ^ n -> w_amp w' x = F (w_amp w) x).
Proof.
  intros Hn Hc Ha. destruct (acts_program n ps c p Hn Hc Ha r) as (F & b & HL & HLo & HK & H1). exists F, b. split; [assumption|]. split; [assumption|]. split; [assumption|].
  intros L w HLa Hr Hu. eapply runs_weaken; [apply (circuit_runs n L ps c p w (SState (w_amp w) r)); try assumption; [split; [reflexivity|assumption]|intros us _; now apply (acts_inside n ps c p)]|].
  intros o (us & so & Hrun & [U1 U2] & He). destruct (H1 _ _ _ Hrun) as [-> ->]. destruct b, o as [[] w'|w'|]; cbn [ends_as] in He; try contradiction; destruct He as [A B]; cbn [s_psi s_reg] in *; exists w'; auto.
Qed.
Theorem superposition n L L1 L2 ps c p w w1 w2 a b : n < 64 -> lanes_ok L -> lanes_ok L1 -> lanes_ok L2 -> circuit_is c p -> acts_only ps p ->
  w_reg w1 = w_reg w -> w_reg w2 = w_reg w -> (forall k, unit_draw (w_rand w k) /\ unit_draw (w_rand w1 k) /\ unit_draw (w_rand w2 k)) ->
  (forall x, x < 2 ^ n -> w_amp w x = a * w_amp w1 x + b * w_amp w2 x)%C ->
  (exists o, circuit_update n L ps c w o) /\ (exists o, circuit_update n L1 ps c w1 o) /\ (exists o, circuit_update n L2 ps c w2 o) /\
  forall o o1 o2, circuit_update n L ps c w o -> circuit_update n L1 ps c w1 o1 -> circuit_update n L2 ps c w2 o2 ->
    exists w' w1' w2', end_alike [o; o1; o2] [w'; w1'; w2'] /\ forall x, x < 2 ^ n -> w_amp w' x = (a * w_amp w1' x + b * w_amp w2' x)%C.
Proof.
  intros Hn HL HL1 HL2 Hc Ha Hr1 Hr2 Hu Hw. destruct (acts_update n ps c p (w_reg w) Hn Hc Ha) as (F & e & HF & HFl & _ & H).
  destruct (H L w HL eq_refl (fun k => proj1 (Hu k))) as [R1 R2]. destruct (H L1 w1 HL1 Hr1 (fun k => proj1 (proj2 (Hu k)))) as [R3 R4]. destruct (H L2 w2 HL2 Hr2 (fun k => proj2 (proj2 (Hu k)))) as [R5 R6].
  split; [exact R2|]. split; [exact R4|]. split; [exact R6|]. intros o o1 o2 Ho Ho1 Ho2. destruct (R1 o Ho) as (w' & E & _ & _ & A). destruct (R3 o1 Ho1) as (w1' & E1 & _ & _ & A1). destruct (R5 o2 Ho2) as (w2' & E2 & _ & _ & A2).
  exists w', w1', w2'. split.
  - unfold end_alike. cbn [map]. subst. destruct e; auto.
  - intros x Hx. rewrite A, A1, A2 by assumption. rewrite (HFl (w_amp w) (fun y => id_state (fun z => a * w_amp w1 z)%C y + b * w_amp w2 y)%C) by assumption. rewrite HF. f_equal. unfold id_state.
    pose proof (HF (fun _ => C0) (w_amp w1) a x) as X. cbv beta in X. pose proof (HF (fun _ => C0) (fun _ => C0) C1 x) as X0.
    assert (Z : F (fun _ => C0) x = C0).
    { cbv beta in X0. replace (fun _ : N => C0 + C1 * C0)%C with (fun _ : N => C0) in X0 by (apply functional_extensionality; intros; ring). set (z := F (fun _ => C0) x) in *. transitivity ((z + C1 * z) + - z)%C; [ring|]. rewrite <- X0. ring. }
    rewrite Z in X. transitivity (F (fun y => C0 + a * w_amp w1 y)%C x); [f_equal; apply functional_extensionality; intros; ring|]. rewrite X. ring.
Qed.
Theorem overlap n L L' ps c p w w' : n < 64 -> lanes_ok L -> lanes_ok L' -> circuit_is c p -> acts_only ps p -> norm_kept n ps p ->
  w_reg w' = w_reg w -> (forall k, unit_draw (w_rand w k) /\ unit_draw (w_rand w' k)) ->
  (exists o, circuit_update n L ps c w o) /\ (exists o, circuit_update n L' ps c w' o) /\
  forall o o', circuit_update n L ps c w o -> circuit_update n L' ps c w' o' ->
    exists v v', end_alike [o; o'] [v; v'] /\ inner n (w_amp v) (w_amp v') = inner n (w_amp w) (w_amp w').
Proof.
  intros Hn HL HL' Hc Ha Hk Hr Hu. destruct (acts_update n ps c p (w_reg w) Hn Hc Ha) as (F & e & HF & HFl & HK & H).
  destruct (H L w HL eq_refl (fun k => proj1 (Hu k))) as [R1 R2]. destruct (H L' w' HL' Hr (fun k => proj2 (Hu k))) as [R3 R4].
  split; [exact R2|]. split; [exact R4|]. intros o o' Ho Ho'. destruct (R1 o Ho) as (v & E & _ & _ & A). destruct (R3 o' Ho') as (v' & E' & _ & _ & A').
  exists v, v'. split; [unfold end_alike; cbn [map]; subst; destruct e; auto|]. rewrite <- (inner_kept n F (w_amp w) (w_amp w') HF (HK Hk)).
  unfold inner, Csum. apply Csuml_ext. intros x Hx. apply in_seqN in Hx. now rewrite A, A'.
Qed.
(** ** Global phases *)
Lemma program_locals n ps c p l : n < 64 -> circuit_is c p -> existsb (fun q => n <=? q) (program_operands p) = false -> instantiate ps p = Some l -> locals l.
Proof.
  intros Hn Hc Eo El. apply Forall_forall. intros [g k] Hin. destruct (instantiate_In ps p l El g k Hin) as (i & Hi & Hg). cbn [fst].
  pose proof (known_circuit c p Hc) as HK. clear Hc. revert Hi Eo. clear El Hin l. induction HK as [|x y xs ys Hxy _ IH]; intros Hi Eo; [contradiction|].
  cbn [program_operands flat_map] in Eo. rewrite existsb_app in Eo. apply orb_false_iff in Eo. destruct Eo as [Eo1 Eo2]. destruct Hi as [->|Hi].
  - apply (known_local n ps Hn x (i, k) g Hxy); [|assumption]. unfold below. cbn [fst]. apply Forall_forall. intros q Hq. destruct (N.ltb_spec q n) as [|Hle]; [assumption|]. exfalso.
    assert (X : existsb (fun q => n <=? q) (item_operands (fst (i, k))) = true); [|congruence]. apply existsb_exists. exists q. split; [assumption|lia].
  - now apply IH.
Qed.
Theorem phase n L L' ps c p t w v : n < 64 -> lanes_ok L -> lanes_ok L' -> circuit_is c p -> norm_kept n ps p ->
  sqnorm n (w_amp w) = 1%R -> (forall k, unit_draw (w_rand w k)) ->
  (forall x, x < 2 ^ n -> w_amp v x = Cexpi t * w_amp w x)%C -> w_reg v = w_reg w -> (forall k, w_rand v k = w_rand w k) ->
  (exists o, circuit_update n L ps c w o) /\ (exists o, circuit_update n L' ps c v o) /\
  forall o o', circuit_update n L ps c w o -> circuit_update n L' ps c v o' ->
    (exists w' v', o = HDone tt w' /\ o' = HDone tt v' /\ (forall x, x < 2 ^ n -> w_amp v' x = Cexpi t * w_amp w' x)%C /\ w_reg v' = w_reg w' /\ forall k, w_rand v' k = w_rand w' k) \/
    (exists w' v', o = HThrown w' /\ o' = HThrown v').
Proof.
  intros Hn HL HL' Hc Hk Hs Hu Hv Hr Hrand. set (s := SState (w_amp w) (w_reg w)).
  assert (Hs' : sqnorm n (s_psi (turned t s)) = 1%R) by (rewrite <- Hs; apply (keeps_turn n t)).
  assert (Huv : forall k, unit_draw (w_rand v k)) by (intros k; rewrite Hrand; apply Hu).
  destruct (circuit_runs n L ps c p w s Hn HL Hc (conj (fun x _ => eq_refl) eq_refl) Hu) as [R1 R2]; [intros us Hus; now apply program_inside|].
  destruct (circuit_runs n L' ps c p v (turned t s) Hn HL' Hc (conj Hv Hr) Huv) as [R3 R4]; [intros us Hus; now apply program_inside|].
  split; [exact R2|]. split; [exact R4|]. intros o o' Ho Ho'. destruct (R1 o Ho) as (us & so & Hrun & [U1 U2] & He). destruct (R3 o' Ho') as (us' & so' & Hrun' & [U1' U2'] & He').
  assert (U3 : us' = map (w_rand w) (seq 0 (length us'))) by (rewrite U1' at 1; apply map_ext; exact Hrand).
  unfold run_program in Hrun, Hrun'. destruct (existsb _ (program_operands p)) eqn:Eo.
  { destruct Hrun as [-> ->], Hrun' as [-> ->]. destruct o as [[] ?|w1|]; try contradiction. destruct o' as [[] ?|v1|]; try contradiction. right. eauto. }
  destruct (instantiate ps p) as [l|] eqn:El.
  2:{ destruct Hrun as [-> ->], Hrun' as [-> ->]. destruct o as [[] ?|w1|]; try contradiction. destruct o' as [[] ?|v1|]; try contradiction. right. eauto. }
  pose proof (program_locals n ps c p l Hn Hc Eo El) as Hloc. pose proof (instantiate_proper ps p _ l (proj1 Hc) El) as Hp.
  assert (Hturn : forall a us s s', exec_list watch_all n l [] us s (SDone s') -> exec_list watch_all n l [] us (turned a s) (SDone (turned a s'))).
  { intros a us0 s0 s1 H. rewrite dexec_spec in *. destruct H as [ms H]. exists ms. now apply dexec_turn. }
  destruct so as [s1|s1|].
  - pose proof (Hturn t _ _ _ Hrun) as H. destruct (exec_deterministic watch_all n l Hp [] (w_rand w) us us' (turned t s) _ _ U1 U3 H Hrun') as [<- <-].
    destruct o as [[] w1|?|]; try contradiction. destruct o' as [[] v1|?|]; try contradiction. left. exists w1, v1. cbn [ends_as] in *. destruct He as [A B], He' as [A' B']. cbn [turned s_psi s_reg] in *.
    split; [reflexivity|]. split; [reflexivity|]. split; [intros x Hx; now rewrite A', A|]. split; [congruence|]. intros k. now rewrite U2, U2', Hrand.
  - destruct o as [[] ?|w1|]; try contradiction. destruct so' as [s2|s2|].
    + exfalso. pose proof (Hturn (- t)%R _ _ _ Hrun') as H. rewrite turn_forth in H. destruct (exec_deterministic watch_all n l Hp [] (w_rand w) us us' s _ _ U1 U3 Hrun H) as [_ X]. discriminate.
    + destruct o' as [[] ?|v1|]; try contradiction. right. eauto.
    + destruct o' as [[] ?|v1|]; contradiction.
  - destruct o as [[] ?|?|]; contradiction.
Qed.
(** ** Example: H(0), H(1) *)
Definition hh_calls : list cop := [OGate (CElem (true, ex_H)); OGate (CElem (true, ex_H1))].
Definition hh_program : program := [(SFixed (act_of (Call1 GH 0 [] [])), None); (SFixed (act_of (Call1 GH 1 [] [])), None)].
Lemma linear_example ps : circuit_is (build hh_calls) hh_program /\ acts_only ps hh_program /\ norm_kept 2 ps hh_program.
Proof.
  assert (Hd : cond_defined None) by (intros r; discriminate). split; [|split].
  - apply build_program. cbn [hh_calls flat_map says app hh_program]. repeat apply Forall2_cons; try apply Forall2_nil; (split; [|reflexivity]); cbn [fst]; apply represents_gate.
    + exact (noise1_stands GH 0 eq_refl).
    + exact (noise1_stands GH 1 eq_refl).
  - repeat apply Forall_cons; try apply Forall_nil; (split; [exact Hd|]); cbn [fst item_gate]; intros g [= <-]; unfold act_of; eauto.
  - pose proof (two_kept ps) as B. unfold norm_kept, two_program in B. inversion B as [|? ? B1 B2]; subst. inversion B2 as [|? ? B3 B4]; subst. exact (Forall_cons _ B1 (Forall_cons _ B3 (Forall_nil _))).
Qed.
Lemma phase_example : circuit_is (build two_calls) two_program /\ norm_kept 2 (fun _ => None) two_program /\ sqnorm 2 uneven = 1%R.
Proof. split; [exact two_is|]. split; [apply two_kept|]. rewrite sqnorm_2. unfold uneven. cbn [N.eqb Pos.eqb]. rewrite !Cnorm2_R, !Cnorm2_0. lra. Qed.
