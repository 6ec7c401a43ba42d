(** C20, C52: building and inverting circuits. *)
From Verif Require Export CircuitProofs8.
From Coq Require Import ZifyBool ZifyN ZifyNat Permutation Lra FunctionalExtensionality.

(** ** Histories *)
Lemma cop_ind' (P : cop -> Prop) : (forall g, P (OGate g)) -> (forall g key, P (OParam g key)) -> (forall g f, P (OCondGate g f)) ->
  (forall g key f, P (OCondParam g key f)) -> (forall l, Forall P l -> P (OCircuit l)) -> forall o, P o.
Proof.
  intros H1 H2 H3 H4 H5. fix IH 1. intros [g|g key|g f|g key f|l]; [apply H1|apply H2|apply H3|apply H4|]. apply H5.
  induction l as [|o l IHl]; constructor; [apply IH|exact IHl].
Qed.
Lemma set_back_app {T} (l : list T) x y : set_back (l ++ [x]) y = l ++ [y].
Proof. unfold set_back. now rewrite removelast_last. Qed.
Lemma build1_spec o : forall c, c_gates (build1 c o) = c_gates c ++ map fst (says o) /\ c_conds (build1 c o) = c_conds c ++ map snd (says o).
Proof.
  induction o as [g|g key|g f|g key f|l IH] using cop_ind'; intros c;
    cbn [build1 says map fst snd add_gate add_param_gate add_conditional_gate add_conditional_param_gate c_gates c_conds];
    try (split; reflexivity); try (rewrite set_back_app; split; reflexivity).
  unfold add_circuit. cbn [c_gates c_conds].
  assert (G : forall c0, c_gates (fold_left build1 l c0) = c_gates c0 ++ map fst (flat_map says l) /\ c_conds (fold_left build1 l c0) = c_conds c0 ++ map snd (flat_map says l)).
  { clear c. induction IH as [|o l Ho _ IHl]; intros c; [simpl; rewrite !app_nil_r; auto|]. cbn [fold_left flat_map].
    destruct (IHl (build1 c o)) as [-> ->]. destruct (Ho c) as [-> ->]. rewrite !map_app, !app_assoc. auto. }
  destruct (G c_new) as [-> ->]. cbn [c_new c_gates c_conds app]. auto.
Qed.
Lemma build_from l : forall c0, c_gates (fold_left build1 l c0) = c_gates c0 ++ map fst (flat_map says l) /\ c_conds (fold_left build1 l c0) = c_conds c0 ++ map snd (flat_map says l).
Proof.
  induction l as [|o l IHl]; intros c; [simpl; rewrite !app_nil_r; auto|]. cbn [fold_left flat_map].
  destruct (IHl (build1 c o)) as [-> ->]. destruct (build1_spec o c) as [-> ->]. rewrite !map_app, !app_assoc. auto.
Qed.
Theorem build_spec l : c_gates (build l) = map fst (flat_map says l) /\ c_conds (build l) = map snd (flat_map says l).
Proof. apply (build_from l c_new). Qed.
Theorem build_program l p : Forall2 (fun gc sc => represents (fst gc) (fst sc) /\ snd gc = snd sc) (flat_map says l) p -> circuit_is (build l) p.
Proof.
  intros H. destruct (build_spec l) as [E1 E2]. unfold circuit_is. rewrite E1, E2. clear E1 E2. induction H as [|x y a b [H1 H2] _ [IH1 IH2]]; [split; constructor|].
  cbn [map]. split; [constructor; assumption|now rewrite H2, IH2].
Qed.

(** ** Inverses *)
Lemma param_fits vf k g v n : make_param vf k = Ok g -> Forall (fun q => q < n) (call_operands (pcall_at k 0)) -> Forall (fun q => q < n) (call_operands (pcall_at k v)).
Proof. intros _. destruct k; exact (fun H => H). Qed.
Lemma item_inverse_spec n i : n < 64 -> factory_made i -> exists i' si si', item_inverse i = Ok i' /\ represents i si /\ item_operands si' = item_operands si /\
  (Forall (fun q => q < n) (item_operands si) -> exists si', represents i' si' /\ item_operands si' = item_operands si /\
   (forall ps, item_gate ps si = None <-> item_gate ps si' = None) /\
   forall ps g, item_gate ps si = Some g -> exists qs f f', g = Act qs f /\ item_gate ps si' = Some (Act qs f') /\ forall psi, f' (f psi) = psi).
Proof.
  intros Hn. destruct i as [[[t g]| |]|g key]; cbn [factory_made]; try contradiction.
  - intros (vf & k & Hty & Hm & Hi & Hh). pose proof (inverse_available vf k g Hty Hm) as Ha. rewrite Hh in Ha. destruct Ha as [g' Hg'].
    exists (IGate (CElem (false, g'))), (SFixed (act_of k)), (SFixed (act_of k)). cbn [item_inverse c_inverse]. rewrite Hg'. split; [reflexivity|].
    split; [constructor; apply stands_act; eapply acts_factory; eassumption|]. split; [reflexivity|]. intros HF.
    destruct (acts_spec g (act_of k) (acts_factory vf k g Hty Hm)) as (qs & f & E & Hw & _ & Hsem). injection E as <- <-. destruct (Hsem n Hn HF) as [Hfit Hf].
    pose proof (make_inverse_ok vf k g Hm Hi) as Hok.
    assert (Hinv : forall psi x, gate_sem g' (gate_sem g psi) x = psi x /\ gate_sem g (gate_sem g' psi) x = psi x) by (intros; now apply (gate_sem_inverse n)).
    assert (Ef : apply_mat (call_targets k) (call_controls k) (call_matrix k) = gate_sem g) by (extensionality psi; extensionality x; apply Hf).
    exists (SFixed (Act (call_operands k) (gate_sem g'))). split; [|split; [reflexivity|split]].
    + constructor. apply stands_act. eapply acts_inverse; try eassumption; intros psi x; rewrite Ef; apply Hinv.
    + intros ps. cbn [item_gate]. split; discriminate.
    + intros ps g0 [= <-]. eexists _, _, _. split; [reflexivity|]. split; [reflexivity|]. intros psi. extensionality x. rewrite Ef. apply Hinv.
  - intros (vf & k & Hty & Hm).
    assert (Hg' : exists g', p_inverse g = Ok g').
    { destruct (make_param_at vf k g 0 Hm) as [_ Hp]. destruct g; try contradiction; eexists; reflexivity. }
    destruct Hg' as [g' Hg']. exists (IParam g' key), (SKeyed key (fun v => act_of (pcall_at k v))), (SKeyed key (fun v => act_of (pcall_at k v))). cbn [item_inverse]. rewrite Hg'.
    split; [reflexivity|]. split; [constructor; econstructor; eassumption|]. split; [reflexivity|]. intros HF. cbn [item_operands] in HF.
    exists (SKeyed key (fun v => act_of (pcall_at (pcall_opposite k) v))). split; [constructor; econstructor; eassumption|].
    split; [destruct k; reflexivity|]. split.
    { intros ps. cbn [item_gate]. destruct (ps key); [split; discriminate|split; reflexivity]. }
    intros ps g0 E. cbn [item_gate] in *. destruct (ps key) as [v|]; [|discriminate]. injection E as <-.
    assert (Eop : pcall_at (pcall_opposite k) v = pcall_at k (- v)) by (destruct k; cbn [pcall_opposite pcall_at]; (do 2 f_equal; ring) || (f_equal; ring)).
    rewrite Eop. eexists _, _, _. split; [reflexivity|]. split; [unfold act_of; destruct k; reflexivity|].
    destruct (make_param_at vf k g v Hm) as [Hm1 Hp]. destruct (make_param_at vf k g (- v) Hm) as [Hm2 _].
    assert (T1 : call_typed (pcall_at k v)) by now apply pcall_typed_at. assert (T2 : call_typed (pcall_at k (- v))) by now apply pcall_typed_at.
    destruct (acts_spec _ _ (acts_factory vf _ _ T1 Hm1)) as (qs & f & E & Hw & _ & Hsem). injection E as <- <-.
    destruct (Hsem n Hn ltac:(eapply param_fits; eassumption)) as [Hfit Hf].
    destruct (acts_spec _ _ (acts_factory vf _ _ T2 Hm2)) as (qs & f & E & Hw2 & _ & Hsem2). injection E as <- <-.
    destruct (Hsem2 n Hn ltac:(eapply param_fits; eassumption)) as [Hfit2 Hf2].
    intros psi. extensionality x.
    assert (Ef : apply_mat (call_targets (pcall_at k v)) (call_controls (pcall_at k v)) (call_matrix (pcall_at k v)) psi = gate_sem (pgate_at g v) psi) by (extensionality y; apply Hf).
    rewrite Ef, Hf2. apply (gate_sem_inverse n); try assumption.
    + destruct Hw2 as [Hb2 Hw2]. destruct g; try contradiction; cbn [pgate_at get_inverse g_base] in *.
      * rewrite make_base_same by assumption. destruct k0; cbn [rot_std std1_inverse bindR]; do 3 f_equal; ring.
      * rewrite make_pauli_base_same by (assumption || apply Hw2). cbn [bindR]. do 2 f_equal. ring.
    + destruct g; try contradiction; [destruct k0|]; exact I.
Qed.

(** ** Circuits of functions *)
Definition runs_step (r : list bool) (psi : state) (gc : sgate * option cond) : state :=
  match fst gc with Act _ f => match holds (snd gc) r with Ok true => f psi | _ => psi end | _ => psi end.
Lemma exec_acts w n r l : Forall (fun gc => (exists qs f, fst gc = Act qs f) /\ exists b, holds (snd gc) r = Ok b) l ->
  forall psi us o, exec_list w n l [] us (SState psi r) o -> us = [] /\ o = SDone (SState (fold_left (runs_step r) l psi) r).
Proof.
  induction 1 as [|[g c] l [(qs & f & Eg) (b & Eb)] _ IH]; intros psi us o H; cbn [fst snd] in *; inversion H; subst; cbn [s_reg s_psi] in *; try congruence; try discriminate; auto.
  - cbn [fold_left]. unfold runs_step at 2. cbn [fst snd]. replace (holds c r) with (@Ok bool false). now apply IH.
  - match goal with Hst : step _ _ _ _ _ |- _ => inversion Hst; subst end. cbn [s_psi s_reg app] in *. cbn [fold_left]. unfold runs_step at 2. cbn [fst snd].
    replace (holds c r) with (@Ok bool true). apply IH. destruct (w c); assumption.
  - match goal with Hst : step _ _ _ _ _ |- _ => inversion Hst; subst end. match goal with Hn : forall s', _ <> _ |- _ => exfalso; eapply Hn; reflexivity end.
Qed.
Lemma acts_inside w n r l : Forall (fun gc => (exists qs f, fst gc = Act qs f) /\ exists b, holds (snd gc) r = Ok b) l ->
  forall psi us, ~ exec_list w n l [] us (SState psi r) SOutside.
Proof. intros HF psi us H. destruct (exec_acts w n r l HF psi us _ H). discriminate. Qed.
Definition undoes (a b : sgate * option cond) : Prop :=
  snd a = snd b /\ exists qs f f', fst a = Act qs f /\ fst b = Act qs f' /\ forall psi, f' (f psi) = psi.
Lemma undo_list r l l' : Forall2 undoes l l' -> forall psi, fold_left (runs_step r) (rev l') (fold_left (runs_step r) l psi) = psi.
Proof.
  induction 1 as [|[g c] [g' c'] l l' (Ec & qs & f & f' & Eg & Eg' & Hf) _ IH]; intros psi; [reflexivity|]. cbn [fst snd] in *. subst c' g g'.
  cbn [rev fold_left]. rewrite fold_left_app, IH. cbn [fold_left]. unfold runs_step. cbn [fst snd]. destruct (holds c r) as [[|]| |]; auto.
Qed.
Lemma instantiate_app ps a b l m : instantiate ps a = Some l -> instantiate ps b = Some m -> instantiate ps (a ++ b) = Some (l ++ m).
Proof.
  revert l. induction a as [|[i c] a IH]; intros l Ha Hb; cbn [instantiate app] in *; [injection Ha as <-; exact Hb|].
  destruct (item_gate ps i) as [g|]; [|discriminate]. destruct (instantiate ps a) as [l1|]; [|discriminate]. injection Ha as <-. now rewrite (IH l1 eq_refl Hb).
Qed.
Lemma instantiate_rev ps p : forall l, instantiate ps p = Some l -> instantiate ps (rev p) = Some (rev l).
Proof.
  induction p as [|[i c] p IH]; intros l H; cbn [instantiate rev] in *; [now injection H as <-|].
  destruct (item_gate ps i) as [g|] eqn:Ei; [|discriminate]. destruct (instantiate ps p) as [l1|]; [|discriminate]. injection H as <-. cbn [rev].
  apply instantiate_app; [now apply IH|]. cbn [instantiate]. now rewrite Ei.
Qed.
Lemma mapR_app {A B} (f : A -> res B) a b : Circuit.mapR f (a ++ b) = (x <- Circuit.mapR f a ;; y <- Circuit.mapR f b ;; Ok (x ++ y)).
Proof.
  induction a as [|x a IH]; cbn [Circuit.mapR app bindR]; [now destruct (Circuit.mapR f b)|]. destruct (f x); [|reflexivity|reflexivity]. cbn [bindR]. rewrite IH.
  destruct (Circuit.mapR f a); [|reflexivity|reflexivity]. cbn [bindR]. now destruct (Circuit.mapR f b).
Qed.
Lemma mapR_rev {A B} (f : A -> res B) l m : Circuit.mapR f l = Ok m -> Circuit.mapR f (rev l) = Ok (rev m).
Proof.
  revert m. induction l as [|x l IH]; intros m H; cbn [Circuit.mapR rev] in *; [injection H as <-; reflexivity|]. inv_bind H. inv_bind H. injection H as <-.
  rewrite mapR_app, (IH _ E0). cbn [bindR Circuit.mapR]. rewrite E. reflexivity.
Qed.
Lemma mapR_Forall2 {A B} (f : A -> res B) l : (forall x, In x l -> exists y, f x = Ok y) -> exists m, Circuit.mapR f l = Ok m.
Proof.
  induction l as [|x l IH]; intros H; [eexists; reflexivity|]. destruct (H x (or_introl eq_refl)) as [y Hy]. destruct IH as [m Hm]; [intros; apply H; now right|].
  exists (y :: m). cbn [Circuit.mapR]. rewrite Hy. cbn [bindR]. rewrite Hm. reflexivity.
Qed.
Theorem inverse_exists c : Forall factory_made (c_gates c) -> exists c', circuit_inverse c = Ok c' /\ c_conds c' = rev (c_conds c) /\ length (c_gates c') = length (c_gates c).
Proof.
  intros H. destruct (mapR_Forall2 item_inverse (c_gates c)) as [m Hm].
  { intros i Hi. rewrite Forall_forall in H. destruct (item_inverse_spec 0 i eq_refl (H i Hi)) as (i' & _ & _ & E & _). eauto. }
  unfold circuit_inverse. rewrite (mapR_rev _ _ _ Hm). eexists. split; [reflexivity|]. split; [reflexivity|]. cbn [c_gates]. rewrite rev_length.
  clear H. revert m Hm. induction (c_gates c) as [|i l IH]; intros m Hm; cbn [Circuit.mapR] in Hm; [now injection Hm as <-|]. inv_bind Hm. inv_bind Hm. injection Hm as <-. simpl. f_equal. now apply IH.
Qed.
Lemma Forall2_rev' {A B} (P : A -> B -> Prop) l m : Forall2 P l m -> Forall2 P (rev l) (rev m).
Proof. induction 1; [constructor|]. cbn [rev]. apply Forall2_app; [assumption|]. repeat constructor; assumption. Qed.
(** the two programs *)
Lemma inverse_programs n c c' : n < 64 -> Forall factory_made (c_gates c) -> length (c_conds c) = length (c_gates c) -> circuit_inverse c = Ok c' -> required_n_qubits c <= n ->
  exists p p', circuit_is c p /\ circuit_is c' p' /\ (forall q, In q (program_operands p) -> q < n) /\ (forall q, In q (program_operands p') -> q < n) /\
    forall ps l, instantiate ps p = Some l -> exists l', instantiate ps p' = Some (rev l') /\ Forall2 undoes l l'.
Proof.
  intros Hn HF Hlen Hinv Hreq. unfold circuit_inverse in Hinv. inv_bind Hinv. injection Hinv as <-.
  assert (Hrev : exists m, Circuit.mapR item_inverse (c_gates c) = Ok m /\ v = rev m).
  { apply mapR_rev in E. rewrite rev_involutive in E. exists (rev v). now rewrite rev_involutive. }
  destruct Hrev as (m & Em & ->). clear E.
  assert (Hfit : forall i, In i (c_gates c) -> forall q, N.testbit (item_mask i) q = true -> q < n).
  { intros i Hi q Hq. unfold required_n_qubits in Hreq. apply (proj1 (bit_width_le _ _) Hreq). rewrite fold_lor_testbit, N.bits_0. apply existsb_exists. eauto. }
  clear Hreq. destruct c as [items conds]. cbn [c_gates c_conds] in *.
  assert (G : exists p p', Forall2 represents items (map fst p) /\ conds = map snd p /\ Forall2 represents m (map fst p') /\ conds = map snd p' /\
    program_operands p' = program_operands p /\ (forall q, In q (program_operands p) -> q < n) /\
    forall ps l, instantiate ps p = Some l -> exists l', instantiate ps p' = Some l' /\ Forall2 undoes l l').
  { revert conds Hlen m Em. induction HF as [|i items Hi HF IH]; intros conds Hlen m Em; cbn [Circuit.mapR] in Em.
    - injection Em as <-. destruct conds; [|discriminate]. exists [], []. do 5 (split; [constructor|]). split; [intros ? []|]. intros ps l [= <-]. exists []. split; [reflexivity|constructor].
    - inv_bind Em. inv_bind Em. injection Em as <-. destruct conds as [|f conds]; [discriminate|]. simpl in Hlen.
      destruct (IH ltac:(intros; eapply Hfit; [right|]; eassumption) conds ltac:(lia) v0 E0) as (p & p' & H1 & H2 & H3 & H4 & H5 & H6 & H7).
      destruct (item_inverse_spec n i Hn Hi) as (i' & si & _ & Ei & Hr & _ & Hrest). rewrite E in Ei. injection Ei as <-.
      assert (Hop : Forall (fun q => q < n) (item_operands si)).
      { apply Forall_forall. intros q Hq. apply (Hfit i (or_introl eq_refl)). now apply (item_mask_operands i si q Hr). }
      destruct (Hrest Hop) as (si' & Hr' & Eo & _ & Hg). exists ((si, f) :: p), ((si', f) :: p'). cbn [map fst snd].
      split; [now constructor|]. split; [congruence|]. split; [now constructor|]. split; [congruence|].
      unfold program_operands in *. cbn [flat_map fst]. split; [congruence|]. split.
      { intros q Hq. apply in_app_iff in Hq. destruct Hq as [Hq|Hq]; [rewrite Forall_forall in Hop; auto|auto]. }
      intros ps l Hl. cbn [instantiate] in Hl. destruct (item_gate ps si) as [g|] eqn:Eg; [|discriminate]. destruct (instantiate ps p) as [l1|] eqn:El; [|discriminate]. injection Hl as <-.
      destruct (H7 ps l1 El) as (l1' & El' & Hu). destruct (Hg ps g Eg) as (qs & f1 & f1' & -> & Eg' & Hinv). exists ((Act qs f1', f) :: l1'). cbn [instantiate]. rewrite Eg', El'.
      split; [reflexivity|]. constructor; [|exact Hu]. split; [reflexivity|]. exists qs, f1, f1'. auto. }
  destruct G as (p & p' & H1 & H2 & H3 & H4 & H5 & H6 & H7). exists p, (rev p'). split; [split; assumption|].
  split; [split; cbn [c_gates c_conds]; [rewrite map_rev; now apply Forall2_rev'|rewrite map_rev; congruence]|].
  split; [exact H6|]. split.
  { intros q Hq. apply H6. rewrite <- H5. unfold program_operands in *. rewrite in_flat_map in *. destruct Hq as (x & Hx & Hq). exists x. split; [now apply in_rev|exact Hq]. }
  intros ps l Hl. destruct (H7 ps l Hl) as (l' & Hl' & Hu). exists l'. split; [now apply instantiate_rev|exact Hu].
Qed.
Lemma program_of_acts n L ps c p l w : n < 64 -> lanes_ok L -> circuit_is c p -> (forall q, In q (program_operands p) -> q < n) -> instantiate ps p = Some l ->
  (forall k, unit_draw (w_rand w k)) ->
  Forall (fun gc => (exists qs f, fst gc = Act qs f) /\ exists b, holds (snd gc) (w_reg w) = Ok b) l ->
  forall psi, (forall x, x < 2 ^ n -> w_amp w x = psi x) ->
  runs (circuit_update n L ps c) w (done (fun _ w' => (forall x, x < 2 ^ n -> w_amp w' x = fold_left (runs_step (w_reg w)) l psi x) /\
    w_reg w' = w_reg w /\ forall i, w_rand w' i = w_rand w i)).
Proof.
  intros Hn HL Hc Hop Hl Hu HF psi Hpsi.
  assert (Eq : forall us o, run_program watch_all n ps p us (SState psi (w_reg w)) o -> exec_list watch_all n l [] us (SState psi (w_reg w)) o).
  { intros us o. unfold run_program. replace (existsb _ (program_operands p)) with false; [now rewrite Hl|].
    symmetry. apply not_true_is_false. intros H. apply existsb_exists in H. destruct H as (q & Hq & Hle). apply Hop in Hq. lia. }
  eapply runs_weaken; [apply (circuit_runs n L ps c p w (SState psi (w_reg w)) Hn HL Hc); [split; [exact Hpsi|reflexivity]|exact Hu|]|].
  - intros us Hus H. apply Eq in H. exact (acts_inside _ _ _ _ HF _ _ H).
  - intros o (us & so & H & [_ Hused] & Hend). apply Eq in H. destruct (exec_acts _ _ _ _ HF _ _ _ H) as [-> ->].
    destruct o as [[] w'|w'|]; try contradiction. destruct Hend as [H1 H2]. cbn [s_psi s_reg] in *. split; [exact H1|]. split; [exact H2|exact Hused].
Qed.
Theorem inverse_undoes n L ps c c' w : n < 64 -> lanes_ok L -> Forall factory_made (c_gates c) -> length (c_conds c) = length (c_gates c) -> circuit_inverse c = Ok c' ->
  required_n_qubits c <= n -> (forall key, In key (keys c) -> ps key <> None) -> (forall f, In (Some f) (c_conds c) -> exists b, f (w_reg w) = Ok b) ->
  (forall k, unit_draw (w_rand w k)) ->
  runs (circuit_update n L ps c;~ circuit_update n L ps c') w (done (fun _ w' =>
    (forall x, x < 2 ^ n -> w_amp w' x = w_amp w x) /\ w_reg w' = w_reg w /\ forall i, w_rand w' i = w_rand w i)).
Proof.
  intros Hn HL HF Hlen Hinv Hreq Hkeys Hconds Hu. destruct (inverse_programs n c c' Hn HF Hlen Hinv Hreq) as (p & p' & Hc & Hc' & Ho & Ho' & Hl).
  assert (Hi : exists l, instantiate ps p = Some l).
  { pose proof (keys_spec ps p (c_gates c) (proj1 Hc)) as Hk. destruct (instantiate ps p) as [l|]; [eauto|]. exfalso.
    enough (forallb (fun k => match ps k with Some _ => true | None => false end) (keys c) = true) by (unfold keys in *; congruence).
    apply forallb_forall. intros k Hk'. apply Hkeys in Hk'. destruct (ps k); [reflexivity|congruence]. }
  destruct Hi as [l El]. destruct (Hl ps l El) as (l' & El' & Hund).
  assert (Hcs : map snd l = c_conds c).
  { rewrite (proj2 Hc). clear - El. revert l El. induction p as [|[i f] p IH]; intros l El; cbn [instantiate] in El; [injection El as <-; reflexivity|].
    destruct (item_gate ps i); [|discriminate]. destruct (instantiate ps p); [|discriminate]. injection El as <-. cbn [map snd]. f_equal. now apply IH. }
  assert (HA : Forall (fun gc => (exists qs f, fst gc = Act qs f) /\ exists b, holds (snd gc) (w_reg w) = Ok b) l).
  { assert (Hh : forall gc, In gc l -> exists b, holds (snd gc) (w_reg w) = Ok b).
    { intros [g [f|]] Hin; [|exists true; reflexivity]. apply Hconds. rewrite <- Hcs. apply in_map_iff. now exists (g, Some f). }
    clear - Hund Hh. induction Hund as [|a b l l' (_ & qs & f & f' & E & _) _ IH]; constructor; [split; [eauto|apply Hh; now left]|apply IH; intros; apply Hh; now right]. }
  assert (HB : Forall (fun gc => (exists qs f, fst gc = Act qs f) /\ exists b, holds (snd gc) (w_reg w) = Ok b) (rev l')).
  { apply Forall_rev. clear - Hund HA. induction Hund as [|a b l l' (Es & qs & f & f' & _ & E & _) _ IH]; constructor; inversion HA as [|? ? [_ Hb] HA']; subst; [|now apply IH].
    split; [eauto|]. rewrite <- Es. exact Hb. }
  eapply runs_bind_done; [apply (program_of_acts n L ps c p l w Hn HL Hc Ho El Hu HA (w_amp w)); reflexivity|].
  intros [] w1 (H1 & H2 & H3). eapply runs_weaken.
  - apply (program_of_acts n L ps c' p' (rev l') w1 Hn HL Hc' Ho' El'); [intros k; rewrite H3; apply Hu|rewrite H2; exact HB|exact H1].
  - intros o Ho1. destruct o as [[] w2|w2|]; try contradiction. destruct Ho1 as (H4 & H5 & H6). rewrite H2 in H4, H5. split; [|split; [exact H5|intros i; rewrite H6; apply H3]].
    intros x Hx. rewrite H4 by assumption. now rewrite (undo_list _ _ _ Hund).
Qed.
