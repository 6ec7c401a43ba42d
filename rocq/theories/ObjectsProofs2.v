(** C66: every operation on separate objects is the operation on values. *)
From Verif Require Export ObjectsProofs.
From Coq Require Import ZifyBool ZifyN ZifyNat Lia.

Lemma object_gate_runs s L vf k g w : shape_ok s -> lanes_ok L -> call_typed k -> make vf k = Ok g -> Forall (fun q => q < qubits s) (call_operands k) ->
  runs (object_gate L s g) w (done (fun _ w' => (forall a, a < size s -> w_amp w' a = acted k (w_amp w) a) /\ w_rand w' = w_rand w)).
Proof.
  intros [Hn Hsz] HL Hty Hm HF. assert (Hu : exists p, update_plan (qubits s) (size s) L g = Ok p /\ updates_to (size s) p (w_amp w) (acted k (w_amp w))).
  { destruct s as [n|B n]; cbn [qubits size] in *.
    - pose proof (call_correct vf k g n 1 L (w_amp w) Hty Hm HF Hn) as H. rewrite N.mul_1_l in H. exact (H Hsz HL).
    - exact (call_correct vf k g n B L (w_amp w) Hty Hm HF Hn Hsz HL). }
  destruct Hu as (p & Hp & Hu). unfold object_gate. rewrite Hp. cbn [hlift]. eapply returns_bind; [apply runs_ret; reflexivity|].
  eapply runs_weaken; [apply (plan_runs _ _ _ _ Hu)|]. intros [t w'|w'|]; cbn [done]; auto. intros (H1 & H2 & H3 & H4). now split.
Qed.
Lemma acted_ext k n psi phi x : wf_ops n (call_targets k) (call_controls k) -> x < 2 ^ n -> (forall i, i < 2 ^ n -> psi i = phi i) -> acted k psi x = acted k phi x.
Proof. intros HF Hx E. unfold acted. now apply (apply_mat_local n). Qed.

Section Step.
  Variable L : N.
  Hypothesis HL : lanes_ok L.
  Lemma assigned_good op x v s psi st V : inv st V -> shape_ok s -> holds_value psi s v -> vstep op V (VDone (vset x v V)) -> good op V (HDone tt (fresh x s psi st)).
  Proof. intros HI Hs Hv Hst. exists (VDone (vset x v V)). split; [exact Hst|]. now apply fresh_inv. Qed.
  (** the method that follows an allocation *)
  Lemma fresh_method op x s psi v p st V : inv st V -> shape_ok s -> vstep op V (VDone (vset x v V)) ->
    (forall w, w_home w = None -> runs p w (done (fun _ w' => holds_value (w_amp w') s v /\ w_rand w' = w_rand w))) ->
    runs (hbind (lookup x) (fun o => method x o [] p)) (fresh x s psi st) (good op V).
  Proof.
    intros HI Hs Hst Hp. apply (found x (Obj s (st_next st) 0)); [cbn; apply put_at_eq|].
    assert (HF : inv (fresh x s psi st) (vset x (match s with Single n => VVec n psi | Batch B n => VBat B n (fun b => batch n b psi) end) V)).
    { apply fresh_inv; [exact HI|exact Hs|]. destruct s; cbn; auto. }
    set (st1 := fresh x s psi st) in *. set (o := Obj s (st_next st) 0).
    assert (Ho : st_env st1 x = Some o) by (cbn; apply put_at_eq). destruct (Hp (World (content st1 o) None [] (st_rand st1)) eq_refl) as [H1 [o1 Ho1]]. split.
    - intros r (r' & Hr' & ->). specialize (H1 r' Hr'). destruct r' as [[] w'|w'|]; cbn [done] in H1; try contradiction. destruct H1 as [Hv Hr]. cbn [w_rand] in Hr.
      exists (VDone (vset x v V)). split; [exact Hst|]. pose proof HF as [[_ F2] _ _ _ F6].
      eapply inv_env; [apply (method_inv x o w' v st1 _ HF Ho Hv); now rewrite Hr|intros y; cbn [v_env vset]; destruct (Nat.eqb y x); reflexivity|].
      intros i. cbn [v_rand vset]. rewrite Hr. apply F2.
    - eexists. exists o1. split; [exact Ho1|reflexivity].
  Qed.
  Lemma same_holds (x y : nat) o1 o2 st V v1 v2 : inv st V -> st_env st x = Some o1 -> st_env st y = Some o2 -> v_env V x = Some v1 -> v_env V y = Some v2 ->
    same_place o1 o2 = true -> x = y.
  Proof.
    intros [_ _ H4 _ _] E1 E2 _ _ Hs. destruct (Nat.eq_dec x y) as [|Hne]; [assumption|]. exfalso. apply (H4 x y o1 o2 Hne E1 E2).
    unfold same_place in Hs. apply andb_true_iff in Hs. destruct Hs as [Hs _]. now apply Nat.eqb_eq in Hs.
  Qed.
  Lemma step_good op st V : inv st V -> separate_op op -> op_ok op V -> runs (ostep L op) st (good op V).
  Proof.
    intros HI Hsep Hok. destruct op as [x s|x y|x y|x m|x m|x c y|x y|x vf k|x ps c reg|x s b|x s b|s b y|s y]; cbn [separate_op op_ok ostep] in *; try contradiction.
    - (* ONew *) apply allocated. intros junk. eapply (fresh_method _ x s junk (zero_value s)); [exact HI|exact Hok|constructor|]. intros w _. destruct s as [n|B n]; cbn [zero_value holds_value].
      + eapply runs_weaken; [apply (run_sop_ok n SZero (w_amp w) w); [intros a _; reflexivity|exact I]|]. intros [t w'|w'|]; cbn [done]; auto. intros (A1 & _ & _ & A4). split; [split; [reflexivity|exact A1]|exact A4].
      + pose proof (run_bop_ok B n BoZero (fun b => batch n b (w_amp w)) w) as H. assert (Hr : rows_agree B n (w_amp w) (fun b => batch n b (w_amp w))) by (intros b i _ _; reflexivity).
        specialize (H Hr ltac:(discriminate)). cbn [family_op run_bop] in H. unfold on_all in H. cbn [vector_op on_batches] in H.
        eapply runs_weaken; [exact H|]. intros [t w'|w'|]; cbn [done]; auto. intros (A1 & _ & _ & A4). split; [split; [reflexivity|split; [reflexivity|exact A1]]|exact A4].
    - (* OCopy *) destruct Hok as [v Hv]. destruct (bound st V y v HI Hv) as (o & Ho & Es & _ & Hsh & Hc). apply (found y o); [exact Ho|]. apply allocated. intros junk.
      apply (found x (Obj (o_shape o) (st_next st) 0)); [cbn; apply put_at_eq|]. cbn [o_buf]. split; [|eexists; reflexivity]. intros r ->. eexists. split; [now apply (vstep_copy x y V v)|]. cbn beta iota.
      assert (Hcopy : forall a, a < size (o_shape o) -> content (fresh x (o_shape o) junk st) o a = content st o a).
      { intros a Ha. unfold content. cbn. rewrite put_at_ne; [reflexivity|]. pose proof (inv_sound _ _ HI y o Ho). lia. }
      assert (HF : inv (fresh x (o_shape o) junk st) (vset x (match o_shape o with Single n => VVec n junk | Batch B n => VBat B n (fun b => batch n b junk) end) V)).
      { apply fresh_inv; [exact HI|rewrite Es; exact Hsh|]. destruct (o_shape o); cbn; auto. }
      set (psi := content (fresh x (o_shape o) junk st) o) in *.
      eapply inv_env; [apply (method_inv x (Obj (o_shape o) (st_next st) 0) (World psi None [] (st_rand st)) v _ _ HF); [cbn; apply put_at_eq| |exact (inv_rand _ _ HI)]| |].
      + cbn [w_amp o_shape]. eapply holds_ext; [exact Hcopy|exact Hc].
      + intros z. cbn [v_env vset]. destruct (Nat.eqb z x); reflexivity.
      + intros k. cbn [v_rand vset w_rand]. apply HI.
    - (* OVec *) destruct Hok as (n & psi & HV & Hown & Hm). destruct (bound st V x _ HI HV) as (o & Ho & Es & _ & Hsh & Hc). apply (found x o); [exact Ho|]. cbn [shape_of] in Es. pose proof Hc as Hc'. rewrite Es in *. destruct Hc' as [_ Hc'].
      rewrite <- Es in Hc. eapply (sets_good _ x o st V n psi _ (vector_op n m psi)); try assumption; [|now apply vstep_vec]. apply run_sop_ok; assumption.
    - (* OBat *) destruct Hok as (B & n & f & HV & Hown & Hm). destruct (bound st V x _ HI HV) as (o & Ho & Es & _ & Hsh & Hc). apply (found x o); [exact Ho|]. cbn [shape_of] in Es. pose proof Hc as Hc'. rewrite Es in *. destruct Hc' as (_ & _ & Hc').
      rewrite <- Es in Hc. eapply (rows_good _ x o st V B n f _ (family_op B n m f)); try assumption; [|now apply vstep_bat]. apply run_bop_ok; assumption.
    - (* OAdd *) destruct Hok as [(n & psi & m & phi & HV & HV2 & Hnm)|[(B & n & f & HV) (B2 & m & g & HV2)]];
        destruct (bound st V x _ HI HV) as (o & Ho & Es & _ & Hsh & Hc); destruct (bound st V y _ HI HV2) as (o2 & Ho2 & Es2 & _ & Hsh2 & Hc2); apply (found x o); [exact Ho| |exact Ho|]; (apply (found y o2); [exact Ho2|]);
        (eapply runs_bind_done; [apply runs_get; instantiate (1 := fun p st' => p = content st o2 /\ st' = st); now split|]); intros chi st' [-> ->]; cbn [shape_of] in *; pose proof Hc as Hc'; pose proof Hc2 as Hc2'; rewrite Es, Es2 in *.
      + destruct Hc' as [_ Hc']. destruct Hc2' as [_ Hc2']. rewrite <- Es in Hc.
        eapply (sets_good _ x o st V n psi _ (Some (fun i => psi i + c * phi i)%C)); try assumption; [|now apply (vstep_add x c y V n psi m phi)].
        pose proof (run_sop_ok n (SAdd c (same_place o o2) m (content st o2)) psi (World (content st o) None [] (st_rand st)) Hc') as H. cbn [sop_ok vector_op] in H.
        eapply sets_weaken; [|apply H; now right]. intros a Ha. cbn beta. destruct (same_place o o2) eqn:Esp.
        * pose proof (same_holds x y o o2 st V _ _ HI Ho Ho2 HV HV2 Esp) as <-. rewrite HV in HV2. injection HV2 as <- <-. reflexivity.
        * now rewrite Hc2' by (apply (N.lt_le_trans _ _ _ Ha); apply N.pow_le_mono_r; lia).
      + destruct Hc' as (_ & _ & Hc'). destruct Hc2' as (_ & _ & Hc2'). rewrite <- Es in Hc.
        eapply (rows_good _ x o st V B n f _ (if (n =? m) && (B =? B2) then Some (fun b i => f b i + c * g b i)%C else None)); try assumption; [|now apply (vstep_add_bat x c y V B n f B2 m g)].
        pose proof (run_bop_ok B n (BoAdd c (same_place o o2) B2 m (content st o2)) f (World (content st o) None [] (st_rand st)) Hc' ltac:(discriminate)) as H. cbn [family_op] in H.
        destruct ((n =? m) && (B =? B2)) eqn:E; [|exact H]. apply andb_true_iff in E. destruct E as [E1 E2]. apply N.eqb_eq in E1, E2. subst m B2. cbn [on_batches] in *.
        eapply runs_weaken; [exact H|]. intros [t w'|w'|]; cbn [done]; auto. intros (A1 & A2). split; [|exact A2]. intros b i Hb Hi. rewrite (A1 b i Hb Hi). destruct (same_place o o2) eqn:Esp.
        * pose proof (same_holds x y o o2 st V _ _ HI Ho Ho2 HV HV2 Esp) as <-. rewrite HV in HV2. injection HV2 as <-. reflexivity.
        * now rewrite Hc2'.
    - (* OLoad *) destruct Hok as [[(n & psi & HV) (m & phi & HV2)]|[(B & n & f & HV) (B2 & m & g & HV2)]];
        destruct (bound st V x _ HI HV) as (o & Ho & Es & _ & Hsh & Hc); destruct (bound st V y _ HI HV2) as (o2 & Ho2 & Es2 & _ & Hsh2 & Hc2); apply (found x o); [exact Ho| |exact Ho|]; (apply (found y o2); [exact Ho2|]);
        (eapply runs_bind_done; [apply runs_get; instantiate (1 := fun p st' => p = content st o2 /\ st' = st); now split|]); intros chi st' [-> ->]; cbn [shape_of] in *; pose proof Hc as Hc'; pose proof Hc2 as Hc2'; rewrite Es, Es2 in *.
      + destruct Hc' as [_ Hc']. destruct Hc2' as [_ Hc2']. rewrite <- Es in Hc.
        eapply (sets_good _ x o st V n psi _ (if n =? m then Some phi else None)); try assumption; [|now apply (vstep_load x y V n psi m phi)].
        pose proof (run_sop_ok n (SLoad (map (content st o2) (seqN (2 ^ m)))) psi (World (content st o) None [] (st_rand st)) Hc' I) as H. cbn [vector_op] in H.
        rewrite map_length, length_seqN, N2Nat.id, pow2_eqb, N.eqb_sym in H. destruct (N.eqb_spec n m) as [<-|]; [|exact H].
        eapply sets_weaken; [|exact H]. intros a Ha. cbn beta. rewrite nth_list by assumption. now apply Hc2'.
      + destruct Hc' as (_ & _ & Hc'). destruct Hc2' as (_ & _ & Hc2'). rewrite <- Es in Hc.
        eapply (rows_good _ x o st V B n f _ (if (n =? m) && (B =? B2) then Some g else None)); try assumption; [|now apply (vstep_load_bat x y V B n f B2 m g)].
        rewrite pow2_eqb, (N.eqb_sym B2 B), (N.eqb_sym m n). destruct (N.eqb_spec B B2) as [<-|]; cbn [negb]; [|rewrite andb_false_r; now apply runs_throw]. destruct (N.eqb_spec n m) as [<-|]; cbn [negb andb]; [|now apply runs_throw].
        pose proof (run_bop_ok B n (BoLoad (map (fun b => map (batch n b (content st o2)) (seqN (2 ^ n))) (seqN B))) f (World (content st o) None [] (st_rand st)) Hc' ltac:(discriminate)) as H. cbn [family_op] in H.
        rewrite map_length, length_seqN, N2Nat.id, N.eqb_refl in H. cbn [andb] in H.
        replace (forallb _ _) with true in H. 2:{ symmetry. apply forallb_forall. intros l Hl. apply in_map_iff in Hl. destruct Hl as (b & <- & _). rewrite map_length, length_seqN. apply N.eqb_eq. lia. }
        cbn [on_batches] in *. eapply runs_weaken; [exact H|]. intros [t w'|w'|]; cbn [done]; auto. intros (A1 & A2). split; [|exact A2]. intros b i Hb Hi. rewrite (A1 b i Hb Hi).
        rewrite (nth_indep _ [] (map (batch n 0 (content st o2)) (seqN (2 ^ n)))) by (rewrite map_length, length_seqN; lia).
        rewrite (map_nth (fun b => map (batch n b (content st o2)) (seqN (2 ^ n))) (seqN B) 0), nth_seqN, N2Nat.id by lia. rewrite nth_list by assumption. now apply Hc2'.
    - (* OApply *) destruct Hok as (v & HV & Hty & [g Hg] & HF). destruct (bound st V x _ HI HV) as (o & Ho & Es & _ & Hsh & Hc). apply (found x o); [exact Ho|]. rewrite Hg. cbn [hlift].
      eapply (runs_bind_done _ _ _ (fun t st' => t = g /\ st' = st)); [apply runs_ret; now split|]. intros g' st' [-> ->]. apply method_good; [exact HI|exact Ho|]. rewrite Es in *.
      eapply runs_weaken; [apply (object_gate_runs (shape_of v) L vf k g); assumption|]. intros [[] w'|w'|]; cbn [done]; try contradiction. cbn [w_amp w_rand]. intros [A1 A2].
      pose proof (call_wf_ops vf k g _ Hty Hg HF) as Hwf. destruct HI as [[_ I2] _ _ _ I6]. destruct v as [n psi|B n f]; cbn [shape_of qubits size holds_value] in *.
      + eexists. split; [now apply (vstep_gate x vf k V n psi)|]. cbn [method_ends]. exists (VVec n (acted k psi)). cbn [holds_value]. rewrite A2. destruct Hc as [_ Hc].
        split; [split; [reflexivity|]|split; [exact I6|split; [reflexivity|exact I2]]]. intros i Hi. rewrite A1 by assumption. now apply (acted_ext k n).
      + eexists. split; [now apply (vstep_gate_bat x vf k V B n f)|]. cbn [method_ends]. exists (VBat B n (fun b => acted k (f b))). cbn [holds_value]. rewrite A2. destruct Hc as (_ & _ & Hc).
        split; [split; [reflexivity|split; [reflexivity|]]|split; [exact I6|split; [reflexivity|exact I2]]]. intros b i Hb Hi. unfold batch at 1. rewrite A1 by nia.
        change (acted k (content st o) (b * 2 ^ n + i)) with (batch n b (apply_mat (call_targets k) (call_controls k) (call_matrix k) (content st o)) i).
        rewrite apply_mat_batch; [|exact (wf_NoDup _ _ _ Hwf)|exact HF|exact Hi]. apply (acted_ext k n); [exact Hwf|exact Hi|]. intros j Hj. now apply Hc.
    - (* ORun *) destruct Hok as (n & psi & p & HV & Hcp & Hsafe). destruct (bound st V x _ HI HV) as (o & Ho & Es & _ & Hsh & Hc). apply (found x o); [exact Ho|]. apply method_good; [exact HI|exact Ho|]. cbn [shape_of] in Es. rewrite Es in *.
      destruct Hc as [_ Hc]. destruct HI as [[_ I2] _ _ _ I6]. destruct Hsh as [Hn _]. cbn [qubits] in Hn.
      eapply runs_weaken; [apply (circuit_runs n L ps c p (World (content st o) None reg (st_rand st)) (SState psi reg) Hn HL Hcp); [split; [exact Hc|reflexivity]|exact I6|exact Hsafe]|].
      intros o' (us & so & Hrun & [Hus Hrest] & Hends). cbn [w_rand] in *.
      assert (Eus : us = map (v_rand V) (seq 0 (length us))) by (rewrite Hus at 1; apply map_ext; intros i; apply I2).
      destruct o' as [[] w'|w'|], so as [s1|s1|]; cbn [ends_as] in Hends; try contradiction; destruct Hends as [E1 E2].
      + eexists. split; [eapply (vstep_run x ps c reg V n psi p us (SDone s1)); [exact HV|exact Hcp|exact Eus|exact Hrun|reflexivity|reflexivity]|]. cbn [method_ends]. exists (VVec n (s_psi s1)).
        split; [split; [reflexivity|exact E1]|]. split; [intros k; rewrite Hrest; apply I6|]. split; [reflexivity|]. intros k. cbn [v_rand vset]. rewrite Hrest. apply I2.
      + eexists. split; [eapply (vstep_run x ps c reg V n psi p us (SThrown s1)); [exact HV|exact Hcp|exact Eus|exact Hrun|reflexivity|reflexivity]|]. cbn [method_ends]. exists (VVec n (s_psi s1)).
        split; [split; [reflexivity|exact E1]|]. split; [intros k; rewrite Hrest; apply I6|]. split; [reflexivity|]. intros k. cbn [v_rand vset]. rewrite Hrest. apply I2.
    - (* OGetAt *) destruct Hok as (B & n & f & HV). destruct (bound st V s _ HI HV) as (o & Ho & Es & _ & Hsh & Hc). apply (found s o); [exact Ho|]. cbn [shape_of] in Es. rewrite Es in *. destruct Hc as (_ & _ & Hc).
      pose proof (vstep_get x s b V B n f HV) as Hst. destruct (N.leb_spec B b) as [Hb|Hb].
      + apply runs_throw. eexists. split; [exact Hst|]. destruct (N.ltb_spec b B); [lia|]. exact HI.
      + destruct (N.ltb_spec b B); [|lia]. cbn [becomes] in Hst. eapply runs_bind_done; [apply runs_get; instantiate (1 := fun p st' => p = batch n b (content st o) /\ st' = st); now split|]. intros chi st' [-> ->].
        apply allocated. intros junk. eapply (fresh_method _ x (Single n) junk (VVec n (f b))); [exact HI| |exact Hst|].
        * cbn [shape_of] in Hsh. destruct Hsh as [H1 H2]. cbn [qubits] in H1. split; [exact H1|]. cbn [size]. apply N.pow_le_mono_r; lia.
        * intros w _. pose proof (run_sop_ok n (SLoad (map (batch n b (content st o)) (seqN (2 ^ n)))) (w_amp w) w (fun _ _ => eq_refl) I) as H1. cbn [vector_op] in H1.
          rewrite map_length, length_seqN, N2Nat.id, N.eqb_refl in H1. eapply runs_weaken; [exact H1|]. intros [t w'|w'|]; cbn [done]; auto. intros (A1 & _ & _ & A4). split; [|exact A4]. split; [reflexivity|].
          intros i Hi. rewrite A1 by assumption. rewrite nth_list by assumption. now apply Hc.
    - (* OSetAt *) destruct Hok as [(B & n & f & HV) (m & phi & HV2)].
      destruct (bound st V s _ HI HV) as (o & Ho & Es & _ & Hsh & Hc). destruct (bound st V y _ HI HV2) as (o2 & Ho2 & Es2 & _ & Hsh2 & Hc2). apply (found s o); [exact Ho|]. apply (found y o2); [exact Ho2|].
      eapply runs_bind_done; [apply runs_get; instantiate (1 := fun p st' => p = content st o2 /\ st' = st); now split|]. intros chi st' [-> ->]. cbn [shape_of] in *. pose proof Hc as Hc'. pose proof Hc2 as Hc2'. rewrite Es, Es2 in *.
      destruct Hc' as (_ & _ & Hc'). destruct Hc2' as [_ Hc2']. rewrite <- Es in Hc.
      eapply (rows_good _ s o st V B n f _ (if (b <? B) && (n =? m) then Some (fun b' => if b' =? b then phi else f b') else None)); try assumption; [|now apply (vstep_set_at s b y V B n f m phi)].
      pose proof (run_bop_ok B n (BoSetAt b m (content st o2)) f (World (content st o) None [] (st_rand st)) Hc' ltac:(discriminate)) as H. cbn [family_op] in H.
      destruct ((b <? B) && (n =? m)) eqn:E; [|exact H]. apply andb_true_iff in E. destruct E as [E1 E2]. apply N.eqb_eq in E2. subst m. cbn [on_batches] in *.
      eapply runs_weaken; [exact H|]. intros [t w'|w'|]; cbn [done]; auto. intros (A1 & A2). split; [|exact A2]. intros b' i Hb Hi. rewrite (A1 b' i Hb Hi). destruct (b' =? b); [|reflexivity]. now apply Hc2'.
    - (* OSetAll *) destruct Hok as [(B & n & f & HV) (m & phi & HV2)].
      destruct (bound st V s _ HI HV) as (o & Ho & Es & _ & Hsh & Hc). destruct (bound st V y _ HI HV2) as (o2 & Ho2 & Es2 & _ & Hsh2 & Hc2). apply (found s o); [exact Ho|]. apply (found y o2); [exact Ho2|].
      eapply runs_bind_done; [apply runs_get; instantiate (1 := fun p st' => p = content st o2 /\ st' = st); now split|]. intros chi st' [-> ->]. cbn [shape_of] in *. pose proof Hc as Hc'. pose proof Hc2 as Hc2'. rewrite Es, Es2 in *.
      destruct Hc' as (_ & _ & Hc'). destruct Hc2' as [_ Hc2']. rewrite <- Es in Hc.
      assert (Hne : o_buf o <> o_buf o2). { apply (inv_apart _ _ HI s y); [|exact Ho|exact Ho2]. intros ->. congruence. } apply Nat.eqb_neq in Hne. rewrite Hne.
      eapply (rows_good _ s o st V B n f _ (if n =? m then Some (fun _ => phi) else None)); try assumption; [|now apply (vstep_set s y V B n f m phi)].
      pose proof (run_bop_ok B n (BoSet m (content st o2)) f (World (content st o) None [] (st_rand st)) Hc' ltac:(discriminate)) as H. cbn [family_op] in H.
      destruct (N.eqb_spec n m) as [<-|]; [|exact H]. cbn [on_batches] in *.
      eapply runs_weaken; [exact H|]. intros [t w'|w'|]; cbn [done]; auto. intros (A1 & A2). split; [|exact A2]. intros b' i Hb Hi. rewrite (A1 b' i Hb Hi). now apply Hc2'.
  Qed.

  Theorem values_ok l : forall st V, inv st V -> Forall separate_op l -> prog_ok l V ->
    runs (orun L l) st (fun o => exists r, vrun l V r /\ match o, r with HDone _ st, VDone V' => inv st V' | HThrown st, VThrown V' => inv st V' | _, _ => False end).
  Proof.
    induction l as [|op l IH]; intros st V HI Hsep Hok; cbn [orun fold_right].
    - apply runs_ret. exists (VDone V). split; [constructor|exact HI].
    - inversion Hsep; subst. destruct Hok as [Ho Hr]. eapply runs_bind; [apply step_good; eassumption| | |].
      + intros [] st1 (r & Hs & HI1). destruct r as [V1|V1]; [|contradiction]. eapply runs_weaken; [apply (IH st1 V1 HI1); [assumption|now apply Hr]|].
        intros o (r & Hv & Hm). exists r. split; [|exact Hm]. econstructor; eassumption.
      + intros st1 (r & Hs & HI1). destruct r as [V1|V1]; [contradiction|]. exists (VThrown V1). split; [now constructor|exact HI1].
      + intros (r & Hs & HI1). destruct r; contradiction.
  Qed.
End Step.

Theorem values_program L h r l : lanes_ok L -> (forall k, unit_draw (r k)) -> Forall separate_op l -> prog_ok l (VState (fun _ => None) r) ->
  runs (orun L l) (start h r) (fun o => exists v, vrun l (VState (fun _ => None) r) v /\ finishes o v).
Proof.
  intros HL Hr Hsep Hok. eapply runs_weaken; [apply (values_ok L HL l (start h r) (VState (fun _ => None) r)); [|exact Hsep|exact Hok]|].
  - split; [split; [intros x; exact I|reflexivity]|intros x o H; discriminate H|intros x y ox oy _ H; discriminate H|intros x o H; discriminate H|exact Hr].
  - intros o (v & Hv & Hm). exists v. split; [exact Hv|]. destruct o, v; cbn [finishes] in *; try contradiction; apply Hm.
Qed.
