(** The back propagation as a whole. *)
From Verif Require Export GradientProofs3.

(** the object of a rotation, whichever way it was made *)
Lemma turn_item vf k key g key' : layer_item vf (Turn k key) (IParam g key') ->
  key' = key /\ exists g1, make_param vf k = Ok g1 /\ (g = g1 \/ exists kk b pc, g = PRot false kk b pc /\ g1 = PRot true kk b pc).
Proof.
  intros [-> [H|(Hk & g0 & H0 & Hi)]]; (split; [reflexivity|]); [eauto|]. destruct k as [k t pc cs vs|]; [|contradiction].
  cbn [pcall_opposite make_param] in *. inv_bind H0. inv_bind H0. destruct v0 as [[t' c] cv]. inv_bind H0. injection H0 as <-. cbn [p_inverse] in Hi. injection Hi as <-.
  cbn [bindR]. try rewrite E. cbn [bindR]. rewrite E0. cbn [bindR]. rewrite E1. cbn [bindR]. eexists. split; [reflexivity|]. right.
  rewrite Ropp_involutive. eauto 6.
Qed.
Definition layer_operands (l : layer) : list N := match l with Fixed k => call_operands k | Turn k _ => call_operands (pcall_at k 0) end.
Lemma tiny_false x b : (b <= Rabs x)%R -> tiny x b = false.
Proof. intros H. unfold tiny. destruct (Rlt_dec _ _); [lra|reflexivity]. Qed.
Lemma differentiable_plain l : differentiable l -> plain_layer l.
Proof. destruct l as [|[] ]; cbn; [auto| |]; intros (_ & _ & H); [assumption|]. destruct H as (? & ? & _). auto. Qed.

Lemma bits_below m n : Forall (fun q => q < n) (bits m) -> m < 2 ^ n.
Proof.
  intros H. apply lt_pow2_testbit. intros i Hi. apply not_true_is_false. intros Ht. apply in_bits in Ht. rewrite Forall_forall in H. specialize (H i Ht). lia.
Qed.
Lemma generator_fits n k : Forall (fun q => q < n) (call_operands (pcall_at k 0)) -> p_bf (generator k) < 2 ^ n.
Proof.
  intros H. unfold call_operands in H. apply Forall_app in H. destruct H as [H _]. destruct k as [k t pc cs vs|p pc cs vs]; cbn [pcall_at call_targets] in H.
  - inversion H; subst. destruct k; cbn [generator p_bf]; try (apply N.pow_lt_mono_r; lia). apply pow2_pos.
  - cbn [generator p_bf]. apply bits_below in H. rewrite lt_pow2_iff in *. intros i Hi. specialize (H i Hi). rewrite N.lor_spec in H. now apply orb_false_iff in H.
Qed.
Section Backprop.
  Variables (eps : R) (n L : N) (ps : params) (val : string -> R).
  Hypotheses (Heps : (0 < eps)%R) (Hn : n < 64) (HL : lanes_ok L).

  Lemma contribution_runs vf k key g w : differentiable (Turn k key) -> layer_item vf (Turn k key) (IParam g key) ->
    Forall (fun q => q < n) (layer_operands (Turn k key)) ->
    runs (contribution eps n n L g) w (done (fun r w' =>
      r = (2 * Re (inner n (gw_bistate w) (fun x => Cscale (- turn_scale k / 2) Ci * gen k (gw_state w) x)%C))%R /\
      gw_state w' = gw_state w /\ gw_bistate w' = gw_bistate w)).
  Proof using All.
    intros Hd Hi HF. cbn [differentiable layer_operands] in *. destruct Hd as (Hty & Hs & Hc).
    assert (Hp : plain_turn k) by (destruct k; cbn in *; [assumption|]; destruct Hc as (? & ? & _); auto).
    destruct (turn_item vf k key g key Hi) as (_ & g1 & Hm & Hg).
    assert (Hat : forall v, pgate_at g v = pgate_at g1 v) by (intros v; destruct Hg as [->|(kk & b & pc & -> & ->)]; reflexivity).
    assert (Hsc : exists pc, pauli_coef_of eps g = Ok pc /\ (param_coef g * pc)%R = turn_scale k).
    { destruct k as [k t pc cs vs|p pc cs vs]; cbn [make_param] in Hm; inv_bind Hm; inv_bind Hm; destruct v0 as [[t' c] cv]; inv_bind Hm; injection Hm as <-.
      - exists 1%R. destruct Hg as [->|(kk & b & pc' & -> & E3)]; cbn [pauli_coef_of param_coef turn_scale]; [|injection E3 as -> -> ->]; (split; [reflexivity|ring]).
      - destruct Hg as [->|(kk & b & pc' & -> & E3)]; [|discriminate]. destruct Hc as (_ & Hre & Hab). exists (fst (p_coef p)). cbn [pauli_coef_of param_coef turn_scale].
        assert (Hb : tiny (snd (p_coef p)) eps = true) by (unfold tiny; rewrite Hre, Rabs_R0; destruct (Rlt_dec 0 eps); [reflexivity|contradiction]).
        rewrite Hb, tiny_false by exact Hab. cbn [negb]. split; [reflexivity|ring]. }
    destruct Hsc as (pc & Hpc & Hscale). unfold contribution. rewrite Hpc. cbn [hlift].
    eapply runs_bind_done; [apply runs_ret; instantiate (1 := fun t w1 => t = pc /\ w1 = w); cbn [done]; auto|]. intros t w1 [-> ->]. cbn zeta. rewrite Hscale.
    rewrite tiny_false by exact Hs. cbn [negb hcheck].
    eapply runs_bind_done; [apply runs_ret; instantiate (1 := fun _ w1 => w1 = w); reflexivity|]. intros _ w1 ->.
    set (s := turn_scale k) in *.
    assert (Hs0 : s <> 0%R). { intros E. rewrite E, Rabs_R0 in Hs. assert (0 < / 2 ^ 52)%R by (apply Rinv_0_lt_compat; apply pow_lt; lra). lra. }
    destruct (make_param_at vf k g1 (- PI / s) Hm) as [Hm' Hg1].
    assert (HF' : Forall (fun q => q < n) (call_operands (pcall_at k (- PI / s)))) by (destruct k; exact HF).
    destruct (call_sem vf _ _ n Hn (pcall_typed_at k _ Hty) Hm' HF') as (Hw & Hfit & Hf).
    eapply runs_bind_done.
    { apply on_copy_runs. apply pgate_runs; [assumption|assumption| |rewrite Hat; assumption|rewrite Hat; assumption].
      destruct Hg as [->|(kk & b & pc' & -> & _)]; [assumption|exact I]. }
    intros A w1 (w2 & HA & -> & ->). cbn [gw_bistate gw_state].
    eapply runs_bind_done.
    { apply on_bistate_runs. instantiate (1 := fun r w3 => r = inner n (gw_bistate w) (w_amp w2) /\ w_amp w3 = gw_bistate w). cbn [gw_bistate].
      eapply runs_weaken; [apply inner_product_ok|]. intros o ->. cbn [done w_amp]. auto. }
    intros ip w3 (w4 & [-> E4] & ->). apply runs_ret. cbn [done gw_state gw_bistate]. rewrite E4. split; [|auto].
    rewrite (inner_ext n _ _ (gw_bistate w) (fun x => (Ci * gen k (gw_state w) x)%C)); [|reflexivity|].
    - assert (E : forall c f, inner n (gw_bistate w) (fun x => (c * f x)%C) = (c * inner n (gw_bistate w) f)%C).
      { intros c f. unfold inner. rewrite <- Csum_mul_l. apply Csum_ext. intros; ring. }
      rewrite !E. destruct (inner n (gw_bistate w) (gen k (gw_state w))) as [a b]. unfold Re, Cscale. simpl. field.
    - intros x Hx. rewrite HA by assumption. rewrite Hat. cbn [w_amp]. rewrite <- Hf. rewrite turn_eq by assumption. fold s.
      replace (s * (- PI / s) / 2)%R with (- (PI / 2))%R by (field; assumption). rewrite cos_neg, sin_neg, cos_PI2, sin_PI2. c_eq; simpl; ring.
  Qed.

  Lemma inner_add a f g : inner n a (fun x => (f x + g x)%C) = (inner n a f + inner n a g)%C.
  Proof using. unfold inner. rewrite <- Csum_add. apply Csum_ext. intros; ring. Qed.

  (** The gates of the reversed circuit [rl], started with the vector they lead to. *)
  Lemma backprop_items_runs vf psi0 rl items : Forall2 (layer_item vf) rl items -> Forall differentiable rl ->
    Forall (fun l => Forall (fun q => q < n) (layer_operands l)) rl ->
    (forall key, In key (layer_keys rl) -> ps key = Some (val key)) ->
    forall w grad, (forall x, x < 2 ^ n -> gw_state w x = rpsi val psi0 rl x) -> (forall key, In key (layer_keys rl) -> grad key <> None) ->
    runs (backprop_items eps n n L ps items grad) w (done (fun g w' =>
      (forall x, x < 2 ^ n -> gw_state w' x = psi0 x) /\
      forall key, g key = option_map (fun v => v + 2 * Re (inner n (gw_bistate w) (rdel val key psi0 rl)))%R (grad key))).
  Proof using All.
    intros H2. induction H2 as [|l i rl items Hi H2 IH]; intros Hd HF Hps w grad Hst Hgr.
    { apply runs_ret. cbn [done]. split; [exact Hst|]. intros key. cbn [rdel]. destruct (grad key) as [v|]; [|reflexivity]. cbn [option_map]. f_equal.
      assert (E : inner n (gw_bistate w) (fun _ => C0) = C0) by (unfold inner; apply Csum_zero; intros; ring). rewrite E. unfold Re. simpl. ring. }
    inversion Hd as [|? ? Hd1 Hd2]; subst. inversion HF as [|? ? HF1 HF2]; subst.
    destruct l as [k|k key0].
    - destruct i as [[[t g]| |]|]; try contradiction. cbn [layer_item] in Hi. destruct Hd1 as (Hty & Hun & Hinv & Hhas).
      destruct (fixed_inverse vf k g n t Hn Hty Hi Hun Hinv Hhas HF1) as (g' & Hg' & Hw' & Hf' & Hback & Hadj).
      cbn [backprop_items]. rewrite Hg'. cbn [hlift].
      eapply runs_bind_done; [apply runs_ret; instantiate (1 := fun r w1 => r = CElem (false, g') /\ w1 = w); cbn [done]; auto|]. intros r w1 [-> ->].
      eapply runs_bind_done; [apply on_bistate_runs, elem_runs; assumption|]. intros ? w1 (w2 & Ha2 & ->).
      eapply runs_bind_done; [apply on_state_runs, elem_runs; assumption|]. intros ? w1 (w3 & Ha3 & ->).
      cbn [gw_state gw_bistate w_amp] in *. unfold computes_amp in Ha2, Ha3. cbn [w_amp] in *.
      assert (Hst' : forall x, x < 2 ^ n -> w_amp w3 x = rpsi val psi0 rl x).
      { intros x Hx. rewrite Ha3 by assumption. rewrite (gate_sem_ext n 1 g' _ (call_act k (rpsi val psi0 rl)) x Hw' Hf'); [apply Hback| |lia].
        intros y Hy. apply Hst. lia. }
      eapply runs_weaken; [apply (IH Hd2 HF2 Hps (GWorld (w_amp w3) (w_amp w2) (w_rand w3)) grad Hst' Hgr)|].
      intros [gg ww|ww|] HH; cbn [done] in *; try contradiction. destruct HH as [HH1 HH2]. split; [exact HH1|]. intros key. rewrite HH2.
      destruct (grad key) as [v|]; [|reflexivity]. cbn [option_map gw_bistate]. do 3 f_equal.
      rewrite (inner_ext n (w_amp w2) (rdel val key psi0 rl) (gate_sem g' (gw_bistate w)) (rdel val key psi0 rl)); [|exact Ha2|reflexivity].
      rewrite Hadj. apply f_equal. apply inner_ext; [reflexivity|]. intros x _. cbn [rdel extra layer_act]. ring.
    - destruct i as [|g key']; [contradiction|]. destruct (turn_item vf k key0 g key' Hi) as (-> & g1 & Hm & Hg).
      cbn [backprop_items]. eapply runs_bind_done; [exact (contribution_runs vf k key0 g w Hd1 Hi HF1)|]. intros r w1 (Er & Es & Eb). cbn zeta.
      pose proof (differentiable_plain _ Hd1) as Hp. cbn [plain_layer] in Hp. destruct Hd1 as (Hty & Hs & _).
      destruct (turn_inverse vf k g1 n (val key0) Hn Hty Hp Hm HF1) as (g' & Hg' & Hw' & Hf' & Hnp & Hback & Hadj).
      assert (Hgi : exists g2, p_inverse g = Ok g2 /\ (forall v, pgate_at g2 v = pgate_at g' v) /\ match g2 with PProb _ _ _ => False | _ => True end).
      { destruct Hg as [->|(kk & b & pc & -> & ->)]; [eauto|]. cbn [p_inverse] in Hg' |- *. injection Hg' as <-. eexists. split; [reflexivity|]. split; [reflexivity|exact I]. }
      destruct Hgi as (g2 & Hg2 & Hat & Hnp2). rewrite Hg2. cbn [hlift].
      eapply runs_bind_done; [apply runs_ret; instantiate (1 := fun r w2 => r = g2 /\ w2 = w1); cbn [done]; auto|]. intros r2 w2 [-> ->].
      rewrite (Hps key0) by (left; reflexivity). cbn [opt_res hlift].
      eapply runs_bind_done; [apply runs_ret; instantiate (1 := fun r w2 => r = val key0 /\ w2 = w1); cbn [done]; auto|]. intros r2 w2 [-> ->].
      rewrite <- Hat in Hw', Hf', Hback, Hadj.
      eapply runs_bind_done; [apply on_bistate_runs, pgate_runs; assumption|]. intros ? w3 (w2 & Ha2 & ->).
      eapply runs_bind_done; [apply on_state_runs, pgate_runs; assumption|]. intros ? w4 (w3 & Ha3 & ->).
      cbn [gw_state gw_bistate w_amp] in *. unfold computes_amp in Ha2, Ha3. cbn [w_amp] in *. rewrite Eb in Ha2. rewrite Es in Ha3.
      assert (Hst' : forall x, x < 2 ^ n -> w_amp w3 x = rpsi val psi0 rl x).
      { intros x Hx. rewrite Ha3 by assumption. rewrite (gate_sem_ext n 1 (pgate_at g2 (val key0)) _ (call_act (pcall_at k (val key0)) (rpsi val psi0 rl)) x Hw' Hf'); [apply Hback| |lia].
        intros y Hy. apply Hst. lia. }
      assert (Hgr' : forall key, In key (layer_keys rl) -> gradient_add grad key0 r key <> None).
      { intros key Hk. unfold gradient_add. destruct (String.eqb key key0); [discriminate|]. apply Hgr. right. exact Hk. }
      assert (Hps' : forall key, In key (layer_keys rl) -> ps key = Some (val key)) by (intros key Hk; apply Hps; right; exact Hk).
      eapply runs_weaken; [apply (IH Hd2 HF2 Hps' (GWorld (w_amp w3) (w_amp w2) (w_rand w3)) (gradient_add grad key0 r) Hst' Hgr')|].
      intros [gg ww|ww|] HH; cbn [done] in *; try contradiction. destruct HH as [HH1 HH2]. split; [exact HH1|]. intros key. rewrite HH2. cbn [gw_bistate].
      rewrite (inner_ext n (w_amp w2) (rdel val key psi0 rl) (gate_sem (pgate_at g2 (val key0)) (gw_bistate w)) (rdel val key psi0 rl)); [|exact Ha2|reflexivity].
      rewrite Hadj. change (rdel val key psi0 (Turn k key0 :: rl)) with (fun x => (call_act (pcall_at k (val key0)) (rdel val key psi0 rl) x + extra key (Turn k key0) (rpsi val psi0 (Turn k key0 :: rl)) x)%C).
      rewrite inner_add. unfold gradient_add. destruct (String.eqb_spec key key0) as [->|Hne].
      + destruct (grad key0) as [v|] eqn:Eg; [|exfalso; apply (Hgr key0); [left; reflexivity|exact Eg]]. cbn [option_map]. f_equal. rewrite Er.
        rewrite (inner_ext n (gw_bistate w) (fun x => (Cscale (- turn_scale k / 2) Ci * gen k (gw_state w) x)%C) (gw_bistate w) (extra key0 (Turn k key0) (rpsi val psi0 (Turn k key0 :: rl)))).
        * unfold Re. simpl. ring.
        * reflexivity.
        * intros x Hx. cbn [extra]. rewrite String.eqb_refl. f_equal. rewrite !gen_eq. f_equal. apply Hst.
          apply lxor_lt_pow2; [assumption|now apply generator_fits].
      + destruct (grad key) as [v|]; [|reflexivity]. cbn [option_map]. f_equal.
        assert (E : inner n (gw_bistate w) (extra key (Turn k key0) (rpsi val psi0 (Turn k key0 :: rl))) = C0).
        { unfold inner. apply Csum_zero. intros x _. cbn [extra]. destruct (String.eqb_spec key0 key); [congruence|ring]. }
        rewrite E. unfold Re. simpl. ring.
  Qed.
End Backprop.
