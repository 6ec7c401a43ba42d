(** Where the method is wrong: controlled rotations, inverted Pauli rotations, observables on more qubits. *)
From Verif Require Export GradientProofs6.

Lemma contribution_general eps n L g pc w : n < 64 -> lanes_ok L -> match g with PProb _ _ _ => False | _ => True end ->
  pauli_coef_of eps g = Ok pc -> let s := (param_coef g * pc)%R in tiny s double_epsilon = false ->
  gate_wf (pgate_at g (- PI / s)) -> gate_fits n (pgate_at g (- PI / s)) ->
  runs (contribution eps n n L g) w (done (fun r w' => r = (- s * Re (inner n (gw_bistate w) (gate_sem (pgate_at g (- PI / s)) (gw_state w))))%R /\
    gw_state w' = gw_state w /\ gw_bistate w' = gw_bistate w)).
Proof.
  intros Hn HL Hg Hpc s Hs Hw Hf. unfold contribution. rewrite Hpc. cbn [hlift].
  eapply runs_bind_done; [apply runs_ret; instantiate (1 := fun t w1 => t = pc /\ w1 = w); cbn [done]; auto|]. intros t w1 [-> ->]. cbn zeta. fold s.
  rewrite Hs. cbn [negb hcheck].
  eapply runs_bind_done; [apply runs_ret; instantiate (1 := fun _ w1 => w1 = w); reflexivity|]. intros _ w1 ->.
  eapply runs_bind_done; [apply on_copy_runs; apply pgate_runs; assumption|].
  intros A w1 (w2 & HA & -> & ->). cbn [gw_bistate gw_state].
  eapply runs_bind_done.
  { apply on_bistate_runs. instantiate (1 := fun r w3 => r = inner n (gw_bistate w) (w_amp w2) /\ w_amp w3 = gw_bistate w). cbn [gw_bistate].
    eapply runs_weaken; [apply inner_product_ok|]. intros o ->. cbn [done w_amp]. auto. }
  intros ip w3 (w4 & [-> E4] & ->). apply runs_ret. cbn [done gw_state gw_bistate]. rewrite E4. split; [|auto].
  rewrite (inner_ext n (gw_bistate w) (w_amp w2) (gw_bistate w) (gate_sem (pgate_at g (- PI / s)) (gw_state w))); [reflexivity|reflexivity|exact HA].
Qed.
Lemma single_gradient eps L o ps w g key v pc : lanes_ok L -> let c := Circuit [IParam g key] [None] in let n := required_n_qubits c in n < 64 ->
  o_herm o = true -> op_fits n o -> match g with PProb _ _ _ => False | _ => True end -> ps key = Some v ->
  pauli_coef_of eps g = Ok pc -> let s := (param_coef g * pc)%R in tiny s double_epsilon = false ->
  (forall u, gate_wf (pgate_at g u) /\ gate_fits n (pgate_at g u)) ->
  let psi := gate_sem (pgate_at g v) (basis 0) in
  runs (compute_expectation_gradient eps L o ps c) w (done (fun gr _ =>
    gr key = Some (- s * Re (inner n (op_act o psi) (gate_sem (pgate_at g (- PI / s)) psi)))%R)).
Proof.
  intros HL c n Hn Hh Hfo Hg Hps Hpc s Hs Hwf psi. unfold compute_expectation_gradient. rewrite Hh. cbn [hcheck].
  eapply runs_bind_done; [apply runs_ret; instantiate (1 := fun _ w1 => w1 = w); reflexivity|]. intros _ w1 ->. cbn zeta. fold n.
  eapply runs_bind_done.
  { apply on_state_runs. instantiate (1 := fun _ w1 => forall x, x < 2 ^ n -> w_amp w1 x = basis 0 x). cbn [gw_state].
    eapply runs_weaken; [apply set_zero_state_ok|]. intros [u w'|w'|] H; cbn [done] in *; try contradiction. intros x Hx. destruct H as [H _]. rewrite H by assumption. reflexivity. }
  intros _ w1 (w2 & Hz & ->).
  destruct (Hwf v) as [Hwv Hfv].
  eapply runs_bind_done.
  { apply on_state_runs. instantiate (1 := fun _ w1 => forall x, x < 2 ^ n -> w_amp w1 x = psi x). cbn [gw_state].
    unfold circuit_update_plain. change (has_classical_instructions c) with false. cbn iota.
    eapply runs_bind_done; [apply runs_modify; instantiate (1 := fun _ w1 => w_amp w1 = w_amp w2); reflexivity|]. intros ? w1 E1.
    unfold circuit_update. fold n. rewrite N.leb_refl. cbn [hcheck].
    eapply runs_bind_done; [apply runs_ret; instantiate (1 := fun _ w3 => w3 = w1); reflexivity|]. intros _ w3 ->.
    cbn [keys c c_gates c_conds flat_map app forallb]. rewrite Hps. cbn [andb hcheck].
    eapply runs_bind_done; [apply runs_ret; instantiate (1 := fun _ w3 => w3 = w1); reflexivity|]. intros _ w3 ->.
    cbn [run_items checked_cond]. eapply runs_bind_done; [apply runs_ret; instantiate (1 := fun b w3 => b = true /\ w3 = w1); cbn [done]; auto|]. intros b w3 [-> ->].
    unfold guarded_update. rewrite N.land_0_l, N.eqb_refl. cbn [hcheck].
    eapply runs_bind_done.
    { eapply runs_bind_done; [apply runs_ret; instantiate (1 := fun _ w3 => w3 = w1); reflexivity|]. intros _ w3 ->.
      cbn [item_update]. rewrite Hps. cbn [opt_res hlift].
      eapply runs_bind_done.
      { eapply runs_bind_done; [apply runs_ret; instantiate (1 := fun t w3 => t = v /\ w3 = w1); cbn [done]; auto|]. intros th w3 [-> ->]. apply pgate_runs; assumption. }
      intros u w4 Hw4. apply runs_ret. instantiate (1 := fun _ w4 => forall x, x < 2 ^ n -> w_amp w4 x = gate_sem (pgate_at g v) (w_amp w1) x). exact Hw4. }
    intros m w4 Hw4. apply runs_ret. cbn [done]. intros x Hx. rewrite Hw4 by assumption. rewrite E1. unfold psi.
    apply (gate_sem_ext n 1); try assumption; [|lia]. intros y Hy. apply Hz. lia. }
  intros _ w1 (w3 & Hst & ->). cbn [gw_state gw_bistate gw_rand w_amp] in *.
  eapply runs_bind_done; [apply runs_modify; instantiate (1 := fun _ w1 => gw_state w1 = w_amp w3 /\ gw_bistate w1 = w_amp w3); cbn [done gw_state gw_bistate]; auto|].
  intros _ w1 [Es Eb].
  eapply runs_bind_done; [apply apply_to_bistate_runs; [lia|exact Hfo]|]. intros _ w4 [Es4 Eb4].
  unfold compute_expectation_gradient_backprop. cbn [c c_gates rev app backprop_items].
  destruct (Hwf (- PI / s)%R) as [Hws Hfs].
  eapply runs_bind_done; [exact (contribution_general eps n L g pc w4 Hn HL Hg Hpc Hs Hws Hfs)|]. intros r w5 (Er & Es5 & Eb5). cbn zeta. fold s in Er.
  assert (Hinv : exists g', p_inverse g = Ok g' /\ (forall u, pgate_at g' u = pgate_at g (- u)) /\ match g' with PProb _ _ _ => False | _ => True end).
  { destruct g; [| |contradiction]; eexists; (split; [reflexivity|]); (split; [intros u; cbn [pgate_at]|exact I]);
    (replace (- pcoef * u)%R with (pcoef * - u)%R by ring; reflexivity). }
  destruct Hinv as (g' & Hg' & Hat & Hnp). rewrite Hg'. cbn [hlift].
  eapply runs_bind_done; [apply runs_ret; instantiate (1 := fun r w2 => r = g' /\ w2 = w5); cbn [done]; auto|]. intros r2 w6 [-> ->].
  rewrite Hps. cbn [opt_res hlift].
  eapply runs_bind_done; [apply runs_ret; instantiate (1 := fun r w2 => r = v /\ w2 = w5); cbn [done]; auto|]. intros r2 w6 [-> ->].
  destruct (Hwf (- v)%R) as [Hw' Hf']. rewrite <- Hat in Hw', Hf'.
  eapply runs_bind_done; [apply on_bistate_runs, pgate_runs; assumption|]. intros ? w6 (w7 & _ & ->).
  eapply runs_bind_done; [apply on_state_runs, pgate_runs; assumption|]. intros ? w6 (w8 & _ & ->).
  apply runs_ret. cbn [done]. unfold gradient_add. rewrite String.eqb_refl. unfold gradient_start.
  change (keys c) with [key]. cbn [existsb]. rewrite String.eqb_refl. cbn [orb]. f_equal. rewrite Er, Rplus_0_l. do 2 f_equal.
  apply inner_ext.
  - intros x Hx. rewrite Eb4 by assumption. rewrite Eb. unfold op_act, terms_act. apply Csuml_ext. intros p Hp. rewrite !pauli_act_eq. f_equal. apply Hst.
    apply lxor_lt_pow2; [assumption|]. unfold op_fits in Hfo. rewrite Forall_forall in Hfo. apply Hfo; assumption.
  - intros x Hx. rewrite Es4, Es. apply (gate_sem_ext n 1); try assumption; [|lia]. intros y Hy. apply Hst. lia.
Qed.
