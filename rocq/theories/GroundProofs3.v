(** What the power method returns, how good it is, and where it fails. *)
From Verif Require Export GroundProofs2.
From Coq Require Import Lia Lra Psatz.
Open Scope N_scope.
Open Scope list_scope.

Section Results.
  Variables (o : operator) (n : N).
  Hypothesis Hsol : solvable n o.
  Hypothesis Hherm : o_herm o = true.
  Variables (mu : option C) (w : world).
  Let phi k := shifted_power o (shift_of o mu) k (w_amp w).
  Lemma checks_pass {T} (p : host world T) Q : runs p w Q -> runs (hcheck (negb (N.of_nat (length (o_terms o)) =? 0));~ hcheck (o_herm o);~ p) w Q.
  Proof using Hsol Hherm.
    intros H. destruct Hsol as (_ & _ & _ & Ht). eapply returns_bind; [apply runs_check|].
    { destruct (N.eqb_spec (N.of_nat (length (o_terms o))) 0) as [E|E]; cbn; [|reflexivity]. destruct (o_terms o); [contradiction|cbn in E; lia]. }
    eapply returns_bind; [apply runs_check; rewrite Hherm; reflexivity|exact H].
  Qed.
  Lemma power_along k : sqnorm n (phi k) <> 0%R ->
    solves (solve_ground_state_by_power_method o n k mu) w (fun E psi =>
      (forall x, x < 2 ^ n -> psi x = Cscale (match k with O => 1 | _ => / sqrt (sqnorm n (phi k)) end)%R (phi k x)) /\ E = inner n psi (op_act o psi)).
  Proof using Hsol Hherm.
    intros Hnz. destruct Hsol as (H0 & H63 & Hf & Ht). apply checks_pass. eapply returns_bind; [apply realized_mu_ok|].
    assert (Ha : along n 1 (phi 0) w). { split; [lra|]. intros x _. unfold phi. cbn [shifted_power]. unfold Cscale. destruct (w_amp w x). cbn. f_equal; ring. }
    eapply runs_bind_done; [apply (power_loop_ok o n H0 H63 Hf (shift_of o mu) (w_amp w) k 0%nat 1%R w Ha)|].
    { now rewrite Nat.add_0_r. }
    intros _ w1 [_ H1]. rewrite Nat.add_0_r in H1. eapply runs_weaken; [apply expectation_value_ok; assumption|].
    intros out ->. cbn [done]. split; [exact H1|reflexivity].
  Qed.
  Theorem power_result k : sqnorm n (phi k) <> 0%R ->
    solves (solve_ground_state_by_power_method o n k mu) w (fun E psi =>
      (forall x, x < 2 ^ n -> psi x = if Nat.eqb k 0 then w_amp w x else Cscale (/ sqrt (sqnorm n (phi k))) (phi k x)) /\ E = inner n psi (op_act o psi)).
  Proof using Hsol Hherm.
    intros Hnz. eapply runs_weaken; [apply (power_along k Hnz)|]. intros [E w'|w'|] H; cbn [done] in *; try contradiction. destruct H as [H1 H2]. split; [|exact H2].
    intros x Hx. rewrite (H1 x Hx). destruct k; [|reflexivity]. unfold phi. cbn [shifted_power Nat.eqb]. unfold Cscale. destruct (w_amp w x). cbn. f_equal; ring.
  Qed.
  Theorem power_undefined k : (0 < k)%nat -> sqnorm n (phi k) = 0%R -> undefined (solve_ground_state_by_power_method o n k mu) w.
  Proof using Hsol Hherm.
    intros Hk Hz. destruct Hsol as (H0 & H63 & Hf & Ht). apply checks_pass. eapply returns_bind; [apply realized_mu_ok|].
    assert (Ha : along n 1 (phi 0) w). { split; [lra|]. intros x _. unfold phi. cbn [shifted_power]. unfold Cscale. destruct (w_amp w x). cbn. f_equal; ring. }
    eapply runs_bind; [apply (power_loop_undefined o n H0 H63 Hf (shift_of o mu) (w_amp w) k 0%nat 1%R w Ha Hk)| | |]; [now rewrite Nat.add_0_r|intros ? ? [=]|intros ? [=]|reflexivity].
  Qed.

  (** For a self-adjoint operator and a normalised start *)
  Hypothesis Hsa : self_adjoint n (op_act o).
  Hypothesis Hone : sqnorm n (w_amp w) = 1%R.
  Lemma scaled_energy c u v : (forall x, x < 2 ^ n -> v x = Cscale c (u x)) -> inner n v (op_act o v) = RtoC (c * c * quad n (op_act o) u).
  Proof using Hsol Hsa.
    intros H. destruct Hsol as (_ & _ & Hf & _).
    assert (Hv : forall x, x < 2 ^ n -> v x = (C0 + RtoC c * u x)%C) by (intros x Hx; rewrite (H x Hx); c_eq; cbn; ring).
    rewrite (inner_ext n v _ (fun x => C0 + RtoC c * u x)%C (op_act o (fun x => C0 + RtoC c * u x)%C)); [|exact Hv|apply (op_act_local n o Hf); exact Hv].
    rewrite (quad_real n (op_act o) _ Hsa). f_equal. rewrite (quad_add n (op_act o) (fun _ => C0) u c (op_act_linear o) Hsa).
    assert (Ez : forall z, inner n (fun _ => C0) z = C0). { intros z. unfold inner. rewrite (Csum_ext _ _ (fun _ => C0)); [now apply Csum_zero|]. intros. c_eq; cbn; ring. }
    unfold quad at 1. rewrite !Ez. cbn. ring.
  Qed.
  Lemma norm_sq k : sqnorm n (phi k) <> 0%R -> let c := match k with O => 1 | _ => / sqrt (sqnorm n (phi k)) end%R in (c * c = / sqnorm n (phi k))%R.
  Proof using Hone.
    intros Hnz c. pose proof (sqnorm_nonneg n (phi k)). unfold c. destruct k.
    - unfold phi. cbn [shifted_power]. rewrite Hone. field.
    - rewrite <- Rinv_mult. now rewrite sqrt_sqrt.
  Qed.
  Theorem power_energy k : sqnorm n (phi k) <> 0%R ->
    solves (solve_ground_state_by_power_method o n k mu) w (fun E psi => E = RtoC (rayleigh n o (phi k)) /\ sqnorm n psi = 1%R).
  Proof using Hsol Hherm Hsa Hone.
    intros Hnz. eapply runs_weaken; [apply (power_along k Hnz)|]. intros [E w'|w'|] H; cbn [done] in *; try contradiction. destruct H as [H1 ->].
    pose proof (norm_sq k Hnz) as Hc. cbv zeta in Hc. split.
    - rewrite (scaled_energy _ _ _ H1), Hc. unfold rayleigh, quad. f_equal. field. exact Hnz.
    - rewrite (sqnorm_ext n _ _ H1), sqnorm_real_scale, Hc. field. exact Hnz.
  Qed.
  Theorem power_variational k lambda : sqnorm n (phi k) <> 0%R -> energy_at_least n o lambda ->
    solves (solve_ground_state_by_power_method o n k mu) w (fun E psi => snd E = 0%R /\ (lambda <= fst E)%R /\ sqnorm n psi = 1%R).
  Proof using Hsol Hherm Hsa Hone.
    intros Hnz Hl. eapply runs_weaken; [apply (power_energy k Hnz)|]. intros [E w'|w'|] H; cbn [done] in *; try contradiction. destruct H as [-> H]. split; [reflexivity|]. split; [|exact H].
    cbn. unfold rayleigh. specialize (Hl (phi k)). pose proof (sqnorm_nonneg n (phi k)). apply Rmult_le_reg_r with (sqnorm n (phi k)); [lra|].
    unfold Rdiv. rewrite Rmult_assoc, Rinv_l, Rmult_1_r by assumption. exact Hl.
  Qed.
  Variable m : R.
  Hypothesis Hmu : shift_of o mu = RtoC m.
  Hypothesis Hup : energy_at_most n o m.
  Lemma phi_real k : phi k = shifted_power o (RtoC m) k (w_amp w). Proof using Hmu. unfold phi. now rewrite Hmu. Qed.
  Theorem power_never_worse k : sqnorm n (phi (S k)) <> 0%R ->
    solves (solve_ground_state_by_power_method o n k mu) w (fun E _ => solves (solve_ground_state_by_power_method o n (S k) mu) w (fun E' _ => (fst E' <= fst E)%R)).
  Proof using Hsol Hherm Hsa Hone Hmu Hup.
    intros Hnz. destruct Hsol as (H0 & H63 & Hf & Ht). assert (Hnz0 : sqnorm n (phi k) <> 0%R).
    { intros E. apply Hnz. unfold phi in *. cbn [shifted_power]. now apply (vanish o n H0 H63 Hf). }
    eapply runs_weaken; [apply (power_energy k Hnz0)|]. intros [E w'|w'|] H; cbn [done] in *; try contradiction. destruct H as [-> _].
    eapply runs_weaken; [apply (power_energy (S k) Hnz)|]. intros [E w2|w2|] H; cbn [done] in *; try contradiction. destruct H as [-> _].
    cbn [RtoC fst]. rewrite phi_real in *. rewrite (phi_real k) in *. pose proof (sqnorm_nonneg n (shifted_power o (RtoC m) k (w_amp w))). pose proof (sqnorm_nonneg n (shifted_power o (RtoC m) (S k) (w_amp w))).
    apply (energy_mono n o m (w_amp w) Hsa Hup); lra.
  Qed.

  Variables (lambda : R) (g : state).
  Hypothesis Hground : ground_state n o lambda g.
  Hypothesis Hoverlap : inner n g (w_amp w) <> C0.
  Hypothesis Hlt : (lambda < m)%R.
  Lemma residual_value k : sqnorm n (phi k) <> 0%R -> forall psi, (forall x, x < 2 ^ n -> psi x = Cscale (match k with O => 1 | _ => / sqrt (sqnorm n (phi k)) end)%R (phi k x)) ->
    let r := (m - rayleigh n o (phi k))%R in
    residual n o (RtoC (rayleigh n o (phi k))) psi = (sqnorm n (phi (S k)) / sqnorm n (phi k) - r * r)%R.
  Proof using Hsol Hherm Hsa Hone Hmu Hup.
    intros Hnz psi Hpsi r. destruct Hsol as (H0 & H63 & Hf & Ht). set (c := match k with O => 1 | _ => / sqrt (sqnorm n (phi k)) end%R) in *. assert (Hc := norm_sq k Hnz). cbv zeta in Hc. fold c in Hc.
    unfold residual. set (e := rayleigh n o (phi k)) in *.
    rewrite (sqnorm_ext n _ (fun x => Cscale c ((fun y => shifted o (RtoC m) (phi k) y + RtoC r * phi k y)%C x))).
    2:{ intros x Hx. rewrite (op_act_local n o Hf psi (fun x => C0 + RtoC c * phi k x)%C); [|intros y Hy; rewrite (Hpsi y Hy); c_eq; cbn; ring|exact Hx]. rewrite op_act_linear.
        assert (E : op_act o (fun _ => C0) x = C0).
        { pose proof (op_act_linear o (fun _ => C0) (fun _ => C0) (- C1)%C x) as E. rewrite (op_act_local n o Hf _ (fun _ => C0)) in E by (intros; try ring; assumption). rewrite E at 1. ring. }
        rewrite E, (Hpsi x Hx). unfold shifted, r. c_eq; cbn; ring. }
    rewrite sqnorm_real_scale, Hc.
    pose proof (quad_add n same (shifted o (RtoC m) (phi k)) (phi k) r linear_same (self_adjoint_same n)) as Hadd. rewrite !quad_same in Hadd. rewrite Hadd.
    assert (Hq : Re (inner n (shifted o (RtoC m) (phi k)) (same (phi k))) = (- (r * sqnorm n (phi k)))%R).
    { unfold same. rewrite <- (shifted_self_adjoint n o m Hsa). fold (quad n (shifted o (RtoC m)) (phi k)). rewrite quad_shifted. unfold r, e, rayleigh, quad. field. exact Hnz. }
    rewrite Hq. assert (Hs : phi (S k) = shifted o (RtoC m) (phi k)). { unfold phi. cbn [shifted_power]. now rewrite Hmu. }
    rewrite <- Hs. field. exact Hnz.
  Qed.
  Theorem power_converges eps : (0 < eps)%R -> exists K, forall k, (K <= k)%nat ->
    solves (solve_ground_state_by_power_method o n k mu) w (fun E psi =>
      snd E = 0%R /\ (lambda <= fst E < lambda + eps)%R /\ sqnorm n psi = 1%R /\ (residual n o E psi < eps)%R).
  Proof using Hsol Hherm Hsa Hone Hmu Hup Hground Hoverlap Hlt.
    intros He. set (beta := (m - lambda)%R). assert (Hb : (0 < beta)%R) by (unfold beta; lra).
    set (e1 := Rmin eps (eps / beta)%R). assert (He1 : (0 < e1)%R). { unfold e1. apply Rmin_glb_lt; [assumption|]. apply Rmult_lt_0_compat; [assumption|now apply Rinv_0_lt_compat]. }
    destruct (ratio_converges n o m (w_amp w) Hsa Hup lambda g Hground Hoverlap Hlt e1 He1) as [K HK]. cbv beta zeta in HK. exists K. intros k Hk. cbv beta zeta in HK. specialize (HK k Hk). fold beta in HK.
    assert (Hpos := a_pos n o m (w_amp w) Hsa lambda g Hground Hoverlap Hlt k). assert (Hres := residual_bound n o m (w_amp w) Hsa Hup lambda g Hground Hoverlap Hlt k). cbv beta zeta in Hpos, Hres. fold beta in Hres.
    assert (Hen := energy_of n o m (w_amp w) k ltac:(lra)). cbv beta zeta in Hpos, Hres, Hen, HK. rewrite <- (phi_real k) in Hpos, Hres, Hen, HK. rewrite <- (phi_real (S k)) in Hres.
    assert (Hnz : sqnorm n (phi k) <> 0%R) by lra. set (r := (- quad n (shifted o (RtoC m)) (phi k) / sqnorm n (phi k))%R) in *.
    destruct (power_energy k Hnz) as [He2 _]. destruct (power_along k Hnz) as [H1 H2]. split; [|exact H2]. intros out Hout. specialize (H1 out Hout). specialize (He2 out Hout).
    destruct out as [E w'|w'|]; cbn [done] in *; try contradiction. destruct H1 as [H1 _], He2 as [-> Hn1]. cbn [RtoC fst snd].
    assert (Hm1 : (e1 <= eps)%R) by apply Rmin_l. assert (Hm2 : (e1 <= eps / beta)%R) by apply Rmin_r.
    split; [reflexivity|]. split; [rewrite Hen; unfold beta in *; lra|]. split; [exact Hn1|].
    rewrite (residual_value k Hnz _ H1). replace (m - rayleigh n o (phi k))%R with r by (rewrite Hen; lra). eapply Rle_lt_trans; [exact Hres|].
    apply Rlt_le_trans with (beta * e1)%R; [apply Rmult_lt_compat_l; lra|]. apply Rle_trans with (beta * (eps / beta))%R; [apply Rmult_le_compat_l; lra|]. right. field. lra.
  Qed.
End Results.

Theorem power_throws o n k mu w : o_terms o = [] \/ o_herm o = false -> throws (solve_ground_state_by_power_method o n k mu) w.
Proof.
  intros H. unfold solve_ground_state_by_power_method.
  destruct (N.eqb_spec (N.of_nat (length (o_terms o))) 0) as [E|E]; cbn [negb].
  - eapply runs_bind; [apply runs_check; instantiate (1 := fun out => out = HThrown w); reflexivity| | |]; [intros ? ? [=]|intros ? [= ->]; reflexivity|intros [=]].
  - destruct H as [H|H]; [rewrite H in E; cbn in E; lia|]. eapply returns_bind; [apply runs_check; reflexivity|].
    rewrite H. eapply runs_bind; [apply runs_check; instantiate (1 := fun out => out = HThrown w); reflexivity| | |]; [intros ? ? [=]|intros ? [= ->]; reflexivity|intros [=]].
Qed.
