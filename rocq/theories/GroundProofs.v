(** Linear algebra for the ground-state solvers. *)
From Verif Require Export OperatorProofs OperatorProofs2 StateProofs StateProofs2 StateProofs4 GroundSpec.
From Coq Require Import Lia Lra Psatz.
Open Scope N_scope.

(** ** Quadratic forms *)
Lemma pos_quad a b c : (forall t, 0 <= a + 2 * t * b + t * t * c)%R -> (b * b <= a * c)%R.
Proof.
  intros H. assert (Ha : (0 <= a)%R) by (specialize (H 0%R); lra). destruct (Req_dec c 0) as [->|Hc].
  - destruct (Req_dec b 0) as [->|Hb]; [lra|]. exfalso. specialize (H (- (a + 1) / (2 * b))%R).
    replace (a + 2 * (- (a + 1) / (2 * b)) * b + - (a + 1) / (2 * b) * (- (a + 1) / (2 * b)) * 0)%R with (-1)%R in H by (field; lra). lra.
  - assert (Hc' : (0 < c)%R).
    { destruct (Rlt_dec 0 c) as [|Hn]; [assumption|]. exfalso. assert (Hneg : (c < 0)%R) by lra.
      set (t := ((2 * Rabs b + a + 1) / - c + 1)%R). assert (Ht : (1 <= t)%R).
      { unfold t. assert (0 <= (2 * Rabs b + a + 1) / - c)%R; [|lra]. apply Rmult_le_pos; [pose proof (Rabs_pos b); lra|]. left. apply Rinv_0_lt_compat. lra. }
      assert (Htc : (t * - c >= 2 * Rabs b + a + 1)%R).
      { unfold t. rewrite Rmult_plus_distr_r. unfold Rdiv. rewrite Rmult_assoc, Rinv_l by lra. lra. }
      pose proof (H t) as H1. pose proof (Rle_abs b) as H2. assert (H3 : (t * (t * - c) >= t * (2 * Rabs b + a + 1))%R).
      { apply Rmult_ge_compat_l; lra. } assert (t * b <= t * Rabs b)%R by (apply Rmult_le_compat_l; lra). nra. }
    specialize (H (- b / c)%R). replace (a + 2 * (- b / c) * b + - b / c * (- b / c) * c)%R with ((a * c - b * b) / c)%R in H by (field; lra).
    assert (0 <= a * c - b * b)%R; [|lra]. replace (a * c - b * b)%R with ((a * c - b * b) / c * c)%R by (field; lra). apply Rmult_le_pos; lra.
Qed.

(** ** Linear maps on states *)
Definition linear_map (T : state -> state) : Prop := forall a b c x, T (fun y => a y + c * b y)%C x = (T a x + c * T b x)%C.
Definition local (n : N) (T : state -> state) : Prop := forall a b, (forall x, x < 2 ^ n -> a x = b x) -> forall x, x < 2 ^ n -> T a x = T b x.
Definition quad (n : N) (T : state -> state) (u : state) : R := Re (inner n u (T u)).
Definition same (psi : state) : state := psi.

Section Forms.
  Variable n : N.
  Lemma inner_linear_l a b c d : inner n (fun x => a x + c * b x)%C d = (inner n a d + Cconj c * inner n b d)%C.
  Proof. rewrite inner_conj, inner_linear, Cconj_add, Cconj_mul, <- !(inner_conj n _ d). reflexivity. Qed.
  Lemma inner_self u : inner n u u = RtoC (sqnorm n u). Proof. symmetry. apply sqnorm_norm2. Qed.
  Lemma quad_same u : quad n same u = sqnorm n u. Proof. unfold quad, same. now rewrite inner_self. Qed.
  Lemma self_adjoint_same : self_adjoint n same. Proof. intros a b. reflexivity. Qed.
  Lemma linear_same : linear_map same. Proof. intros a b c x. reflexivity. Qed.
  Lemma quad_real T u : self_adjoint n T -> inner n u (T u) = RtoC (quad n T u).
  Proof. intros H. unfold quad. assert (E : inner n u (T u) = Cconj (inner n u (T u))) by (rewrite <- inner_conj; apply H). destruct (inner n u (T u)) as [x y]. injection E as E. unfold RtoC, Re. simpl. f_equal. lra. Qed.
  Lemma quad_add T a b t : linear_map T -> self_adjoint n T ->
    quad n T (fun x => a x + RtoC t * b x)%C = (quad n T a + 2 * t * Re (inner n a (T b)) + t * t * quad n T b)%R.
  Proof.
    intros HT Hs. unfold quad. rewrite (inner_ext n _ (T (fun x => a x + RtoC t * b x)%C) (fun x => a x + RtoC t * b x)%C (fun x => T a x + RtoC t * T b x)%C); [|reflexivity|intros; apply HT].
    rewrite inner_linear, !inner_linear_l. assert (E : inner n b (T a) = Cconj (inner n a (T b))) by (rewrite <- inner_conj; apply Hs). rewrite E.
    unfold Re. destruct (inner n a (T a)), (inner n a (T b)), (inner n b (T b)). cbn. ring.
  Qed.
  Lemma psd_cauchy T a b : linear_map T -> self_adjoint n T -> (forall u, 0 <= quad n T u)%R ->
    (Re (inner n a (T b)) * Re (inner n a (T b)) <= quad n T a * quad n T b)%R.
  Proof. intros HT Hs Hp. apply pos_quad. intros t. rewrite <- quad_add by assumption. apply Hp. Qed.
  Lemma sqnorm_scale c u : sqnorm n (fun x => c * u x)%C = (Cnorm2 c * sqnorm n u)%R.
  Proof. unfold sqnorm. rewrite <- Rsuml_scale. apply Rsuml_ext. intros. apply Cnorm2_mul. Qed.
  Lemma sqnorm_real_scale r u : sqnorm n (fun x => Cscale r (u x)) = (r * r * sqnorm n u)%R.
  Proof. unfold sqnorm. rewrite <- Rsuml_scale. apply Rsuml_ext. intros. apply Cnorm2_scale. Qed.
  (** |<g|u>|^2 <= |g|^2 |u|^2 *)
  Lemma cauchy g u : (Cnorm2 (inner n g u) <= sqnorm n g * sqnorm n u)%R.
  Proof.
    set (c := inner n g u). pose proof (psd_cauchy same g (fun x => Cconj c * u x)%C linear_same self_adjoint_same) as H.
    unfold same in H at 4 5. rewrite !quad_same, sqnorm_scale in H.
    assert (E : inner n g (same (fun x => Cconj c * u x)%C) = RtoC (Cnorm2 c)).
    { unfold same, inner. rewrite (Csum_ext _ _ (fun x => Cconj c * (Cconj (g x) * u x))%C) by (intros; ring). rewrite Csum_mul_l. fold (inner n g u). fold c. now rewrite <- Cnorm2_conj. }
    rewrite E in H. cbn [Re RtoC fst] in H. assert (Hn : Cnorm2 (Cconj c) = Cnorm2 c) by (unfold Cnorm2, Cconj; cbn; ring). rewrite Hn in H.
    specialize (H ltac:(intros; rewrite quad_same; apply sqnorm_nonneg)). pose proof (Cnorm2_nonneg c).
    destruct (Req_dec (Cnorm2 c) 0) as [->|Hc]; [apply Rmult_le_pos; apply sqnorm_nonneg|].
    apply Rmult_le_reg_l with (Cnorm2 c); [lra|]. lra.
  Qed.
End Forms.

(** ** The shifted operator *)
Lemma pauli_act_linear p : linear_map (pauli_act p).
Proof. intros a b c x. rewrite !pauli_act_eq. ring. Qed.
Lemma op_act_linear o : linear_map (op_act o).
Proof.
  intros a b c x. unfold op_act, terms_act. induction (o_terms o) as [|p l IH]; unfold Csuml in *; cbn [map fold_right]; [ring|]. rewrite IH, pauli_act_linear. ring.
Qed.
Lemma op_act_local n o : op_fits n o -> local n (op_act o).
Proof.
  intros Hf a b H x Hx. unfold op_act, terms_act. apply Csuml_ext. intros p Hp. rewrite !pauli_act_eq. f_equal. apply H.
  unfold op_fits in Hf. rewrite Forall_forall in Hf. apply lxor_lt_pow2; [exact Hx|apply (Hf p Hp)].
Qed.
Lemma shifted_linear o mu : linear_map (shifted o mu).
Proof. intros a b c x. unfold shifted. rewrite op_act_linear. ring. Qed.
Lemma shifted_local n o mu : op_fits n o -> local n (shifted o mu).
Proof. intros Hf a b H x Hx. unfold shifted. now rewrite (op_act_local n o Hf a b H x Hx), H. Qed.
Lemma inner_shifted n o mu a b : inner n a (shifted o mu b) = (inner n a (op_act o b) - mu * inner n a b)%C.
Proof. rewrite (inner_ext n a (shifted o mu b) a (fun x => op_act o b x + (- mu) * b x)%C); [|reflexivity|intros; unfold shifted; ring]. rewrite inner_linear. ring. Qed.
Lemma shifted_self_adjoint n o mu : self_adjoint n (op_act o) -> self_adjoint n (shifted o (RtoC mu)).
Proof.
  intros H a b. rewrite inner_shifted, (inner_conj n (shifted o (RtoC mu) a) b), inner_shifted, Cconj_sub, Cconj_mul, <- !(inner_conj n _ b), <- H.
  replace (Cconj (RtoC mu)) with (RtoC mu) by (unfold Cconj, RtoC; cbn; f_equal; ring). reflexivity.
Qed.
Lemma quad_shifted n o mu u : quad n (shifted o (RtoC mu)) u = (quad n (op_act o) u - mu * sqnorm n u)%R.
Proof. unfold quad. rewrite inner_shifted, inner_self. unfold Re. destruct (inner n u (op_act o u)). cbn. ring. Qed.

Section Power.
  Variables (n : N) (o : operator) (mu : R) (psi : state).
  Hypothesis Hfit : op_fits n o.
  Hypothesis Hsa : self_adjoint n (op_act o).
  Hypothesis Hup : energy_at_most n o mu.
  Let S := shifted o (RtoC mu).
  Let phi k := shifted_power o (RtoC mu) k psi.
  Let a k := sqnorm n (phi k).
  Let c k := (- quad n S (phi k))%R.

  Lemma minus_quad u : quad n (fun v x => (- C1) * S v x)%C u = (- quad n S u)%R.
  Proof.
    unfold quad, inner. rewrite (Csum_ext _ _ (fun x => (- C1) * (Cconj (u x) * S u x))%C) by (intros; ring). rewrite Csum_mul_l. unfold Re. destruct (Csum _ _). cbn. ring.
  Qed.
  Lemma minus_psd u : (0 <= quad n (fun v x => (- C1) * S v x)%C u)%R.
  Proof. rewrite minus_quad. unfold S. rewrite quad_shifted. specialize (Hup u). unfold quad. lra. Qed.
  Lemma minus_sa : self_adjoint n (fun v x => (- C1) * S v x)%C.
  Proof.
    intros u v. rewrite (inner_conj n (fun x => _) v). unfold inner. rewrite (Csum_ext _ _ (fun x => (- C1) * (Cconj (u x) * S v x))%C) by (intros; ring).
    rewrite (Csum_ext _ (fun i => Cconj (v i) * _)%C (fun x => (- C1) * (Cconj (v x) * S u x))%C) by (intros; ring). rewrite !Csum_mul_l, Cconj_mul. fold (inner n u (S v)). fold (inner n v (S u)).
    rewrite <- (inner_conj n (S u) v). unfold S. rewrite (shifted_self_adjoint n o mu Hsa u v). replace (Cconj (- C1)%C) with (- C1)%C by (unfold Cconj, Copp, C1; cbn; f_equal; ring). reflexivity.
  Qed.
  Lemma minus_linear : linear_map (fun v x => (- C1) * S v x)%C.
  Proof. intros u v e x. unfold S. rewrite shifted_linear. ring. Qed.
  Lemma a_nonneg k : (0 <= a k)%R. Proof. apply sqnorm_nonneg. Qed.
  Lemma c_nonneg k : (0 <= c k)%R. Proof. unfold c. rewrite <- minus_quad. apply minus_psd. Qed.
  Lemma step_one k : (c k * c k <= a k * a (Datatypes.S k))%R.
  Proof.
    pose proof (psd_cauchy n same (phi k) (phi (Datatypes.S k)) linear_same (self_adjoint_same n) ltac:(intros; rewrite quad_same; apply sqnorm_nonneg)) as H.
    rewrite !quad_same in H. unfold a, c, quad. unfold same in H. change (phi (Datatypes.S k)) with (S (phi k)) in *. lra.
  Qed.
  Lemma step_two k : (a (Datatypes.S k) * a (Datatypes.S k) <= c k * c (Datatypes.S k))%R.
  Proof.
    pose proof (psd_cauchy n _ (phi k) (phi (Datatypes.S k)) minus_linear minus_sa minus_psd) as H. rewrite !minus_quad in H. fold (c k) (c (Datatypes.S k)) in H.
    assert (E : inner n (phi k) (fun x => - C1 * S (phi (Datatypes.S k)) x)%C = RtoC (- a (Datatypes.S k))).
    { unfold inner. rewrite (Csum_ext _ _ (fun x => (- C1) * (Cconj (phi k x) * S (phi (Datatypes.S k)) x))%C) by (intros; ring). rewrite Csum_mul_l.
      fold (inner n (phi k) (S (phi (Datatypes.S k)))). unfold S. rewrite (shifted_self_adjoint n o mu Hsa). change (shifted o (RtoC mu) (phi k)) with (phi (Datatypes.S k)). rewrite inner_self.
      rewrite RtoC_opp. unfold a. ring. }
    rewrite E in H. cbn [Re RtoC fst] in H. lra.
  Qed.
  (** the energy never rises *)
  Lemma ratio_mono k : (0 < a (Datatypes.S k))%R -> (c k * a (Datatypes.S k) <= c (Datatypes.S k) * a k)%R.
  Proof.
    intros Ha. pose proof (step_one k) as H1. pose proof (step_two k) as H2. pose proof (c_nonneg k) as Hc. pose proof (c_nonneg (Datatypes.S k)) as Hc'. pose proof (a_nonneg k) as Ha0.
    destruct (Req_dec (c k) 0) as [E|E]; [rewrite E, Rmult_0_l; now apply Rmult_le_pos|].
    set (x := c k) in *. set (y := c (Datatypes.S k)) in *. set (u := a k) in *. set (v := a (Datatypes.S k)) in *. clearbody x y u v.
    assert (Hx : (0 < x)%R) by lra. assert (Hxv : (0 < x * v)%R) by now apply Rmult_lt_0_compat.
    apply Rmult_le_reg_l with (x * v)%R; [exact Hxv|]. replace (x * v * (x * v))%R with ((x * x) * (v * v))%R by ring. replace (x * v * (y * u))%R with ((u * v) * (x * y))%R by ring.
    apply Rmult_le_compat; [nra|nra|exact H1|exact H2].
  Qed.
  Lemma energy_of k : a k <> 0%R -> rayleigh n o (phi k) = (mu - c k / a k)%R.
  Proof. intros Ha. unfold rayleigh, c, S. rewrite quad_shifted. unfold quad, a. fold (a k). field. exact Ha. Qed.
  Theorem energy_mono k : (0 < a (Datatypes.S k))%R -> (0 < a k)%R -> (rayleigh n o (phi (Datatypes.S k)) <= rayleigh n o (phi k))%R.
  Proof.
    intros H1 H0. rewrite !energy_of by lra. pose proof (ratio_mono k H1) as H. assert (c k / a k <= c (Datatypes.S k) / a (Datatypes.S k))%R; [|lra].
    apply Rmult_le_reg_r with (a k * a (Datatypes.S k))%R; [now apply Rmult_lt_0_compat|].
    replace (c k / a k * (a k * a (Datatypes.S k)))%R with (c k * a (Datatypes.S k))%R by (field; lra).
    replace (c (Datatypes.S k) / a (Datatypes.S k) * (a k * a (Datatypes.S k)))%R with (c (Datatypes.S k) * a k)%R by (field; lra). exact H.
  Qed.

  (** ** Convergence *)
  Variables (lambda : R) (g : state).
  Hypothesis Hground : ground_state n o lambda g.
  Hypothesis Hoverlap : inner n g psi <> C0.
  Hypothesis Hlt : (lambda < mu)%R.
  Let beta := (mu - lambda)%R.
  Lemma c_le k : (c k <= beta * a k)%R.
  Proof. unfold c, S. rewrite quad_shifted. destruct Hground as (Hl & _ & _). specialize (Hl (phi k)). unfold quad, a, beta. fold (a k). unfold a in *. lra. Qed.
  Lemma shifted_ground x : x < 2 ^ n -> S g x = (RtoC (- beta) * g x)%C.
  Proof. intros Hx. unfold S, shifted. destruct Hground as (_ & _ & He). rewrite (He x Hx). unfold beta. c_eq; cbn; ring. Qed.
  Lemma overlap k : inner n g (phi k) = (RtoC ((- beta) ^ k) * inner n g psi)%C.
  Proof.
    induction k as [|k IH]; [cbn [pow phi shifted_power]; fold (phi 0%nat); unfold phi; cbn [shifted_power]; c_eq; cbn; ring|].
    change (phi (Datatypes.S k)) with (S (phi k)). unfold S at 1. rewrite (shifted_self_adjoint n o mu Hsa). fold S.
    rewrite (inner_ext n (S g) (phi k) (fun x => RtoC (- beta) * g x)%C (phi k)); [|exact shifted_ground|reflexivity].
    unfold inner at 1. rewrite (Csum_ext _ _ (fun x => RtoC (- beta) * (Cconj (g x) * phi k x))%C).
    2:{ intros x _. rewrite Cconj_mul. replace (Cconj (RtoC (- beta))) with (RtoC (- beta)) by (unfold Cconj, RtoC; cbn; f_equal; ring). ring. }
    rewrite Csum_mul_l. fold (inner n g (phi k)). rewrite IH. cbn [pow]. rewrite (RtoC_mul (- beta)). ring.
  Qed.
  Lemma G_pos : (0 < sqnorm n g)%R.
  Proof. destruct Hground as (_ & H & _). pose proof (sqnorm_nonneg n g). lra. Qed.
  Definition share : R := (Cnorm2 (inner n g psi) / sqnorm n g)%R.
  Lemma share_pos : (0 < share)%R.
  Proof. unfold share. apply Rmult_lt_0_compat; [|apply Rinv_0_lt_compat, G_pos]. pose proof (Cnorm2_nonneg (inner n g psi)). assert (Cnorm2 (inner n g psi) <> 0%R) by (intros E; apply Hoverlap, Cnorm2_zero, E). lra. Qed.
  Lemma a_large k : ((beta * beta) ^ k * share <= a k)%R.
  Proof.
    pose proof (cauchy n g (phi k)) as H. rewrite overlap, Cnorm2_mul in H. assert (E : Cnorm2 (RtoC ((- beta) ^ k)) = ((beta * beta) ^ k)%R).
    { unfold Cnorm2, RtoC. cbn [fst snd]. replace (beta * beta)%R with ((- beta) * (- beta))%R by ring. rewrite Rpow_mult_distr. ring. }
    rewrite E in H. unfold share, a. pose proof G_pos. apply Rmult_le_reg_l with (sqnorm n g); [assumption|]. unfold Rdiv.
    replace (sqnorm n g * ((beta * beta) ^ k * (Cnorm2 (inner n g psi) * / sqnorm n g)))%R with ((beta * beta) ^ k * Cnorm2 (inner n g psi))%R by (field; lra). exact H.
  Qed.
  Lemma beta_pos : (0 < beta)%R. Proof. unfold beta. lra. Qed.
  Lemma a_pos k : (0 < a k)%R.
  Proof. eapply Rlt_le_trans; [|apply a_large]. apply Rmult_lt_0_compat; [apply pow_lt; pose proof beta_pos; nra|apply share_pos]. Qed.
  Lemma ratio_steps i k : (i <= k)%nat -> (c i / a i <= c k / a k)%R.
  Proof.
    induction 1 as [|k _ IH]; [lra|]. eapply Rle_trans; [exact IH|]. pose proof (ratio_mono k (a_pos _)) as H. pose proof (a_pos k). pose proof (a_pos (Datatypes.S k)).
    apply Rmult_le_reg_r with (a k * a (Datatypes.S k))%R; [now apply Rmult_lt_0_compat|].
    replace (c k / a k * (a k * a (Datatypes.S k)))%R with (c k * a (Datatypes.S k))%R by (field; lra).
    replace (c (Datatypes.S k) / a (Datatypes.S k) * (a k * a (Datatypes.S k)))%R with (c (Datatypes.S k) * a k)%R by (field; lra). exact H.
  Qed.
  (** if no ratio up to K exceeds gamma, the norms shrink like gamma^(2k) *)
  Lemma a_small gamma K : (0 <= gamma)%R -> (c K / a K <= gamma)%R -> forall k, (k <= K)%nat -> (a k <= (gamma * gamma) ^ k * a 0%nat)%R.
  Proof.
    intros Hg HK. assert (Hc : forall k, (k <= K)%nat -> (c k <= gamma * a k)%R).
    { intros k Hk. pose proof (a_pos k). pose proof (ratio_steps k K Hk) as H1. apply Rmult_le_reg_r with (/ a k)%R; [now apply Rinv_0_lt_compat|].
      replace (gamma * a k * / a k)%R with gamma by (field; lra). unfold Rdiv in *. lra. }
    induction k as [|k IH]; intros Hk; [cbn; lra|]. assert (IH' := IH ltac:(lia)). pose proof (step_two k) as H2. pose proof (Hc k ltac:(lia)) as H3. pose proof (Hc (Datatypes.S k) Hk) as H4.
    pose proof (a_pos k). pose proof (a_pos (Datatypes.S k)) as Hp. pose proof (c_nonneg k). pose proof (c_nonneg (Datatypes.S k)).
    assert (H5 : (c k * c (Datatypes.S k) <= (gamma * a k) * (gamma * a (Datatypes.S k)))%R) by (apply Rmult_le_compat; assumption).
    assert (H6 : (a (Datatypes.S k) <= gamma * gamma * a k)%R).
    { apply Rmult_le_reg_r with (a (Datatypes.S k)); [exact Hp|]. lra. }
    cbn [pow]. eapply Rle_trans; [exact H6|]. replace (gamma * gamma * (gamma * gamma) ^ k * a 0%nat)%R with (gamma * gamma * ((gamma * gamma) ^ k * a 0%nat))%R by ring.
    apply Rmult_le_compat_l; [nra|exact IH'].
  Qed.
  Theorem ratio_converges eps : (0 < eps)%R -> exists K, forall k, (K <= k)%nat -> (beta - eps < c k / a k <= beta)%R.
  Proof.
    intros He. assert (Hle : forall k, (c k / a k <= beta)%R).
    { intros k. pose proof (a_pos k). apply Rmult_le_reg_r with (a k); [assumption|]. unfold Rdiv. rewrite Rmult_assoc, Rinv_l, Rmult_1_r by lra. apply c_le. }
    destruct (Rle_dec beta eps) as [Hbe|Hbe].
    - exists 1%nat. intros k Hk. split; [|apply Hle]. destruct k as [|k]; [lia|]. assert (0 < c (Datatypes.S k))%R.
      { pose proof (c_nonneg (Datatypes.S k)). pose proof (step_two k) as H2. pose proof (a_pos (Datatypes.S k)). destruct (Req_dec (c (Datatypes.S k)) 0) as [E|E]; [rewrite E, Rmult_0_r in H2; nra|lra]. }
      assert (0 < c (Datatypes.S k) / a (Datatypes.S k))%R by (apply Rmult_lt_0_compat; [assumption|apply Rinv_0_lt_compat, a_pos]). lra.
    - pose proof beta_pos as Hb. set (gamma := (beta - eps)%R). assert (Hg : (0 <= gamma)%R) by (unfold gamma; lra). set (q := ((gamma * gamma) / (beta * beta))%R).
      assert (Hq : (Rabs q < 1)%R).
      { rewrite Rabs_right. 2:{ apply Rle_ge. unfold q. apply Rmult_le_pos; [nra|]. left. apply Rinv_0_lt_compat. nra. }
        unfold q. apply Rmult_lt_reg_r with (beta * beta)%R; [nra|]. unfold Rdiv. rewrite Rmult_assoc, Rinv_l by nra. unfold gamma. nra. }
      destruct (pow_lt_1_zero q Hq (share / a 0%nat)) as (K & HK). { apply Rmult_lt_0_compat; [apply share_pos|apply Rinv_0_lt_compat, a_pos]. }
      exists K. intros k Hk. split; [|apply Hle]. destruct (Rlt_dec gamma (c k / a k)) as [|Hn]; [assumption|]. exfalso. assert (Hs : (c k / a k <= gamma)%R) by lra.
      pose proof (a_small gamma k Hg Hs k (le_n k)) as H1. pose proof (a_large k) as H2. specialize (HK k ltac:(lia)). pose proof (Rle_abs (q ^ k)) as H3.
      assert (H4 : (q ^ k < share / a 0%nat)%R) by lra. pose proof (a_pos 0%nat) as Ha0. assert (Hbk : (0 < (beta * beta) ^ k)%R) by (apply pow_lt; nra).
      assert (H5 : ((gamma * gamma) ^ k = q ^ k * (beta * beta) ^ k)%R). { rewrite <- Rpow_mult_distr. f_equal. unfold q. field. lra. }
      rewrite H5 in H1. assert (H6 : (q ^ k * (beta * beta) ^ k * a 0%nat < share * (beta * beta) ^ k)%R).
      { replace (q ^ k * (beta * beta) ^ k * a 0%nat)%R with ((beta * beta) ^ k * (q ^ k * a 0%nat))%R by ring. rewrite (Rmult_comm share). apply Rmult_lt_compat_l; [exact Hbk|].
        apply Rmult_lt_reg_r with (/ a 0%nat)%R; [now apply Rinv_0_lt_compat|]. rewrite Rmult_assoc, Rinv_r by lra. unfold Rdiv in H4. lra. }
      lra.
  Qed.
  (** the variance of the shifted operator *)
  Lemma residual_bound k : (a (Datatypes.S k) / a k - (c k / a k) * (c k / a k) <= beta * (beta - c k / a k))%R.
  Proof.
    pose proof (step_two k) as H2. pose proof (a_pos k) as Hp. pose proof (a_pos (Datatypes.S k)) as Hp'. pose proof (c_nonneg k) as Hc. pose proof (c_le (Datatypes.S k)) as Hc'. pose proof (c_le k) as Hck.
    assert (H3 : (a (Datatypes.S k) <= beta * c k)%R).
    { apply Rmult_le_reg_r with (a (Datatypes.S k)); [exact Hp'|]. assert (c k * c (Datatypes.S k) <= c k * (beta * a (Datatypes.S k)))%R by (apply Rmult_le_compat_l; assumption). lra. }
    assert (H4 : (a (Datatypes.S k) / a k <= beta * (c k / a k))%R). { apply Rmult_le_reg_r with (a k); [exact Hp|]. unfold Rdiv. rewrite !Rmult_assoc, Rinv_l by lra. lra. }
    assert (H5 : (0 <= c k / a k <= beta)%R).
    { split; [apply Rmult_le_pos; [exact Hc|left; now apply Rinv_0_lt_compat]|]. apply Rmult_le_reg_r with (a k); [exact Hp|]. unfold Rdiv. rewrite Rmult_assoc, Rinv_l by lra. lra. }
    set (r := (c k / a k)%R) in *. clearbody r. nra.
  Qed.
End Power.
