(** C30, C31, C49, C51: consequences and counterexamples. *)
From Verif Require Export StateProofs3.
From Coq Require Import ZifyBool ZifyN ZifyNat Permutation Lra.

Lemma prob_ext n P Q psi : (forall x, x < 2 ^ n -> P x = Q x) -> prob n P psi = prob n Q psi.
Proof. intros H. unfold prob. f_equal. apply filter_ext_in. intros x Hx. apply H. now apply in_seqN. Qed.
Lemma prob_split n P Q S psi : (forall x, x < 2 ^ n -> S x = P x || Q x) -> (forall x, x < 2 ^ n -> P x && Q x = false) ->
  prob n S psi = (prob n P psi + prob n Q psi)%R.
Proof.
  intros H1 H2. unfold prob. rewrite <- (Rsuml_app (fun x => Cnorm2 (psi x))). apply Rsuml_perm.
  assert (G : forall l, (forall x, In x l -> x < 2 ^ n) -> Permutation (filter S l) (filter P l ++ filter Q l)).
  { induction l as [|x l IH]; intros Hl; [constructor|]. cbn [filter].
    assert (Hx : x < 2 ^ n) by (apply Hl; now left). specialize (H1 x Hx). specialize (H2 x Hx). rewrite H1.
    assert (IH' := IH (fun y Hy => Hl y (or_intror Hy))).
    destruct (P x), (Q x); cbn [orb andb] in *; try discriminate.
    - now constructor.
    - apply Permutation_cons_app. assumption.
    - assumption. }
  apply G. intros x Hx. now apply in_seqN.
Qed.
Lemma prob_all n P psi : (forall x, x < 2 ^ n -> P x = true) -> prob n P psi = sqnorm n psi.
Proof.
  intros H. unfold prob, sqnorm. f_equal. transitivity (filter (fun _ => true) (seqN (2 ^ n))).
  - apply filter_ext_in. intros x Hx. apply H. now apply in_seqN.
  - generalize (seqN (2 ^ n)) as l. induction l as [|x l IH]; simpl; congruence.
Qed.
(** [shows], position by position *)
Definition shows_from (k : nat) (vs : list N) (x : N) : bool :=
  forallb (fun iv => (snd iv =? 2) || Bool.eqb (N.testbit x (fst iv)) (snd iv =? 1)) (combine (map N.of_nat (seq k (length vs))) vs).
Lemma shows_shows_from vs x : shows vs x = shows_from 0 vs x.
Proof. unfold shows, shows_from, seqN. now rewrite Nat2N.id. Qed.
Lemma shows_from_cons k v vs x : shows_from k (v :: vs) x = ((v =? 2) || Bool.eqb (N.testbit x (N.of_nat k)) (v =? 1)) && shows_from (S k) vs x.
Proof. reflexivity. Qed.
Lemma shows_from_app l1 : forall k l2 x, shows_from k (l1 ++ l2) x = shows_from k l1 x && shows_from (k + length l1) l2 x.
Proof.
  induction l1 as [|v l1 IH]; intros k l2 x; cbn [app length].
  - replace (k + 0)%nat with k by lia. reflexivity.
  - rewrite !shows_from_cons, IH, andb_assoc. replace (S k + length l1)%nat with (k + S (length l1))%nat by lia. reflexivity.
Qed.
Lemma shows_from_2s k j x : shows_from k (repeat 2 j) x = true.
Proof. revert k. induction j as [|j IH]; intros k; [reflexivity|]. cbn [repeat]. rewrite shows_from_cons, IH. reflexivity. Qed.

Lemma marginal_split n l1 l2 w : n < 64 -> N.of_nat (length l1 + 1 + length l2) = n -> Forall (fun v => v <= 2) (l1 ++ l2) ->
  exists p p0 p1, returns (get_marginal_probability n (l1 ++ 2 :: l2)) w p /\
    returns (get_marginal_probability n (l1 ++ 0 :: l2)) w p0 /\ returns (get_marginal_probability n (l1 ++ 1 :: l2)) w p1 /\
    p = (p0 + p1)%R.
Proof.
  intros Hn Hl Hf. apply Forall_app in Hf as [F1 F2].
  assert (Hf : forall v, v <= 2 -> Forall (fun v => v <= 2) (l1 ++ v :: l2)) by (intros; apply Forall_app; auto).
  assert (Hlen : forall v, N.of_nat (length (l1 ++ v :: l2)) = n) by (intros; rewrite app_length; cbn [length]; lia).
  do 3 eexists. split; [apply marginal_ok; auto; apply Hf; lia|]. split; [apply marginal_ok; auto; apply Hf; lia|].
  split; [apply marginal_ok; auto; apply Hf; lia|]. apply prob_split.
  - intros x _. rewrite !shows_shows_from, !shows_from_app, !shows_from_cons. simpl.
    destruct (shows_from 0 l1 x), (N.testbit x _), (shows_from (S (length l1)) l2 x); reflexivity.
  - intros x _. rewrite !shows_shows_from, !shows_from_app, !shows_from_cons. simpl.
    destruct (shows_from 0 l1 x), (N.testbit x _), (shows_from (S (length l1)) l2 x); reflexivity.
Qed.
Lemma marginal_total n w : n < 64 ->
  exists s, returns (get_marginal_probability n (repeat 2 (N.to_nat n))) w s /\ returns (get_squared_norm n) w s.
Proof.
  intros Hn. exists (sqnorm n (w_amp w)). split; [|apply squared_norm_ok].
  rewrite <- (prob_all n (shows (repeat 2 (N.to_nat n)))).
  - apply marginal_ok; auto; [rewrite repeat_length; lia|]. apply Forall_forall. intros v Hv. apply repeat_spec in Hv. lia.
  - intros x _. rewrite shows_shows_from. apply shows_from_2s.
Qed.
Lemma zero_is_marginal n q w : n < 64 -> q < n ->
  exists p, returns (get_zero_probability n q) w p /\
    returns (get_marginal_probability n (repeat 2 (N.to_nat q) ++ 0 :: repeat 2 (N.to_nat (n - q - 1)))) w p.
Proof.
  intros Hn Hq. eexists. split; [now apply zero_probability_ok|]. rewrite (prob_ext _ _ (shows (repeat 2 (N.to_nat q) ++ 0 :: repeat 2 (N.to_nat (n - q - 1))))).
  - apply marginal_ok; auto; [rewrite app_length; cbn [length]; rewrite !repeat_length; lia|].
    apply Forall_forall. intros v Hv. apply in_app_or in Hv as [Hv|[<-|Hv]]; [apply repeat_spec in Hv; lia|lia|apply repeat_spec in Hv; lia].
  - intros x _. rewrite shows_shows_from, shows_from_app, shows_from_cons, !shows_from_2s, repeat_length. simpl.
    rewrite N2Nat.id. destruct (N.testbit x q); reflexivity.
Qed.

(** ** Inner product *)
Lemma inner_ext n a b c d : (forall x, x < 2 ^ n -> a x = c x) -> (forall x, x < 2 ^ n -> b x = d x) -> inner n a b = inner n c d.
Proof. intros H1 H2. apply Csum_ext. intros x Hx. now rewrite H1, H2. Qed.
Lemma inner_linear n a c phi1 phi2 : inner n a (fun x => (phi1 x + c * phi2 x)%C) = (inner n a phi1 + c * inner n a phi2)%C.
Proof. unfold inner. rewrite <- Csum_mul_l, <- Csum_add. apply Csum_ext. intros; ring. Qed.
Lemma inner_product_algebra n w phi psi2 c :
  exists v1 v2 v3 v4, returns (inner_product n n phi) w v1 /\ returns (inner_product n n psi2) w v2 /\
    returns (inner_product n n (fun x => (phi x + c * psi2 x)%C)) w v3 /\ v3 = (v1 + c * v2)%C /\
    returns (inner_product n n (w_amp w)) (set_amp phi w) v4 /\ v4 = Cconj v1.
Proof.
  do 4 eexists. split; [apply inner_product_ok|]. split; [apply inner_product_ok|]. split; [apply inner_product_ok|].
  split; [apply inner_linear|]. split; [apply inner_product_ok|]. apply inner_conj.
Qed.
Lemma Cnorm2_scale r z : Cnorm2 (Cscale r z) = (r * r * Cnorm2 z)%R.
Proof. unfold Cnorm2, Cscale. simpl. ring. Qed.
Lemma normalize_unit n w : sqnorm n (w_amp w) <> 0%R ->
  runs (normalize n) w (done (fun _ w' => returns (get_squared_norm n) w' 1%R)).
Proof.
  intros H. eapply runs_weaken; [apply normalize_ok; exact H|]. intros [t w'|w'|]; simpl; auto. intros (H1 & _).
  replace 1%R with (sqnorm n (w_amp w')); [apply squared_norm_ok|].
  rewrite (sqnorm_ext n _ _ H1). pose proof (sqnorm_nonneg n (w_amp w)) as Hs.
  transitivity (/ sqrt (sqnorm n (w_amp w)) * / sqrt (sqnorm n (w_amp w)) * sqnorm n (w_amp w))%R.
  - unfold sqnorm at 1. rewrite (Rsuml_ext _ (fun x => (/ sqrt (sqnorm n (w_amp w)) * / sqrt (sqnorm n (w_amp w)) * Cnorm2 (w_amp w x))%R)).
    + rewrite Rsuml_scale. reflexivity.
    + intros x _. apply Cnorm2_scale.
  - rewrite <- (sqrt_sqrt (sqnorm n (w_amp w)) Hs) at 3. field. now apply sqrt_neq_0.
Qed.
Lemma load_get n l w : N.of_nat (length l) = 2 ^ n ->
  runs (load n l;~ get_amplitudes n) w (done (fun r _ => r = l)).
Proof.
  intros H. eapply runs_bind_done; [now apply load_ok|]. intros [] w1 (H1 & _).
  eapply runs_weaken; [apply get_amps_ok|]. intros o ->. simpl.
  apply (nth_ext _ _ C0 C0); [rewrite map_length, length_seqN; lia|].
  intros k Hk. rewrite map_length, length_seqN in Hk.
  rewrite (nth_indep _ C0 (w_amp w1 0)) by (rewrite map_length, length_seqN; lia). rewrite map_nth, nth_seqN by assumption.
  rewrite H1 by lia. now rewrite Nat2N.id.
Qed.

(** ** Counterexamples *)
Lemma unchecked_index n i c w : 2 ^ n <= i -> undefined (set_amplitude_at n i c) w /\ undefined (get_amplitude_at n i) w.
Proof.
  intros H. unfold set_amplitude_at, get_amplitude_at. destruct (N.ltb_spec i (2 ^ n)); [lia|].
  split; (split; [intros o ->; reflexivity|eexists; reflexivity]).
Qed.
Lemma unchecked_size : exists n m other w, m < n /\ add_state_vector_with_coef n C1 false (2 ^ m) other w HUndefined.
Proof.
  exists 1, 0, (fun _ => C0), (World (fun _ => C0) None [] (fun _ => 0%R)). split; [lia|].
  exists [[1; 1]]. reflexivity.
Qed.
Lemma basis0_psi : exists w, (forall x, w_amp w x = if x =? 0 then C1 else C0) /\ w = World (fun x => if x =? 0 then C1 else C0) None [] (fun _ => 0%R).
Proof. eexists. split; [|reflexivity]. reflexivity. Qed.
Lemma log2_eps_neg : (log2 eps_entropy < 0)%R.
Proof.
  unfold log2, eps_entropy. assert (H2 : (0 < ln 2)%R) by (rewrite <- ln_1; apply ln_increasing; lra).
  rewrite ln_Rinv by (apply pow_lt; lra).
  assert (H3 : (0 < ln (10 ^ 15))%R) by (rewrite <- ln_1; apply ln_increasing; [lra|lra]).
  unfold Rdiv. pose proof (Rinv_0_lt_compat _ H2). nra.
Qed.
Lemma log2_1 : log2 1 = 0%R.
Proof. unfold log2. rewrite ln_1. unfold Rdiv. ring. Qed.
Lemma b_entropy_value B n w : returns (b_get_computational_basis_entropy B n) w
  (elementwise B n (fun psi => Rsuml (fun x => (- Rmax (Cnorm2 (psi x)) eps_entropy * log2 (Rmax (Cnorm2 (psi x)) eps_entropy))%R) (seqN (2 ^ n))) (w_amp w)).
Proof.
  apply per_batch_returns. intros b Hb. apply in_seqN in Hb. apply hsum_returns_R. intros i Hi. cbn [rrun].
  pose proof (row_lt B n b i Hb Hi) as H. apply N.ltb_lt in H. rewrite H. reflexivity.
Qed.
Lemma b_entropy_wrong : exists n w v v', returns (get_computational_basis_entropy n) w v /\
  returns (b_get_computational_basis_entropy 1 n) w [v'] /\ v <> v'.
Proof.
  exists 1, (World (fun x => if x =? 0 then C1 else C0) None [] (fun _ => 0%R)).
  pose proof (b_entropy_value 1 1 (World (fun x => if x =? 0 then C1 else C0) None [] (fun _ => 0%R))) as Hb.
  unfold elementwise in Hb. change (seqN 1) with [0] in Hb. cbn [map] in Hb.
  do 2 eexists. split; [apply entropy_ok|]. split; [exact Hb|]. clear Hb.
  change (seqN (2 ^ 1)) with [0; 1]. unfold Rsuml, batch. cbn [fold_right w_amp].
  change (0 * 2 ^ 1 + 0 =? 0) with true. change (0 * 2 ^ 1 + 1 =? 0) with false. change (0 =? 0) with true. change (1 =? 0) with false. cbv iota.
  assert (E1 : Cnorm2 C1 = 1%R) by (unfold Cnorm2, C1; simpl; ring).
  assert (E0 : Cnorm2 C0 = 0%R) by (unfold Cnorm2, C0; simpl; ring).
  rewrite E1, E0. pose proof log2_eps_neg as Hneg.
  assert (He : (0 < eps_entropy < 1)%R). { unfold eps_entropy. split; [apply Rinv_0_lt_compat; lra|]. rewrite <- Rinv_1. apply Rinv_lt_contravar; lra. }
  rewrite (Rmax_left 1 eps_entropy) by lra. rewrite (Rmax_right 0 eps_entropy) by lra. rewrite log2_1.
  destruct (Rlt_dec 0 1); [|lra]. destruct (Rlt_dec 0 0); [lra|]. nra.
Qed.
Lemma inner_product_both n m other w :
  (n = m -> returns (inner_product n m other) w (Csum (2 ^ n) (fun x => (Cconj (w_amp w x) * other x)%C))) /\
  (n <> m -> throws (inner_product n m other) w).
Proof. split; [intros <-; apply inner_product_ok|apply inner_product_throws]. Qed.
Lemma sampling_example : exists l, sampling 2 (fun x => if x =? 1 then C1 else C0) 2 [fun i => if i =? 0 then (1 / 4)%R else (1 / 2)%R] = Some l /\ length l = 2%nat.
Proof.
  destruct (sampling_one_round 2 (fun x => if x =? 1 then C1 else C0) 2 (fun i => if i =? 0 then (1 / 4)%R else (1 / 2)%R) []) as (l & H1 & H2 & _).
  - intros i. unfold sqnorm. change (seqN (2 ^ 2)) with [0; 1; 2; 3]. unfold Rsuml. cbn [fold_right]. change (0 =? 1) with false. change (1 =? 1) with true. change (2 =? 1) with false. change (3 =? 1) with false. cbv iota. unfold Cnorm2, C1, C0. cbn [fst snd]. destruct (i =? 0); lra.
  - exists l. split; [assumption|]. rewrite H2. reflexivity.
Qed.
Lemma history_example : sops_ok 2 [SBasis 2; SMultiply (2, 0)%R; SAdd Ci true 2 (fun _ => C0); SNormalize; SBasis 4] (fun _ => C0).
Proof.
  cbn [sops_ok sop_ok vector_op]. split; [exact I|]. intros p1. change (2 <? 2 ^ 2) with true. cbv iota. intros [= <-].
  split; [exact I|]. intros p2 [= <-]. split; [now left|]. intros p3 [= <-]. split.
  - unfold sqnorm. change (seqN (2 ^ 2)) with [0; 1; 2; 3]. unfold Rsuml. cbn [fold_right]. change (0 =? 2) with false. change (1 =? 2) with false. change (2 =? 2) with true. change (3 =? 2) with false. cbv iota.
    unfold Cnorm2, Cmul, Cadd, Ci, C1, C0. cbn [fst snd]. lra.
  - intros p4 [= <-]. split; [exact I|]. change (4 <? 2 ^ 2) with false. discriminate.
Qed.
Lemma run_rops_length l : forall r, length (run_rops l r) = length r.
Proof. unfold run_rops. induction l as [|o l IH]; intros r; [reflexivity|]. cbn [fold_left]. rewrite IH. apply run_rop_length. Qed.
Lemma register_bounds size l i o : (o = RRead i \/ exists b, o = RWrite i b) ->
  let r := run_rops l (reg_new size) in
  (i < size -> snd (run_rop o r) = false) /\ (size <= i -> run_rop o r = (r, true)).
Proof.
  intros Ho r. assert (Hl : N.of_nat (length r) = size) by (unfold r; rewrite run_rops_length; unfold reg_new; rewrite repeat_length; lia).
  split; intros H; [now apply (run_rop_in size r o i)|now apply (run_rop_out size r o i)].
Qed.
Lemma run_brops_keep size nb l : forall r, breg_ok size nb r -> breg_ok size nb (run_brops l r).
Proof. unfold run_brops. induction l as [|o l IH]; intros r H; [assumption|]. cbn [fold_left]. apply IH. now apply run_brop_ok. Qed.
Lemma batched_bounds size nb l b i v x :
  let r := run_brops l (breg_new size nb) in
  (nb <= b \/ size <= i -> run_brop (BWrite b i v) r = (r, true) /\ breg_read r b i = Throw) /\
  (nb <= b \/ N.of_nat (length x) <> size -> run_brop (BAssign b x) r = (r, true)) /\
  (b < nb -> i < size -> snd (run_brop (BWrite b i v) r) = false) /\
  (b < nb -> N.of_nat (length x) = size -> snd (run_brop (BAssign b x) r) = false).
Proof.
  intros r. assert (Hr : breg_ok size nb r) by (apply run_brops_keep, breg_ok_new). clearbody r. destruct Hr as (H1 & H2 & H3).
  cbn [run_brop]. unfold breg_write, breg_assign, breg_read, breg_get. rewrite H1.
  destruct (nth_error (br_regs r) (N.to_nat b)) as [z|] eqn:E; cbn [bindR].
  - assert (Hb : b < nb). { assert (nth_error (br_regs r) (N.to_nat b) <> None) as Hn by congruence. apply nth_error_Some in Hn. lia. }
    specialize (H3 _ _ E). unfold reg_write, reg_read. rewrite H3. refine (conj _ (conj _ (conj _ _))).
    + intros [H|H]; [lia|]. destruct (N.ltb_spec i size); [lia|]. cbn [bindR]. split; [reflexivity|].
      destruct (nth_error z (N.to_nat i)) eqn:Ez; [|reflexivity]. assert (nth_error z (N.to_nat i) <> None) as Hn by congruence.
      apply nth_error_Some in Hn. lia.
    + intros [H|H]; [lia|]. destruct (N.eqb_spec (N.of_nat (length x)) size); [contradiction|reflexivity].
    + intros _ H. destruct (N.ltb_spec i size); [reflexivity|lia].
    + intros _ H. rewrite H, N.eqb_refl. reflexivity.
  - assert (Hb : nb <= b) by (apply nth_error_None in E; lia). refine (conj _ (conj _ (conj _ _))); try (intros; lia).
    + auto.
    + intros _. destruct (_ =? _); reflexivity.
Qed.
Lemma entropy_example : exists w, Cnorm2 (w_amp w 0) = (1 / 2)%R /\ Cnorm2 (w_amp w 1) = 0%R.
Proof.
  exists (World (fun x => if x =? 0 then ((1 / 2)%R, (1 / 2)%R) else C0) None [] (fun _ => 0%R)). cbn [w_amp].
  unfold Cnorm2. simpl. split; lra.
Qed.
