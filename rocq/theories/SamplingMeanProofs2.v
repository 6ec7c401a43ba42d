From Verif Require Import SamplingMeanSpec SamplingMeanProofs ChannelProofs ChannelProofs4 StateProofs2 DensityProofs5 NoiseMeanProofs.
From Coq Require Import Lia Lra FunctionalExtensionality.
Local Open Scope N_scope.

Lemma jointly_repeat {T} (E : (T -> C) -> C) k : forall V, jointly (repeat E k) V = independently k E V.
Proof.
  induction k as [|k IH]; intros V; cbn [repeat jointly independently]; [reflexivity|]. f_equal. apply functional_extensionality. intros x. apply IH.
Qed.
Lemma map_const {A B} (b : B) (l : list A) : map (fun _ => b) l = repeat b (length l).
Proof. induction l as [|a l IH]; cbn [map repeat length]; congruence. Qed.
Lemma jointly_app {T} (E1 E2 : list ((T -> C) -> C)) : forall V, jointly (E1 ++ E2) V = jointly E1 (fun a => jointly E2 (fun b => V (a ++ b))).
Proof.
  induction E1 as [|E E1 IH]; intros V; cbn [app jointly]; [reflexivity|]. f_equal. apply functional_extensionality. intros x. apply (IH (fun ss => V (x :: ss))).
Qed.
Lemma ind_scale n a p k : forall V, independently k (one_outcome n (fun x => a * p x)%R) V = Cscale (a ^ k) (independently k (one_outcome n p) V).
Proof.
  induction k as [|k IH]; intros V; cbn [independently pow]; [Csolve|].
  rewrite (one_outcome_ext n _ _ _ (fun s => Cscale (a ^ k) (independently k (one_outcome n p) (fun ss => V (s :: ss)))) ltac:(intros x Hx; split; [reflexivity|apply IH])).
  unfold one_outcome at 1 3. rewrite <- Csuml_scale. apply Csuml_ext. intros x _. Csolve.
Qed.
Lemma ind_weights n p q k : (forall x, x < 2 ^ n -> p x = q x) -> forall V : list N -> C, independently k (one_outcome n p) V = independently k (one_outcome n q) V.
Proof.
  intros H. induction k as [|k IH]; intros V; cbn [independently]; [reflexivity|]. apply one_outcome_ext. intros x Hx. split; [now apply H|apply IH].
Qed.

Theorem sampling_mean n psi count m F : (0 < sqnorm n psi <= 1)%R ->
  averaged (m * N.to_nat count) (fun us v => v = if_done F (sampling n psi count (rounds_of m (N.to_nat count) us)))
    (Cscale ((1 - (1 - sqnorm n psi) ^ m) ^ N.to_nat count) (independently (N.to_nat count) (one_outcome n (fun x => Cnorm2 (psi x) / sqnorm n psi)%R) F)).
Proof.
  intros Hn. pose proof (loop_mean N.eqb neqb_spec n (fun _ => choose n psi) (fun _ => share psi) (fun _ => (1 - clip (sqnorm n psi))%R)
    (fun _ g => choose_mean n psi g) m (N.to_nat count) F (seqN count) (fun _ => 0) (NoDup_seqN count) ltac:(rewrite length_seqN; lia)) as H.
  cbv beta in H. rewrite map_const, jointly_repeat, length_seqN in H.
  rewrite (ind_weights n _ (fun x => (1 - (1 - sqnorm n psi) ^ m) * (Cnorm2 (psi x) / sqnorm n psi))%R) in H by (intros x Hx; now apply geo_share).
  rewrite ind_scale in H. eapply averaged_mono; [|exact H]. cbv beta. intros us v _ _ ->. unfold sampling. now destruct (sampling_loop _ _ _ _ _ _).
Qed.
Lemma nth_unit us i : Forall unit_draw us -> unit_draw (nth i us 0%R).
Proof.
  intros H. destruct (Nat.lt_ge_cases i (length us)) as [L|L]; [rewrite Forall_forall in H; apply H; now apply nth_In|]. rewrite nth_overflow by assumption. unfold unit_draw. lra.
Qed.
Theorem sampling_born n psi count F : sqnorm n psi = 1%R ->
  averaged (N.to_nat count) (fun us v => forall rest, exists l, sampling n psi count ((fun i => nth (N.to_nat i) us 0%R) :: rest) = Some l /\ F l = v)
    (independently (N.to_nat count) (one_outcome n (fun x => Cnorm2 (psi x))) F).
Proof.
  intros Hn. pose proof (sampling_mean n psi count 1 F ltac:(rewrite Hn; lra)) as H. rewrite Nat.mul_1_l in H. rewrite Hn in H.
  replace ((1 - (1 - 1) ^ 1) ^ N.to_nat count)%R with 1%R in H by (replace (1 - (1 - 1) ^ 1)%R with 1%R by ring; now rewrite pow1).
  replace (Cscale 1 (independently (N.to_nat count) (one_outcome n (fun x => Cnorm2 (psi x) / 1)%R) F)) with (independently (N.to_nat count) (one_outcome n (fun x => Cnorm2 (psi x))) F) in H.
  2: { rewrite (ind_weights n (fun x => Cnorm2 (psi x) / 1)%R (fun x => Cnorm2 (psi x))) by (intros x _; field). Csolve. }
  eapply averaged_mono; [|exact H]. cbv beta. intros us v Hl Hus -> rest.
  destruct (sampling_one_round n psi count (fun i => nth (N.to_nat i) us 0%R) rest) as (l & E & _).
  { intros i. rewrite Hn. apply nth_unit, Hus. }
  destruct (sampling_one_round n psi count (fun i => nth (N.to_nat i) us 0%R) []) as (l' & E' & _).
  { intros i. rewrite Hn. apply nth_unit, Hus. }
  cbn [rounds_of]. rewrite <- Hl, firstn_all, E'. cbn [if_done]. exists l. split; [exact E|].
  assert (l = l'); [|congruence].
  destruct (sampling_loop_one N.eqb neqb_spec n (fun _ => choose n psi) (fun i => nth (N.to_nat i) us 0%R) rest (seqN count) (fun _ => 0) (NoDup_seqN count)) as (r & Er & Hr).
  { intros k s _ Ek. destruct (choose_spec n psi (nth (N.to_nat (N.of_nat k)) us 0%R)) as [[E1 E2]|[E1 E2]]; [apply nth_unit, Hus|lia|].
    pose proof (nth_unit us (N.to_nat (N.of_nat k)) Hus) as U. unfold unit_draw in U. lra. }
  destruct (sampling_loop_one N.eqb neqb_spec n (fun _ => choose n psi) (fun i => nth (N.to_nat i) us 0%R) [] (seqN count) (fun _ => 0) (NoDup_seqN count)) as (r' & Er' & Hr').
  { intros k s _ Ek. destruct (choose_spec n psi (nth (N.to_nat (N.of_nat k)) us 0%R)) as [[E1 E2]|[E1 E2]]; [apply nth_unit, Hus|lia|].
    pose proof (nth_unit us (N.to_nat (N.of_nat k)) Hus) as U. unfold unit_draw in U. lra. }
  unfold sampling in E, E'. rewrite Er in E. rewrite Er' in E'. injection E as <-. injection E' as <-. apply map_ext_in. intros s Hs.
  apply In_nth_error in Hs as [k Hk]. now rewrite (Hr k s Hk), (Hr' k s Hk).
Qed.
(** the rejected ones come to an end *)
Lemma tends_power a k : Un_cv a 1 -> Un_cv (fun m => a m ^ k)%R 1.
Proof.
  intros H. induction k as [|k IH]; cbn [pow]; [intros e He; exists 0%nat; intros; rewrite R_dist_eq; exact He|].
  replace 1%R with (1 * 1)%R by ring. apply (CV_mult a (fun m => a m ^ k)%R); assumption.
Qed.
Theorem ends_surely n psi count : (0 < sqnorm n psi <= 1)%R -> Un_cv (fun m => (1 - (1 - sqnorm n psi) ^ m) ^ count)%R 1.
Proof.
  intros H. apply tends_power. intros e He. destruct (pow_lt_1_zero (1 - sqnorm n psi) ltac:(rewrite Rabs_pos_eq by lra; lra) e He) as [N0 HN].
  exists N0. intros m Hm. unfold R_dist. replace (1 - (1 - sqnorm n psi) ^ m - 1)%R with (- (1 - sqnorm n psi) ^ m)%R by ring. rewrite Rabs_Ropp. now apply HN.
Qed.

(** how often x is expected *)
Lemma one_outcome_add n p V W : one_outcome n p (fun x => V x + W x)%C = (one_outcome n p V + one_outcome n p W)%C.
Proof. unfold one_outcome. rewrite <- Csuml_add. apply Csuml_ext. intros x _. Csolve. Qed.
Lemma one_outcome_const n p v : Rsuml p (seqN (2 ^ n)) = 1%R -> one_outcome n p (fun _ => v) = v.
Proof.
  intros H. transitivity (RtoC (Rsuml p (seqN (2 ^ n))) * v)%C; [|rewrite H; Csolve]. unfold one_outcome.
  rewrite (Csuml_ext _ (fun x => (RtoC (p x) * v)%C)) by (intros; Csolve). rewrite Csuml_mul_r. f_equal. clear H. induction (seqN (2 ^ n)) as [|x l IH]; [reflexivity|].
  change (Csuml (fun x => RtoC (p x)) (x :: l)) with (RtoC (p x) + Csuml (fun x => RtoC (p x)) l)%C. rewrite IH. change (Rsuml p (x :: l)) with (p x + Rsuml p l)%R. Csolve.
Qed.
Lemma ind_const n p k v : Rsuml p (seqN (2 ^ n)) = 1%R -> independently k (one_outcome n p) (fun _ : list N => v) = v.
Proof. intros H. induction k as [|k IH]; cbn [independently]; [reflexivity|]. rewrite IH. now apply one_outcome_const. Qed.
Lemma ind_add n p k : forall V W : list N -> C, independently k (one_outcome n p) (fun l => V l + W l)%C = (independently k (one_outcome n p) V + independently k (one_outcome n p) W)%C.
Proof.
  induction k as [|k IH]; intros V W; cbn [independently]; [reflexivity|]. rewrite <- one_outcome_add. apply one_outcome_ext. intros x _. split; [reflexivity|apply IH].
Qed.
Lemma frequency_mean n p k x : Rsuml p (seqN (2 ^ n)) = 1%R -> x < 2 ^ n -> independently k (one_outcome n p) (frequency x) = RtoC (INR k * p x).
Proof.
  intros H Hx. induction k as [|k IH]; cbn [independently]; [unfold frequency; cbn; Csolve|].
  rewrite (one_outcome_ext n p p _ (fun s => ((if N.eq_dec s x then C1 else C0) + RtoC (INR k * p x))%C)).
  - rewrite one_outcome_add, one_outcome_const by assumption. unfold one_outcome.
    rewrite (Csuml_single _ _ x (NoDup_seqN _)); [|now apply in_seqN|intros y _ Hy; destruct (N.eq_dec y x); [contradiction|Csolve]].
    destruct (N.eq_dec x x); [|congruence]. rewrite S_INR. Csolve.
  - intros s _. split; [reflexivity|]. rewrite <- IH.
    rewrite <- (ind_const n p k (if N.eq_dec s x then C1 else C0) H), <- ind_add. f_equal. apply functional_extensionality. intros l. unfold frequency. cbn [count_occ].
    destruct (N.eq_dec s x); [rewrite S_INR|]; Csolve.
Qed.
Theorem sampling_frequency n psi count x : sqnorm n psi = 1%R -> x < 2 ^ n ->
  averaged (N.to_nat count) (fun us v => forall rest, exists l, sampling n psi count ((fun i => nth (N.to_nat i) us 0%R) :: rest) = Some l /\ frequency x l = v)
    (RtoC (INR (N.to_nat count) * Cnorm2 (psi x))).
Proof.
  intros Hn Hx. pose proof (sampling_born n psi count (frequency x) Hn) as H. rewrite (frequency_mean n (fun x => Cnorm2 (psi x))) in H; [exact H|exact Hn|exact Hx].
Qed.

(** batched *)
Lemma flat_map_joint {A T} (E : A -> (T -> C) -> C) k : (forall a f g, (forall x, f x = g x) -> E a f = E a g) -> forall bs V,
  jointly (flat_map (fun b => repeat (E b) k) bs) V = jointly (map (fun b => independently k (E b)) bs) (fun ls => V (concat ls)).
Proof.
  intros HE. induction bs as [|b bs IH]; intros V; cbn [flat_map map jointly concat]; [reflexivity|]. rewrite jointly_app, jointly_repeat. f_equal.
  apply functional_extensionality. intros a. apply IH.
Qed.
Fixpoint split_rows {T} (c : nat) (k : nat) (l : list T) : list (list T) := match k with O => [] | S k => firstn c l :: split_rows c k (skipn c l) end.
Lemma split_concat {T} c : forall (ls : list (list T)), Forall (fun l => length l = c) ls -> split_rows c (length ls) (concat ls) = ls.
Proof.
  induction ls as [|l ls IH]; intros H; [reflexivity|]. inversion H; subst. cbn [length split_rows concat].
  rewrite firstn_app, skipn_app, Nat.sub_diag, firstn_all, skipn_all. cbn [firstn skipn app]. rewrite app_nil_r. now rewrite IH.
Qed.
Lemma ind_length {T} (E : (T -> C) -> C) k : forall V W : list T -> C, (forall l, length l = k -> V l = W l) -> independently k E V = independently k E W.
Proof.
  induction k as [|k IH]; intros V W H; cbn [independently]; [now apply H|]. f_equal. apply functional_extensionality. intros x. apply IH. intros l Hl. apply H. cbn [length]. lia.
Qed.
Lemma joint_rows {A T} (E : A -> (T -> C) -> C) k : forall bs (V W : list (list T) -> C), (forall ls, length ls = length bs -> Forall (fun l => length l = k) ls -> V ls = W ls) ->
  jointly (map (fun b => independently k (E b)) bs) V = jointly (map (fun b => independently k (E b)) bs) W.
Proof.
  induction bs as [|b bs IH]; intros V W H; cbn [map jointly]; [apply H; [reflexivity|constructor]|]. apply ind_length. intros l Hl. apply IH. intros ls H1 H2. apply H; [cbn [length]; lia|now constructor].
Qed.
Lemma joint_scale {T} (Es : list (R * ((T -> C) -> C))) : (forall aE, In aE Es -> forall c f, snd aE (fun x => Cscale c (f x)) = Cscale c (snd aE f)) ->
  forall V, jointly (map (fun aE f => Cscale (fst aE) (snd aE f)) Es) V = Cscale (fold_right Rmult 1%R (map fst Es)) (jointly (map snd Es) V).
Proof.
  induction Es as [|[a E] Es IH]; intros H V; cbn [map jointly fold_right]; [Csolve|]. cbn [fst snd].
  replace (fun s => jointly (map (fun aE f => Cscale (fst aE) (snd aE f)) Es) (fun ss => V (s :: ss)))
    with (fun s => Cscale (fold_right Rmult 1%R (map fst Es)) (jointly (map snd Es) (fun ss => V (s :: ss)))).
  - rewrite (H (a, E)) by now left. cbn [snd]. Csolve.
  - apply functional_extensionality. intros s. symmetry. apply IH. intros aE Hin. apply H. now right.
Qed.
Lemma ind_times n p k c : forall V : list N -> C, independently k (one_outcome n p) (fun l => Cscale c (V l)) = Cscale c (independently k (one_outcome n p) V).
Proof.
  induction k as [|k IH]; intros V; cbn [independently]; [reflexivity|]. unfold one_outcome at 1 3. rewrite <- Csuml_scale. apply Csuml_ext. intros x _.
  rewrite (IH (fun ss => V (x :: ss))). Csolve.
Qed.
Theorem b_sampling_mean B n psi count m F : (forall b, b < B -> (0 < sqnorm n (batch n b psi) <= 1)%R) ->
  averaged (m * N.to_nat (B * count)) (fun us v => v = if_done F (b_sampling B n psi count (rounds_of m (N.to_nat (B * count)) us)))
    (Cscale (all_ended n B psi count m)
       (jointly (map (fun b => independently (N.to_nat count) (one_outcome n (fun x => Cnorm2 (batch n b psi x) / sqnorm n (batch n b psi))%R)) (seqN B)) F)).
Proof.
  intros Hn.
  pose proof (loop_mean pair_eqb pair_eqb_spec n (fun k => choose n (batch n (fst k) psi)) (fun k => share (batch n (fst k) psi)) (fun k => (1 - clip (sqnorm n (batch n (fst k) psi)))%R)
    (fun k g => choose_mean n (batch n (fst k) psi) g) m (N.to_nat (B * count)) (fun l => F (split_rows (N.to_nat count) (N.to_nat B) l)) (list_prod (seqN B) (seqN count)) (fun _ => 0)
    (NoDup_list_prod _ _ (NoDup_seqN B) (NoDup_seqN count)) ltac:(rewrite prod_length, !length_seqN; lia)) as H.
  cbv beta in H. set (E := fun b => one_outcome n (fun x => share (batch n b psi) x * geo m (1 - clip (sqnorm n (batch n b psi))))%R) in *.
  assert (E1 : map (fun s : N * N => one_outcome n (fun x => share (batch n (fst s) psi) x * geo m (1 - clip (sqnorm n (batch n (fst s) psi))))%R) (list_prod (seqN B) (seqN count))
     = flat_map (fun b => repeat (E b) (N.to_nat count)) (seqN B)).
  { generalize (seqN B). intros bs. induction bs as [|b bs IH]; [reflexivity|]. cbn [list_prod flat_map]. rewrite map_app, IH. f_equal.
    rewrite map_map. cbn [fst]. fold (E b). rewrite map_const. now rewrite length_seqN. }
  rewrite E1, flat_map_joint in H by (intros b f g Hfg; apply one_outcome_ext; intros x _; now split).
  rewrite (joint_rows E (N.to_nat count) (seqN B) _ F) in H.
  2: { intros ls H1 H2. rewrite length_seqN in H1. rewrite <- H1, split_concat by assumption. reflexivity. }
  replace (jointly (map (fun b => independently (N.to_nat count) (E b)) (seqN B)) F) with
    (Cscale (all_ended n B psi count m)
       (jointly (map (fun b => independently (N.to_nat count) (one_outcome n (fun x => Cnorm2 (batch n b psi x) / sqnorm n (batch n b psi))%R)) (seqN B)) F)) in H.
  - eapply averaged_mono; [|exact H]. cbv beta. intros us v _ _ ->. unfold b_sampling.
    change (fun k : N * N => choose n (fun i => psi (at_row n (fst k) i))) with (fun k : N * N => choose n (batch n (fst k) psi)).
    destruct (sampling_loop _ _ _ _ _ _) as [rs|]; [|reflexivity]. cbn [if_done]. f_equal.
    rewrite <- (length_seqN B) at 1. generalize (seqN B). intros bs. induction bs as [|b bs IH]; [reflexivity|]. cbn [length split_rows map list_prod].
    rewrite map_app, map_map, firstn_app, skipn_app.
    assert (Hc : length (map (fun x => rs (b, x)) (seqN count)) = N.to_nat count) by (now rewrite map_length, length_seqN).
    rewrite firstn_all2, skipn_all2, Hc, Nat.sub_diag by lia. cbn [firstn skipn app]. rewrite app_nil_r. f_equal. exact IH.
  - pose proof (joint_scale (map (fun b => ((1 - (1 - sqnorm n (batch n b psi)) ^ m) ^ N.to_nat count, independently (N.to_nat count) (one_outcome n (fun x => Cnorm2 (batch n b psi x) / sqnorm n (batch n b psi))%R))%R) (seqN B))) as J.
    rewrite !map_map in J. cbn [fst snd] in J. unfold all_ended. rewrite <- J.
    + f_equal. apply map_ext_in. intros b Hb. apply in_seqN in Hb. apply functional_extensionality. intros V. unfold E.
      rewrite <- ind_scale. apply ind_weights. intros x Hx. symmetry. apply geo_share; [now apply Hn|exact Hx].
    + intros aE Ha c f. apply in_map_iff in Ha as (b & <- & _). cbn [snd]. apply ind_times.
Qed.
Theorem b_ends_surely B n psi count : (forall b, b < B -> (0 < sqnorm n (batch n b psi) <= 1)%R) -> Un_cv (all_ended n B psi count) 1.
Proof.
  intros H. unfold all_ended. assert (Hb : forall b, In b (seqN B) -> (0 < sqnorm n (batch n b psi) <= 1)%R) by (intros b Hb; apply H; now apply in_seqN).
  clear H. induction (seqN B) as [|b bs IH]; cbn [map fold_right]; [intros e He; exists 0%nat; intros; rewrite R_dist_eq; exact He|].
  match goal with |- Un_cv ?f _ => enough (X : Un_cv f (1 * 1)%R) by (rewrite Rmult_1_l in X; exact X) end.
  apply (CV_mult (fun m => (1 - (1 - sqnorm n (batch n b psi)) ^ m) ^ N.to_nat count)%R); [apply ends_surely, Hb; now left|apply IH; intros b' Hb'; apply Hb; now right].
Qed.

(** density matrices *)
Theorem dm_sampling_mean n w count m F : d_herm w = true -> (forall x, x < 2 ^ n -> (0 <= fst (rho w x x))%R) -> (0 < diag_prob n (fun _ => true) (rho w) <= 1)%R ->
  averaged (m * N.to_nat count) (fun us v => exists o, dm_sampling n w count (rounds_of m (N.to_nat count) us) = Ok o /\ v = if_done F o)
    (Cscale ((1 - (1 - diag_prob n (fun _ => true) (rho w)) ^ m) ^ N.to_nat count)
       (independently (N.to_nat count) (one_outcome n (fun x => fst (rho w x x) / diag_prob n (fun _ => true) (rho w))%R) F)).
Proof.
  intros Hh Hd Hn. rewrite <- diag_sqnorm in * by assumption. pose proof (sampling_mean n (fun x => RtoC (sqrt (fst (rho w x x)))) count m F Hn) as H.
  rewrite (ind_weights n _ (fun x => fst (rho w x x) / sqnorm n (fun x => RtoC (sqrt (fst (rho w x x)))))%R) in H.
  - eapply averaged_mono; [|exact H]. cbv beta. intros us v _ _ ->. eexists. split; [now apply dm_sampling_sqrt|reflexivity].
  - intros x Hx. f_equal. unfold Cnorm2, RtoC. cbn [fst snd]. rewrite sqrt_sqrt by now apply Hd. ring.
Qed.

(** one sample at the end of a run *)
Theorem shots n L ps c p l psi r0 F : n < 64 -> lanes_ok L -> circuit_is c p -> norm_kept n ps p -> sqnorm n psi = 1%R -> never_stops n ps p psi r0 ->
  instantiate ps p = Some l ->
  averaged (draws_list l) (run_gives n (circuit_update n L ps c) psi r0 (fun w => one_outcome n (fun x => Cnorm2 (w_amp w x)) F))
    (Csuml (fun x => F x * Csuml (fun r => channels l (ChannelSpec.pure psi r0) r x x) (registers (length r0)))%C (seqN (2 ^ n))).
Proof.
  intros H1 H2 H3 H4 H5 H6 H7.
  pose proof (average_sum n (circuit_update n L ps c) psi r0 (draws_list l) (fun x w => F x * (w_amp w x * Cconj (w_amp w x)))%C
    (fun x => F x * Csuml (fun r => channels l (ChannelSpec.pure psi r0) r x x) (registers (length r0)))%C (seqN (2 ^ n)) 0 (zero_in n)) as H.
  eapply averaged_mono; [|apply H].
  - cbv beta. intros us v _ _ Hg. intros w A1 A2 A3 A4. eapply runs_weaken; [exact (Hg w A1 A2 A3 A4)|]. intros o. destruct o; cbn; auto.
    intros <-. apply Csuml_ext. intros x _. unfold Cnorm2. Csolve.
  - intros x Hx. apply in_seqN in Hx. apply average_times. now apply state_average with (p := p).
Qed.

Theorem sampling_unique k (f : list R -> C) v v' : averaged k (fun us v => v = f us) v -> averaged k (fun us v => v = f us) v' -> v = v'.
Proof. apply averaged_unique. intros us a b _ -> ->. reflexivity. Qed.

(** above 1 *)
Theorem sampling_above_one : exists psi : state, sqnorm 1 psi = 2%R /\ Cnorm2 (psi 0) = Cnorm2 (psi 1) /\
  forall count rounds l, (forall draw i, In draw rounds -> unit_draw (draw i)) -> sampling 1 psi count rounds = Some l -> forall x, In x l -> x = 0.
Proof.
  exists (fun _ => C1). split; [unfold sqnorm, Rsuml, Cnorm2, C1, RtoC; change (seqN (2 ^ 1)) with [0; 1]; cbn [map fold_right fst snd]; lra|]. split; [reflexivity|]. intros count rounds l Hr E x Hx.
  destruct (sampling_sound 1 _ count rounds l Hr E) as [_ H]. destruct (H x Hx) as (Hb & draw & i & Hd & Hs & _).
  destruct (N.eq_dec x 0) as [->|Hne]; [reflexivity|]. exfalso. assert (x = 1) by (change (2 ^ 1) with 2 in Hb; lia). subst x.
  destruct (Hr draw i Hd) as [_ U]. unfold cumulative, Rsuml, Cnorm2, C1, RtoC in Hs. change (seqN 1) with [0] in Hs. cbn [map fold_right fst snd] in Hs. lra.
Qed.

(** (|0> + |1>) / sqrt 2 *)
Definition plus_state : state := fun _ => RtoC (sqrt (1 / 2)).
Lemma plus_weight x : Cnorm2 (plus_state x) = (1 / 2)%R.
Proof. unfold plus_state, Cnorm2, RtoC. cbn [fst snd]. rewrite sqrt_sqrt by lra. lra. Qed.
Lemma plus_norm : sqnorm 1 plus_state = 1%R.
Proof. unfold sqnorm. change (seqN (2 ^ 1)) with [0; 1]. unfold Rsuml. cbn [map fold_right]. rewrite !plus_weight. lra. Qed.
Theorem plus_pairs a b : a < 2 -> b < 2 ->
  averaged 2 (fun us v => forall rest, exists l, sampling 1 plus_state 2 ((fun i => nth (N.to_nat i) us 0%R) :: rest) = Some l /\
      (if list_eq_dec N.eq_dec l [a; b] then C1 else C0) = v) ((1 / 4)%R, 0%R).
Proof.
  intros Ha Hb. pose proof (sampling_born 1 plus_state 2 (fun l => if list_eq_dec N.eq_dec l [a; b] then C1 else C0) plus_norm) as H.
  match type of H with averaged _ _ ?v => replace v with ((1 / 4)%R, 0%R) in H; [exact H|] end.
  change (N.to_nat 2) with 2%nat. cbn [independently]. unfold one_outcome. change (seqN (2 ^ 1)) with [0; 1].
  unfold Csuml. cbn [map fold_right]. rewrite !plus_weight.
  assert (Ea : a = 0 \/ a = 1) by lia. assert (Eb : b = 0 \/ b = 1) by lia. destruct Ea as [-> | ->], Eb as [-> | ->];
    repeat (destruct (list_eq_dec _ _ _) as [Q|Q]; try discriminate Q; try (exfalso; apply Q; reflexivity)); apply C_eq; cbn; lra.
Qed.
