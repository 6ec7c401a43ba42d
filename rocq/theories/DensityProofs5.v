(** The methods of DensityMatrix. *)
From Verif Require Export DensityProofs4 StateProofs2.
From Coq Require Import ZifyBool ZifyN ZifyNat Permutation FunctionalExtensionality.

Lemma yields_bind {T U} (p : host dmw T) (k : T -> host dmw U) w v Q : yields p w v -> runs (k v) w Q -> runs (hbind p k) w Q.
Proof.
  intros H1 H2. eapply (runs_bind_done p k w (fun t w1 => t = v /\ w1 = w)).
  - eapply runs_weaken; [exact H1|]. intros o ->. cbn. auto.
  - intros t w1 [-> ->]. exact H2.
Qed.
Lemma modify_bind {U} f (k : unit -> host dmw U) w Q : runs (k tt) (f w) Q -> runs (hbind (hmodify f) k) w Q.
Proof.
  intros H. eapply (runs_bind_done (hmodify f) k w (fun t w1 => t = tt /\ w1 = f w)); [now apply runs_modify|].
  intros t w1 [-> ->]. exact H.
Qed.
(** a loop over all entries, each iteration on its own entry *)
Lemma dfor_ok n f w (v : N -> N -> C) :
  (forall i j, let S a := a = (i, j) in foot S S (f i j)) ->
  (forall i j, i < 2 ^ n -> j < 2 ^ n -> run1 pair_eqb (f i j) (d_raw w) (i, j) = v i j) ->
  becomes n (dfor n f) w v (d_herm w).
Proof.
  intros Hf Hv.
  pose proof (product_computes n (2 ^ n) (2 ^ n) (fun r => r <? 2 ^ n) (fun c => c <? 2 ^ n) (fun r => r) (fun c => c)
    (fun r H => conj (proj1 (N.ltb_lt _ _) H) (proj1 (N.ltb_lt _ _) H)) (fun c H => conj (proj1 (N.ltb_lt _ _) H) (proj1 (N.ltb_lt _ _) H))
    f (fun g => f (g / 2 ^ n) (g mod 2 ^ n)) (d_raw w) (fun g => eq_refl)) as K.
  unfold becomes, dfor. eapply runs_weaken; [eapply (dkernels_becomes n _ w (fun a => v (fst a) (snd a)))|].
  - eexists. split; [apply K|].
    + intros x y Hx Hy S. eapply foot_mono; [| |apply Hf]; intros a ->; unfold S; cbn [fst snd]; apply N.ltb_lt in Hx, Hy; auto.
    + cbn [kcomputes_list]. intros [i j]. unfold inside, d_valid. cbn [fst snd].
      destruct (N.ltb_spec i (2 ^ n)), (N.ltb_spec j (2 ^ n)); cbn [andb]; try reflexivity. now rewrite Hv.
  - intros [t w'|w'|]; cbn; auto. intros [E1 E2]. split; [|exact E2]. intros i j Hi Hj. unfold rho. rewrite E1. now rewrite inside_in.
Qed.
Lemma dfor_write n w v : becomes n (dfor n (fun i j => Wr (i, j) (v i j) Ret)) w v (d_herm w).
Proof.
  apply dfor_ok.
  - intros i j S. cbn. split; [reflexivity|exact I].
  - intros i j _ _. cbn [run1]. unfold upd. now destruct (pair_eqb_spec (i, j) (i, j)).
Qed.
Lemma herm_dfor n h v w : becomes n (set_herm h;~ dfor n (fun i j => Wr (i, j) (v i j) Ret)) w v h.
Proof. apply modify_bind. apply (dfor_write n (DM (d_raw w) h) v). Qed.

Lemma dsum_R n iters f w (g : N -> R) : (forall i, i < iters -> rrun (d_valid n) (d_raw w) (f i) = Some (g i)) ->
  yields (dsum n 0%R Rplus iters f) w (Rsuml g (seqN iters)).
Proof.
  intros H. assert (E : forall t, reduction_of (seqN iters) t ->
    reduce 0%R Rplus (fun i => rrun (d_valid n) (d_raw w) (f i)) t = Some (Rsuml g (seqN iters))).
  { intros t Ht. rewrite <- Rsuml_msum. apply reduce_correct; auto; try (intros; ring).
    intros i Hi. apply H. now apply in_seqN. }
  split.
  - intros o (t & Ht & ->). now rewrite E.
  - eexists. exists (RLeaf (seqN iters)). split; [apply reduction_exists|]. rewrite E; [reflexivity|apply reduction_exists].
Qed.
Lemma dsum_C n iters f w (g : N -> C) : (forall i, i < iters -> rrun (d_valid n) (d_raw w) (f i) = Some (g i)) ->
  yields (dsum n C0 Cadd iters f) w (Csum iters g).
Proof.
  intros H. assert (E : forall t, reduction_of (seqN iters) t ->
    reduce C0 Cadd (fun i => rrun (d_valid n) (d_raw w) (f i)) t = Some (Csum iters g)).
  { intros t Ht. apply (creduce_correct _ g (seqN iters) t Ht). intros i Hi. apply H. now apply in_seqN. }
  split.
  - intros o (t & Ht & ->). now rewrite E.
  - eexists. exists (RLeaf (seqN iters)). split; [apply reduction_exists|]. rewrite E; [reflexivity|apply reduction_exists].
Qed.
Lemma valid_in n i j : i < 2 ^ n -> j < 2 ^ n -> d_valid n (i, j) = true.
Proof. intros Hi Hj. unfold d_valid. cbn [fst snd]. apply N.ltb_lt in Hi, Hj. now rewrite Hi, Hj. Qed.

(** ** Reading *)
Lemma trace_ok n w : yields (get_trace n) w (trace (2 ^ n) (rho w)).
Proof. apply dsum_C. intros i Hi. cbn [rrun]. now rewrite valid_in. Qed.
Lemma need_herm {T} (p : host dmw T) w Q : (if d_herm w then runs p w Q else runs hthrow w Q) -> runs (need_hermitian p) w Q.
Proof. intros H. unfold need_hermitian. eapply yields_bind; [now apply runs_get|]. destruct (d_herm w); exact H. Qed.
Lemma read_diag_ok n w i : i < 2 ^ n -> rrun (d_valid n) (d_raw w) (read_diag i) = Some (fst (rho w i i)).
Proof. intros Hi. cbn [read_diag rrun]. now rewrite valid_in. Qed.
Lemma diag_prob_perm n P M l : Permutation l (filter P (seqN (2 ^ n))) -> Rsuml (fun x => fst (M x x)) l = diag_prob n P M.
Proof. intros H. unfold diag_prob. now apply Rsuml_perm. Qed.
Lemma dm_zero_probability_ok n q w : n < 64 -> q < n -> d_herm w = true ->
  yields (dm_get_zero_probability n q) w (diag_prob n (fun x => negb (N.testbit x q)) (rho w)).
Proof.
  intros Hn Hq Hh. unfold dm_get_zero_probability. destruct (N.leb_spec n q); [lia|]. apply need_herm. rewrite Hh.
  pose proof (enumeration_one_exact n q ltac:(lia) Hq) as HP.
  rewrite <- (diag_prob_perm n _ _ _ HP). rewrite Rsuml_map.
  apply dsum_R. intros i Hi. apply read_diag_ok.
  assert (Hin : In (insert_zero_to_basis_index i q) (filter (fun i => negb (N.testbit i q)) (seqN (2 ^ n)))).
  { eapply Permutation_in; [exact HP|]. apply in_map_iff. exists i. split; [reflexivity|now apply in_seqN]. }
  apply filter_In in Hin as [Hin _]. now apply in_seqN.
Qed.
Lemma dm_zero_probability_throws n q w : n <= q \/ d_herm w = false -> refuses (dm_get_zero_probability n q) w.
Proof.
  intros H. unfold dm_get_zero_probability. destruct (N.leb_spec n q); [now apply runs_throw|]. destruct H as [H|H]; [lia|].
  apply need_herm. rewrite H. now apply runs_throw.
Qed.
Lemma dm_marginal_ok n vs w : n < 64 -> N.of_nat (length vs) = n -> Forall (fun v => v <= 2) vs -> d_herm w = true ->
  yields (dm_get_marginal_probability n vs) w (diag_prob n (shows vs) (rho w)).
Proof.
  intros Hn Hl Hf Hh. unfold dm_get_marginal_probability. rewrite Hl, N.eqb_refl. cbn [negb]. apply need_herm. rewrite Hh.
  destruct (shows_targets vs Hf) as (ts & -> & Hle & Hr & HP); [lia|]. rewrite Hl in *.
  eapply yields_bind; [now apply runs_ret|]. rewrite <- (diag_prob_perm n _ _ _ HP), Rsuml_map.
  apply dsum_R. intros i Hi. apply read_diag_ok. now apply Hr.
Qed.
Lemma dm_marginal_throws n vs w : N.of_nat (length vs) <> n \/ ~ Forall (fun v => v <= 2) vs \/ d_herm w = false ->
  refuses (dm_get_marginal_probability n vs) w.
Proof.
  intros H. unfold dm_get_marginal_probability. destruct (N.eqb_spec (N.of_nat (length vs)) n); cbn [negb]; [|now apply runs_throw].
  apply need_herm. destruct (d_herm w); [|now apply runs_throw].
  destruct H as [H|[H|H]]; [congruence| |discriminate]. rewrite measured_targets_throw by assumption.
  eapply runs_bind; [now apply runs_throw with (Q := fun o => o = HThrown w)| | |]; cbv beta; try discriminate. now intros ? [= ->].
Qed.
Lemma dm_entropy_ok n w : d_herm w = true -> yields (dm_get_entropy n) w
  (Rsuml (fun x => if Rlt_dec 0 (fst (rho w x x)) then (- fst (rho w x x) * log2 (fst (rho w x x)))%R else 0%R) (seqN (2 ^ n))).
Proof.
  intros Hh. apply need_herm. rewrite Hh. apply dsum_R. intros i Hi. cbn [rrun]. now rewrite valid_in.
Qed.
Lemma RtoC_Rsuml {T} (f : T -> R) l : RtoC (Rsuml f l) = Csuml (fun x => RtoC (f x)) l.
Proof. induction l as [|x l IH]; [reflexivity|]. cbn [Rsuml fold_right Csuml]. fold (Rsuml f l). rewrite RtoC_add, IH. reflexivity. Qed.
Lemma pairs_enum d : 0 < d -> Permutation (map (fun g => (g / d, g mod d)) (seqN (d * d))) (list_prod (seqN d) (seqN d)).
Proof.
  intros Hd. apply NoDup_Permutation.
  - apply Prelude.NoDup_map_inj; [|apply NoDup_seqN]. intros x y _ _ E.
    rewrite (N.div_mod x d), (N.div_mod y d) by lia. pose proof (f_equal fst E) as E1. pose proof (f_equal snd E) as E2. cbn [fst snd] in E1, E2.
    now rewrite E1, E2.
  - apply NoDup_list_prod; apply NoDup_seqN.
  - intros [i j]. rewrite in_prod_iff, !in_seqN, in_map_iff. split.
    + intros (g & E & Hg). apply in_seqN in Hg. injection E as <- <-. split; [apply N.div_lt_upper_bound; lia|apply N.mod_lt; lia].
    + intros [Hi Hj]. exists (i * d + j). rewrite in_seqN. rewrite N.div_add_l, N.div_small by lia.
      replace ((i * d + j) mod d) with j by (rewrite N.add_comm, N.mod_add, N.mod_small; lia). split; [f_equal; lia|nia].
Qed.
Lemma RtoC_inj x y : RtoC x = RtoC y -> x = y.
Proof. intros H. exact (f_equal fst H). Qed.
Lemma RtoC_norm2 z : RtoC (Cnorm2 z) = (z * Cconj z)%C.
Proof. Csolve. Qed.
(** C54: the purity is the trace of the square *)
Lemma purity_ok n w : d_herm w = true ->
  yields (get_purity n) w (Rsuml (fun a => Cnorm2 (rho w (fst a) (snd a))) (list_prod (seqN (2 ^ n)) (seqN (2 ^ n)))).
Proof.
  intros Hh. apply need_herm. rewrite Hh. rewrite <- (Rsuml_perm _ _ _ (pairs_enum (2 ^ n) (pow2_pos n))). rewrite Rsuml_map.
  apply dsum_R. intros g Hg. cbn [rrun fst snd]. pose proof (pow2_pos n).
  rewrite valid_in; [reflexivity|apply N.div_lt_upper_bound; lia|apply N.mod_lt; lia].
Qed.
Lemma purity_value n M : hermitian (2 ^ n) M ->
  RtoC (Rsuml (fun a => Cnorm2 (M (fst a) (snd a))) (list_prod (seqN (2 ^ n)) (seqN (2 ^ n)))) = trace (2 ^ n) (mat_mul (2 ^ n) M M).
Proof.
  intros H. rewrite RtoC_Rsuml, Csuml_list_prod. unfold trace, mat_mul. apply Csum_ext. intros i Hi. apply Csum_ext. intros j Hj.
  cbn [fst snd]. rewrite RtoC_norm2. f_equal. exact (H j i Hj Hi).
Qed.
Lemma purity_square n w : d_herm w = true -> hermitian (2 ^ n) (rho w) ->
  exists p, yields (get_purity n) w p /\ RtoC p = trace (2 ^ n) (mat_mul (2 ^ n) (rho w) (rho w)).
Proof. intros Hh H. eexists. split; [now apply purity_ok|now apply purity_value]. Qed.
Lemma purity_throws n w : d_herm w = false -> refuses (get_purity n) w.
Proof. intros H. apply need_herm. rewrite H. now apply runs_throw. Qed.
Lemma entropy_throws n w : d_herm w = false -> refuses (dm_get_entropy n) w.
Proof. intros H. apply need_herm. rewrite H. now apply runs_throw. Qed.

Lemma get_coherence_ok n r c w : r < 2 ^ n -> c < 2 ^ n -> yields (get_coherence_at n r c) w (rho w r c).
Proof.
  intros Hr Hc. unfold get_coherence_at. destruct (N.leb_spec (2 ^ n) r), (N.leb_spec (2 ^ n) c); try lia. now apply runs_get.
Qed.
Lemma get_coherence_throws n r c w : 2 ^ n <= r \/ 2 ^ n <= c -> refuses (get_coherence_at n r c) w.
Proof.
  intros H. unfold get_coherence_at. destruct (N.leb_spec (2 ^ n) r), (N.leb_spec (2 ^ n) c); try lia; now apply runs_throw.
Qed.

(** ** Sampling *)
Lemma d_stacked_sqrt w k : (forall x, x < k -> (0 <= fst (rho w x x))%R) ->
  d_stacked (d_raw w) (N.to_nat k) = stacked_prob (fun x => RtoC (sqrt (fst (rho w x x)))) k.
Proof.
  unfold stacked_prob. revert k. enough (G : forall j : nat, (forall x, x < N.of_nat j -> (0 <= fst (rho w x x))%R) ->
    d_stacked (d_raw w) j = stacked (fun x => RtoC (sqrt (fst (rho w x x)))) j).
  { intros k H. apply G. now rewrite N2Nat.id. }
  induction j as [|j IH]; intros H; [reflexivity|]. cbn [d_stacked stacked]. rewrite IH by (intros; apply H; lia). f_equal.
  unfold Cnorm2, RtoC. cbn [fst snd]. rewrite sqrt_sqrt by (apply H; lia). unfold rho. ring.
Qed.
Lemma bsearch_ext_le fuel : forall st st' r lo hi top, (forall i, i <= top -> st i = st' i) -> hi <= top + 1 -> lo < hi ->
  bsearch fuel st r lo hi = bsearch fuel st' r lo hi.
Proof.
  induction fuel as [|f IH]; intros st st' r lo hi top H Hhi Hlt; [reflexivity|]. cbn [bsearch].
  destruct (N.ltb_spec 1 (hi - lo)); [|reflexivity].
  assert (Hm : lo < (lo + hi) / 2 < hi).
  { split; [apply N.lt_le_trans with (lo + 1); [lia|]; apply N.div_le_lower_bound; lia|apply N.div_lt_upper_bound; lia]. }
  rewrite (H ((lo + hi) / 2)) by lia. destruct (Rlt_dec _ _); apply (IH _ _ _ _ _ top); try exact H; lia.
Qed.
Lemma d_choose_sqrt n w r : (forall x, x < 2 ^ n -> (0 <= fst (rho w x x))%R) ->
  d_choose n (d_raw w) r = choose n (fun x => RtoC (sqrt (fst (rho w x x)))) r.
Proof.
  intros H. unfold d_choose, choose. apply (bsearch_ext_le _ _ _ _ _ _ (2 ^ n)); [|lia|lia].
  intros i Hi. rewrite d_stacked_sqrt; [reflexivity|]. intros x Hx. apply H. lia.
Qed.
Lemma dm_sampling_sqrt n w count rounds : d_herm w = true -> (forall x, x < 2 ^ n -> (0 <= fst (rho w x x))%R) ->
  dm_sampling n w count rounds = Ok (sampling n (fun x => RtoC (sqrt (fst (rho w x x)))) count rounds).
Proof.
  intros Hh H. unfold dm_sampling, sampling. rewrite Hh. cbn [negb].
  replace (fun _ : N => d_choose n (d_raw w)) with (fun _ : N => choose n (fun x => RtoC (sqrt (fst (rho w x x))))); [reflexivity|].
  extensionality k. extensionality r. symmetry. now apply d_choose_sqrt.
Qed.
Lemma diag_cumulative_sqrt M k : (forall x, x < k -> (0 <= fst (M x x))%R) ->
  cumulative (fun x => RtoC (sqrt (fst (M x x)))) k = diag_cumulative M k.
Proof.
  intros H. apply Rsuml_ext_seqN. intros x Hx. unfold Cnorm2, RtoC. cbn [fst snd]. rewrite sqrt_sqrt by (now apply H). ring.
Qed.
Lemma diag_selects_sqrt n M r x : (forall x, x < 2 ^ n -> (0 <= fst (M x x))%R) -> x < 2 ^ n ->
  selects (fun x => RtoC (sqrt (fst (M x x)))) r x -> diag_selects M r x.
Proof.
  intros H Hx. unfold selects, diag_selects. rewrite !diag_cumulative_sqrt; try (intros y Hy; apply H; lia). auto.
Qed.
Lemma dm_sampling_sound n w count rounds l : (forall draw i, In draw rounds -> (0 <= draw i < 1)%R) ->
  d_herm w = true -> (forall x, x < 2 ^ n -> (0 <= fst (rho w x x))%R) ->
  dm_sampling n w count rounds = Ok (Some l) ->
  length l = N.to_nat count /\ forall x, In x l -> x < 2 ^ n /\ exists draw i, In draw rounds /\ diag_selects (rho w) (draw i) x.
Proof.
  intros Hr Hh Hd E. rewrite dm_sampling_sqrt in E by assumption. injection E as E.
  destruct (sampling_sound n _ count rounds l Hr E) as [Hl H]. split; [exact Hl|]. intros x Hx. destruct (H x Hx) as (Hx' & draw & i & Hi & Hs).
  split; [exact Hx'|]. exists draw, i. split; [exact Hi|]. now apply (diag_selects_sqrt n).
Qed.
Lemma diag_sqnorm n M : (forall x, x < 2 ^ n -> (0 <= fst (M x x))%R) ->
  sqnorm n (fun x => RtoC (sqrt (fst (M x x)))) = diag_prob n (fun _ => true) M.
Proof.
  intros H. etransitivity; [exact (diag_cumulative_sqrt M (2 ^ n) H)|]. unfold diag_cumulative, diag_prob. f_equal.
  induction (seqN (2 ^ n)) as [|a l IH]; [reflexivity|]. cbn [filter]. now rewrite <- IH.
Qed.
Lemma dm_sampling_one_round n w count draw rest : (forall i, 0 <= draw i < diag_prob n (fun _ => true) (rho w))%R ->
  d_herm w = true -> (forall x, x < 2 ^ n -> (0 <= fst (rho w x x))%R) ->
  exists l, dm_sampling n w count (draw :: rest) = Ok (Some l) /\ length l = N.to_nat count /\ forall k, k < count -> diag_selects (rho w) (draw k) (nth (N.to_nat k) l 0).
Proof.
  intros Hr Hh Hd. rewrite <- diag_sqnorm in Hr by assumption.
  destruct (sampling_one_round n _ count draw rest Hr) as (l & E & Hl & H). exists l. rewrite dm_sampling_sqrt, E by assumption.
  split; [reflexivity|]. split; [exact Hl|]. intros k Hk. apply (diag_selects_sqrt n); [assumption| |now apply H].
  assert (Hin : In (nth (N.to_nat k) l 0) l) by (apply nth_In; lia).
  assert (Hs : selects (fun x => RtoC (sqrt (fst (rho w x x)))) (draw k) (nth (N.to_nat k) l 0)) by now apply H.
  destruct (N.ltb_spec (nth (N.to_nat k) l 0) (2 ^ n)) as [L|L]; [exact L|exfalso].
  destruct Hs as [Hs _]. pose proof (cumulative_mono (fun x => RtoC (sqrt (fst (rho w x x)))) _ _ L) as Hm.
  destruct (Hr k) as [_ Hr']. unfold sqnorm, cumulative in *. lra.
Qed.
Lemma dm_sampling_throws n w count rounds : d_herm w = false -> dm_sampling n w count rounds = Throw.
Proof. intros H. unfold dm_sampling. now rewrite H. Qed.
Lemma diag_selects_unique n M r x y : (forall x, x < 2 ^ n -> (0 <= fst (M x x))%R) -> x < 2 ^ n -> y < 2 ^ n ->
  diag_selects M r x -> diag_selects M r y -> x = y.
Proof.
  intros H Hx Hy. unfold diag_selects. rewrite <- !diag_cumulative_sqrt; try (intros z Hz; apply H; lia). apply selects_unique.
Qed.
Lemma psd_diag n M x : psd n M -> x < 2 ^ n -> (0 <= fst (M x x))%R.
Proof.
  intros H Hx. destruct (H (basis x)) as [H1 _].
  replace (M x x) with (inner n (basis x) (mat_vec (2 ^ n) M (basis x))); [exact H1|].
  unfold inner. rewrite (Csum_single _ _ x); [|assumption|].
  - unfold mat_vec. rewrite (Csum_single _ _ x); [|assumption|].
    + unfold basis. rewrite N.eqb_refl, Cconj_1. ring.
    + intros j Hj Hne. unfold basis. destruct (N.eqb_spec j x); [contradiction|]. ring.
  - intros j Hj Hne. unfold basis. destruct (N.eqb_spec j x); [contradiction|]. rewrite Cconj_0. ring.
Qed.

(** ** Writing *)
Lemma upd_pair (m : dmem) r c v i j : upd pair_eqb m (r, c) v (i, j) = if (i =? r) && (j =? c) then v else m (i, j).
Proof. unfold upd. now rewrite pair_eqb_pair. Qed.
Lemma modify_becomes n f w M h : mat_eq (2 ^ n) (rho (f w)) M -> d_herm (f w) = h -> becomes n (hmodify f) w M h.
Proof. intros H1 H2. apply runs_modify. cbn. auto. Qed.
Lemma rho_DM m h i j : rho (DM m h) i j = m (i, j).
Proof. reflexivity. Qed.
Lemma scale_ok n coef w : becomes n (dm_multiply_coef n coef) w (fun i j => (coef * rho w i j)%C) (d_herm w && is_real coef).
Proof.
  apply modify_bind. set (h := if Req_EM_T (snd coef) 0 then d_herm w else false).
  replace (d_herm w && is_real coef) with h by (unfold h, is_real; destruct (Req_EM_T _ _), (d_herm w); reflexivity).
  apply (dfor_ok n (fun i j => mul_at (i, j) coef Ret) (DM (d_raw w) h)).
  - intros i j S. split; [reflexivity|]. intros v. split; [reflexivity|exact I].
  - intros i j _ _. cbn [mul_at run1 d_raw]. unfold upd. destruct (pair_eqb_spec (i, j) (i, j)); [|congruence]. unfold rho. ring.
Qed.
Lemma Cnorm2_nonzero z : z <> C0 -> Cnorm2 z <> 0%R.
Proof.
  intros H E. apply H. unfold Cnorm2 in E. destruct z as [a b]. cbn [fst snd] in E.
  pose proof (Rle_0_sqr a) as Ha. pose proof (Rle_0_sqr b) as Hb. unfold Rsqr in *.
  assert (a * a = 0 /\ b * b = 0)%R as [A B] by (split; lra). apply Rmult_integral in A, B.
  unfold C0. f_equal; [destruct A|destruct B]; assumption.
Qed.
Lemma complex_div_inv z t : complex_div z t = (Cinv t * z)%C.
Proof. unfold complex_div, Cinv, Cscale, Cconj, Cmul, Rdiv. cbn [fst snd]. f_equal; ring. Qed.
Lemma normalize_ok n w : trace (2 ^ n) (rho w) <> C0 ->
  becomes n (dm_normalize n) w (fun i j => (Cinv (trace (2 ^ n) (rho w)) * rho w i j)%C) (d_herm w).
Proof.
  intros H. unfold dm_normalize. eapply yields_bind; [apply trace_ok|]. apply Cnorm2_nonzero in H. destruct (Req_EM_T _ _); [contradiction|].
  apply dfor_ok.
  - intros i j S. split; [reflexivity|]. intros v. split; [reflexivity|exact I].
  - intros i j _ _. cbn [run1]. unfold upd. destruct (pair_eqb_spec (i, j) (i, j)); [|congruence]. apply complex_div_inv.
Qed.
Lemma Cinv_l z : z <> C0 -> (Cinv z * z)%C = C1.
Proof.
  intros H. apply Cnorm2_nonzero in H. unfold Cinv, Cscale, Cconj, Cmul, C1, Cnorm2 in *. cbn [fst snd]. f_equal; field; exact H.
Qed.
Lemma trace_scale d c A : trace d (fun i j => (c * A i j)%C) = (c * trace d A)%C.
Proof. unfold trace. now rewrite Csum_mul_l. Qed.
Lemma normalized_trace n w : trace (2 ^ n) (rho w) <> C0 ->
  trace (2 ^ n) (fun i j => (Cinv (trace (2 ^ n) (rho w)) * rho w i j)%C) = C1.
Proof. intros H. rewrite trace_scale. now apply Cinv_l. Qed.

Definition baddr_eqb (a b : bool * (N * N)) : bool := Bool.eqb (fst a) (fst b) && pair_eqb (snd a) (snd b).
Lemma baddr_eqb_spec a b : reflect (a = b) (baddr_eqb a b).
Proof.
  unfold baddr_eqb. destruct a as [x i], b as [y j]. cbn [fst snd]. destruct (Bool.eqb_spec x y), (pair_eqb_spec i j); cbn [andb]; constructor; congruence.
Qed.
Lemma dadd_kernel n (same : bool) coef raw other :
  kcomputes baddr_eqb (fun a => d_valid n (snd a))
    (Kernel (2 ^ n * 2 ^ n) (fun g => let ij := (g / 2 ^ n, g mod 2 ^ n) in
       Rd (false, ij) (fun v => Rd (negb same, ij) (fun u => Wr (false, ij) (v + coef * u)%C Ret))))
    (fun a => if fst a then other (snd a) else raw (snd a))
    (fun a => if fst a then other (snd a) else
              if d_valid n (snd a) then (raw (snd a) + coef * (if same then raw (snd a) else other (snd a)))%C else raw (snd a)).
Proof.
  pose proof (pow2_pos n) as Hp.
  assert (Hown : forall i j, i < 2 ^ n -> j < 2 ^ n -> (i * 2 ^ n + j) / 2 ^ n = i /\ (i * 2 ^ n + j) mod 2 ^ n = j).
  { intros i j Hi Hj. rewrite N.div_add_l, N.div_small by lia. split; [lia|]. rewrite N.add_comm, N.mod_add, N.mod_small; lia. }
  eapply par_computes_ext; cycle 1.
  - apply (owned_par_computes _ _ _ baddr_eqb_spec _ (2 ^ n * 2 ^ n) _ _
      (fun a => fst a && d_valid n (snd a) && negb same) (fun a => negb (fst a) && d_valid n (snd a)) (fun a => fst (snd a) * 2 ^ n + snd (snd a))).
    + intros [x [i j]]. unfold d_valid. cbn [fst snd]. destruct x; cbn [negb andb]; [discriminate|]. intros H. split; [assumption|].
      split; [|reflexivity]. nia.
    + intros [x [i j]]. cbn [fst snd]. destruct x; cbn [negb andb]; [|discriminate]. intros H. apply andb_prop in H as [H _]. rewrite H. auto.
    + intros g Hg. assert (Hi : g / 2 ^ n < 2 ^ n) by (apply N.div_lt_upper_bound; lia). assert (Hj : g mod 2 ^ n < 2 ^ n) by (apply N.mod_lt; lia).
      assert (Ho : negb (fst (false, (g / 2 ^ n, g mod 2 ^ n))) && d_valid n (snd (false, (g / 2 ^ n, g mod 2 ^ n))) = true /\
                   fst (snd (false, (g / 2 ^ n, g mod 2 ^ n))) * 2 ^ n + snd (snd (false, (g / 2 ^ n, g mod 2 ^ n))) = g).
      { cbn [fst snd negb andb]. rewrite valid_in by assumption. split; [reflexivity|]. rewrite (N.div_mod g (2 ^ n)) at 3 by lia. lia. }
      split; [right; exact Ho|]. intros v. split.
      { destruct same; [right; exact Ho|]. left. cbn [fst snd negb andb]. now rewrite valid_in. }
      intros u. split; [exact Ho|exact I].
  - intros [x [i j]]. cbn [fst snd negb andb]. destruct x; cbn [negb andb]; [reflexivity|].
    destruct (d_valid n (i, j)) eqn:Ev; [|reflexivity]. unfold d_valid in Ev. cbn [fst snd] in Ev. apply andb_prop in Ev as [Ei Ej]. apply N.ltb_lt in Ei, Ej.
    destruct (Hown i j Ei Ej) as [E1 E2]. cbn [k_body run1 fst snd]. rewrite E1, E2. unfold upd.
    destruct (baddr_eqb_spec (false, (i, j)) (false, (i, j))); [|congruence]. destruct same; reflexivity.
Qed.
Lemma dadd_ok n coef same other w :
  becomes n (add_density_matrix_with_coef n coef same n other) w (fun i j => (rho w i j + coef * (if same then rho w i j else rho other i j))%C)
    (d_herm w && (if same then d_herm w else d_herm other) && is_real coef).
Proof.
  unfold becomes, add_density_matrix_with_coef, runs. rewrite N.eqb_refl. cbn [negb d_raw].
  pose proof (dadd_kernel n same coef (d_raw w) (d_raw other)) as K. change (fun a b : bool * (N * N) => Bool.eqb (fst a) (fst b) && pair_eqb (snd a) (snd b)) with baddr_eqb.
  match goal with |- context [run_kernels baddr_eqb ?v ?ks _ ?m] =>
    destruct (kcomputes_list_run baddr_eqb v ks m _ (ex_intro _ _ (conj K (fun a => eq_refl)))) as [K1 (s & r & K2)] end.
  split.
  - intros o (scheds & Ho). specialize (K1 scheds). destruct (run_kernels _ _ _ _ _); try contradiction. subst. cbn [done d_herm d_raw].
    split.
    + intros i j Hi Hj. unfold rho. cbn [d_raw fst snd]. rewrite valid_in by assumption. reflexivity.
    + unfold is_real. destruct (Req_EM_T _ _), same, (d_herm w), (d_herm other); reflexivity.
  - eexists. exists s. rewrite K2. reflexivity.
Qed.

(** ** Histories *)
Lemma leb_ltb a b : (a <=? b) = negb (b <? a).
Proof. destruct (N.leb_spec a b), (N.ltb_spec b a); lia. Qed.
Lemma matrix_op_ext n o A B A' : mat_eq (2 ^ n) A B -> matrix_op n o A = Some A' -> exists B', matrix_op n o B = Some B' /\ mat_eq (2 ^ n) A' B'.
Proof.
  intros E H. destruct o; cbn [matrix_op] in *;
  try (match type of H with (if ?b then _ else _) = _ => destruct b; [|discriminate] end); injection H as <-;
  (eexists; split; [reflexivity|]); try (apply mat_eq_refl); try exact E.
  - intros i j Hi Hj. cbv beta. now rewrite (E i j Hi Hj).
  - intros i j Hi Hj. cbv beta. now rewrite (E i j Hi Hj).
  - intros i j Hi Hj. cbv beta. now rewrite (E i j Hi Hj), (trace_ext _ _ _ E).
  - intros i j Hi Hj. cbv beta. now rewrite (E i j Hi Hj).
  - intros i j Hi Hj. cbv beta. now rewrite (E i j Hi Hj).
  - apply sandwich_ext; [apply mat_eq_refl|exact E].
Qed.
Lemma matrix_op_none n o A B : matrix_op n o A = None -> matrix_op n o B = None.
Proof.
  destruct o; cbn [matrix_op]; try discriminate; match goal with |- (if ?b then _ else _) = _ -> _ => destruct b; [discriminate|auto] end.
Qed.
Lemma run_dop_ok n o w A' : n < 32 -> dop_ok n o (rho w) -> matrix_op n o (rho w) = Some A' -> becomes n (run_dop n o) w A' (flag_op o (d_herm w)).
Proof.
  intros Hn Hok E. destruct o; cbn [matrix_op run_dop flag_op dop_ok] in *.
  - injection E as <-. apply herm_dfor.
  - injection E as <-. apply herm_dfor.
  - destruct (N.ltb_spec x (2 ^ n)); [|discriminate]. injection E as <-. unfold dm_set_computational_basis. destruct (N.leb_spec (2 ^ n) x); [lia|]. apply herm_dfor.
  - unfold set_coherence_at. rewrite !leb_ltb. destruct (r <? 2 ^ n), (c <? 2 ^ n); try discriminate. injection E as <-. cbn [negb orb].
    apply modify_becomes; [|cbn [d_herm]; unfold is_real; now rewrite andb_assoc].
    intros i j Hi Hj. rewrite rho_DM. apply upd_pair.
  - unfold set_coherence_pair_at. rewrite !leb_ltb. destruct (r <? 2 ^ n), (c <? 2 ^ n); try discriminate. injection E as <-. cbn [negb orb].
    apply modify_becomes; [|reflexivity]. intros i j Hi Hj. rewrite rho_DM. destruct (N.eqb_spec r c) as [->|Hne].
    + rewrite upd_pair. destruct ((i =? c) && (j =? c)); reflexivity.
    + rewrite !upd_pair. destruct (N.eqb_spec i r), (N.eqb_spec j c), (N.eqb_spec i c), (N.eqb_spec j r); cbn [andb]; try reflexivity; congruence.
  - unfold dm_load_matrix. destruct ((m_rows M =? 2 ^ n) && (m_cols M =? 2 ^ n)) eqn:Em; [|discriminate]. injection E as <-.
    apply andb_prop in Em as [-> ->]. cbn [negb orb]. apply herm_dfor.
  - unfold dm_load_dm. destruct (m =? n); [|discriminate]. injection E as <-. cbn [negb]. apply (herm_dfor n (d_herm other) (rho other)).
  - unfold dm_load_state. destruct (m =? n); [|discriminate]. injection E as <-. cbn [negb]. apply herm_dfor.
  - injection E as <-. now apply normalize_ok.
  - destruct (N.eqb_spec m n) as [->|]; [|discriminate]. injection E as <-. apply dadd_ok.
  - injection E as <-. apply scale_ok.
  - injection E as <-. apply modify_becomes; [apply mat_eq_refl|reflexivity].
  - destruct Hok as [Hty [g Hg]]. rewrite Hg. cbn [hlift]. eapply yields_bind; [now apply runs_ret|].
    destruct (dm_supported k && _) eqn:Eb; [|discriminate]. injection E as <-. apply andb_prop in Eb as [Es Ef].
    apply (dm_update_call vf); try assumption. apply Forall_forall. intros q Hq. rewrite forallb_forall in Ef. apply N.ltb_lt. now apply Ef.
Qed.
Lemma run_dop_throws n o w : n < 32 -> dop_ok n o (rho w) -> matrix_op n o (rho w) = None -> refuses (run_dop n o) w.
Proof.
  intros Hn Hok E. destruct o; cbn [matrix_op run_dop dop_ok] in *; try discriminate.
  - unfold dm_set_computational_basis. rewrite leb_ltb. destruct (x <? 2 ^ n); [discriminate|]. now apply runs_throw.
  - unfold set_coherence_at. rewrite !leb_ltb. destruct (r <? 2 ^ n), (c <? 2 ^ n); try discriminate; now apply runs_throw.
  - unfold set_coherence_pair_at. rewrite !leb_ltb. destruct (r <? 2 ^ n), (c <? 2 ^ n); try discriminate; now apply runs_throw.
  - unfold dm_load_matrix. destruct (m_rows M =? 2 ^ n), (m_cols M =? 2 ^ n); try discriminate; now apply runs_throw.
  - unfold dm_load_dm. destruct (m =? n); [discriminate|]. now apply runs_throw.
  - unfold dm_load_state. destruct (m =? n); [discriminate|]. now apply runs_throw.
  - unfold add_density_matrix_with_coef. destruct (m =? n); [discriminate|]. cbn [negb]. split; [auto|eexists; reflexivity].
  - destruct Hok as [Hty [g Hg]]. rewrite Hg. cbn [hlift]. eapply yields_bind; [now apply runs_ret|].
    destruct (dm_supported k) eqn:Es; [|now apply (dm_update_unsupported vf k)].
    cbn [andb] in E. destruct (forallb _ _) eqn:Ef; [discriminate|]. apply (dm_update_out_of_range vf k); try assumption; [lia|].
    intros HF. rewrite Forall_forall in HF. apply not_true_iff_false in Ef. apply Ef. apply forallb_forall. intros q Hq. apply N.ltb_lt. now apply HF.
Qed.
Lemma dop_ok_ext n o A B : mat_eq (2 ^ n) A B -> dop_ok n o A -> dop_ok n o B.
Proof. intros E. destruct o; cbn [dop_ok]; auto. now rewrite (trace_ext _ _ _ E). Qed.
Lemma run_dops_ok n l : n < 32 -> forall w A, mat_eq (2 ^ n) (rho w) A -> dops_ok n l A ->
  runs (run_dops n l) w (fun o => match matrix_ops n l A (d_herm w) with
    | (A', h', true) => exists w', o = HThrown w' /\ mat_eq (2 ^ n) (rho w') A' /\ d_herm w' = h'
    | (A', h', false) => exists w', o = HDone tt w' /\ mat_eq (2 ^ n) (rho w') A' /\ d_herm w' = h'
    end).
Proof.
  intros Hn. induction l as [|o l IH]; intros w A HA Hok.
  - cbn [matrix_ops run_dops fold_right]. apply runs_ret. eauto.
  - cbn [dops_ok] in Hok. destruct Hok as [Ho Hl]. cbn [matrix_ops run_dops fold_right]. fold (run_dops n l).
    assert (Hw : dop_ok n o (rho w)) by (eapply dop_ok_ext; [apply mat_eq_sym; exact HA|exact Ho]).
    destruct (matrix_op n o A) as [A1|] eqn:E.
    + destruct (matrix_op_ext n o A (rho w) A1 (mat_eq_sym _ _ _ HA) E) as (B & EB & HB).
      eapply (runs_bind_done _ _ w (fun _ w1 => mat_eq (2 ^ n) (rho w1) A1 /\ d_herm w1 = flag_op o (d_herm w))).
      * eapply runs_weaken; [apply (run_dop_ok n o w B Hn Hw EB)|]. intros [t w1|w1|]; cbn; auto. intros [H1 H2]. split; [|exact H2].
        eapply mat_eq_trans; [exact H1|]. now apply mat_eq_sym.
      * intros t w1 [H1 H2]. rewrite <- H2. now apply IH; [|apply Hl].
    + pose proof (run_dop_throws n o w Hn Hw (matrix_op_none n o A (rho w) E)) as Ht.
      eapply runs_bind; [exact Ht| | |]; cbv beta; try discriminate. intros w1 [= ->]. eauto.
Qed.
