(** C30, C49, C50: batched states and classical registers. *)
From Verif Require Export StateProofs2.
From Coq Require Import ZifyBool ZifyN ZifyNat Permutation FunctionalExtensionality.

Lemma row_lt B n b i : b < B -> i < 2 ^ n -> at_row n b i < B * 2 ^ n.
Proof. unfold at_row. intros. nia. Qed.
Lemma row_div n b i : i < 2 ^ n -> at_row n b i / 2 ^ n = b.
Proof. intros. unfold at_row. pose proof (pow2_pos n). symmetry. apply (N.div_unique _ _ _ i); lia. Qed.
Lemma row_mod n b i : i < 2 ^ n -> at_row n b i mod 2 ^ n = i.
Proof. intros. unfold at_row. pose proof (pow2_pos n). symmetry. apply (N.mod_unique _ _ b i); lia. Qed.
Lemma row_split n a : a = at_row n (a / 2 ^ n) (a mod 2 ^ n).
Proof. unfold at_row. pose proof (pow2_pos n). pose proof (N.div_mod a (2 ^ n)). lia. Qed.
Lemma row_of B n a : a < B * 2 ^ n -> a / 2 ^ n < B /\ a mod 2 ^ n < 2 ^ n.
Proof. intros H. pose proof (pow2_pos n). split; [apply N.div_lt_upper_bound; lia|apply N.mod_lt; lia]. Qed.
Lemma land_row n a : N.land a (2 ^ n - 1) = a mod 2 ^ n.
Proof. rewrite <- N.land_ones, N.ones_equiv. f_equal. pose proof (pow2_pos n). lia. Qed.
Lemma row_inj n b i b' i' : i < 2 ^ n -> i' < 2 ^ n -> at_row n b i = at_row n b' i' -> b = b' /\ i = i'.
Proof.
  intros H H' E. split.
  - rewrite <- (row_div n b i H), E. now apply row_div.
  - rewrite <- (row_mod n b i H), E. now apply row_mod.
Qed.

Definition flat (n : N) (f : N -> state) : state := fun a => f (a / 2 ^ n) (a mod 2 ^ n).
Lemma batch_flat n f b i : i < 2 ^ n -> batch n b (flat n f) i = f b i.
Proof. intros H. unfold batch, flat. fold (at_row n b i). now rewrite row_div, row_mod. Qed.
Lemma sets_rows B n p w f : sets (B * 2 ^ n) p w (flat n f) -> runs p w (done (fun _ w' => rows_become B n f w w')).
Proof.
  intros H. eapply runs_weaken; [exact H|]. intros [t w'|w'|]; simpl; auto. intros (H1 & H2 & H3 & H4).
  repeat split; auto. intros b i Hb Hi. rewrite <- (batch_flat n f b i Hi). unfold batch. apply H1. now apply row_lt.
Qed.
Lemma rows_sets B n (p : host world unit) w f g : runs p w (done (fun _ w' => rows_become B n f w w')) -> (forall b i, b < B -> i < 2 ^ n -> f b i = g b i) ->
  runs p w (done (fun _ w' => rows_become B n g w w')).
Proof.
  intros H E. eapply runs_weaken; [exact H|]. intros [t w'|w'|]; simpl; auto. intros (H1 & H2 & H3 & H4).
  repeat split; auto. intros b i Hb Hi. rewrite H1 by assumption. auto.
Qed.

Lemma per_batch_returns {T} (f : N -> host world T) w (g : N -> T) bs :
  (forall b, In b bs -> returns (f b) w (g b)) -> returns (per_batch f bs) w (map g bs).
Proof.
  induction bs as [|b bs IH]; intros H; [now apply runs_ret|]. cbn [per_batch map].
  eapply returns_bind; [apply H; now left|]. eapply returns_bind; [apply IH; intros; apply H; now right|]. now apply runs_ret.
Qed.

Lemma b_squared_norm_ok B n w : returns (b_get_squared_norm B n) w (elementwise B n (sqnorm n) (w_amp w)).
Proof.
  apply per_batch_returns. intros b Hb. apply in_seqN in Hb. apply (hsum_returns_R _ _ _ _ (fun i => Cnorm2 (batch n b (w_amp w) i))).
  intros i Hi. now apply (read_norm_ok (B * 2 ^ n) (w_amp w) (at_row n b i)), row_lt.
Qed.
Lemma b_zero_probability_ok B n q w : n < 64 -> q < n ->
  returns (b_get_zero_probability B n q) w (elementwise B n (prob n (fun x => negb (N.testbit x q))) (w_amp w)).
Proof.
  intros Hn Hq. unfold b_get_zero_probability. destruct (N.leb_spec n q); [lia|].
  apply per_batch_returns. intros b Hb. apply in_seqN in Hb.
  pose proof (enumeration_one_exact n q ltac:(lia) Hq) as HP.
  rewrite <- (prob_perm n _ _ _ HP). rewrite Rsuml_map.
  apply (hsum_returns_R _ _ _ _ (fun i => Cnorm2 (batch n b (w_amp w) (insert_zero_to_basis_index i q)))). intros i Hi.
  apply (read_norm_ok (B * 2 ^ n) (w_amp w) (at_row n b (insert_zero_to_basis_index i q))), row_lt; [assumption|].
  assert (Hin : In (insert_zero_to_basis_index i q) (filter (fun i => negb (N.testbit i q)) (seqN (2 ^ n)))).
  { eapply Permutation_in; [exact HP|]. apply (in_map (fun it => insert_zero_to_basis_index it q)), in_seqN. assumption. }
  apply filter_In in Hin as [Hin _]. now apply in_seqN in Hin.
Qed.
Lemma b_zero_probability_throws B n q w : n <= q -> throws (b_get_zero_probability B n q) w.
Proof. intros H. unfold b_get_zero_probability. apply N.leb_le in H. rewrite H. now apply runs_throw. Qed.
Lemma b_marginal_ok B n vs w : n < 64 -> N.of_nat (length vs) = n -> Forall (fun v => v <= 2) vs ->
  returns (b_get_marginal_probability B n vs) w (elementwise B n (prob n (shows vs)) (w_amp w)).
Proof.
  intros Hn Hl Hf. unfold b_get_marginal_probability. rewrite Hl, N.eqb_refl. cbn [negb].
  destruct (shows_targets vs Hf) as (ts & -> & Hle & Hr & HP); [lia|]. rewrite Hl in *.
  eapply returns_bind; [now apply runs_ret|]. apply per_batch_returns. intros b Hb. apply in_seqN in Hb.
  rewrite <- (prob_perm n _ _ _ HP), Rsuml_map.
  apply (hsum_returns_R _ _ _ _ (fun i => Cnorm2 (batch n b (w_amp w) (fold_left insert_measured ts i)))). intros i Hi.
  destruct (Hr i Hi) as [H1 ->]. now apply (read_norm_ok (B * 2 ^ n) (w_amp w) (at_row n b (fold_left insert_measured ts i))), row_lt.
Qed.
Lemma b_marginal_throws B n vs w : N.of_nat (length vs) <> n \/ ~ Forall (fun v => v <= 2) vs ->
  throws (b_get_marginal_probability B n vs) w.
Proof.
  intros H. unfold b_get_marginal_probability. destruct (N.eqb_spec (N.of_nat (length vs)) n) as [E|E]; cbn [negb]; [|now apply runs_throw].
  destruct H as [H|H]; [contradiction|]. rewrite (measured_targets_throw vs 0 H). cbn [hlift].
  eapply runs_bind; [apply runs_throw; instantiate (1 := fun o => o = HThrown w); reflexivity| | |]; cbv beta; try discriminate. now intros ? [= ->].
Qed.
Lemma b_reduced_ok B n w : returns (b_get_reduced_state B n) w (map (fun i => Csuml (fun b => batch n b (w_amp w) i) (seqN B)) (seqN (2 ^ n))).
Proof.
  apply per_batch_returns. intros i Hi. apply in_seqN in Hi. apply hsum_returns_C. intros b Hb. cbn [rrun].
  pose proof (row_lt B n b i Hb Hi) as H. apply N.ltb_lt in H. now rewrite H.
Qed.

Ltac solve_kernel := intros; cbn [foot run1]; unfold upd; rewrite ?N.eqb_refl; auto.
(** one write per amplitude *)
Lemma write_rows B n w (v : N -> C) f : (forall b i, b < B -> i < 2 ^ n -> v (at_row n b i) = f b i) ->
  runs (one_kernel (B * 2 ^ n) (fun a => Wr a (v a) Ret)) w (done (fun _ w' => rows_become B n f w w')).
Proof.
  intros H. apply sets_rows. apply (one_kernel_sets _ _ (fun a _ => v a)).
  - intros i Hi. cbn [foot]. auto.
  - intros i m Hi. cbn [run1]. unfold upd. now rewrite N.eqb_refl.
  - intros a Ha. unfold flat. destruct (row_of B n a Ha). rewrite <- H by assumption. now rewrite <- row_split.
Qed.
Definition on_batches (B n : N) (p : host world unit) (w : world) (r : option (N -> state)) : Prop :=
  match r with
  | Some f => runs p w (done (fun _ w' => rows_become B n f w w'))
  | None => throws p w
  end.
Definition rows_agree (B n : N) (psi : state) (f : N -> state) : Prop := forall b i, b < B -> i < 2 ^ n -> batch n b psi i = f b i.

Lemma b_basis_ok B n x w f : rows_agree B n (w_amp w) f -> on_batches B n (b_set_computational_basis B n x) w (on_all B n (SBasis x) f).
Proof.
  intros Ha. unfold on_all. cbn [vector_op]. unfold b_set_computational_basis.
  destruct (N.ltb_spec x (2 ^ n)) as [H|H]; destruct (N.leb_spec (2 ^ n) x); try lia; [|now apply runs_throw].
  cbn [on_batches]. apply (write_rows B n w (fun a => bit_amp (N.land a (2 ^ n - 1) =? x))).
  intros b i Hb Hi. now rewrite land_row, row_mod.
Qed.
Lemma b_zero_norm_ok B n w f : on_batches B n (b_set_zero_norm_state B n) w (on_all B n SZeroNorm f).
Proof. cbn. apply (write_rows B n w (fun _ => C0)). reflexivity. Qed.
Lemma b_multiply_ok B n c w f : rows_agree B n (w_amp w) f -> on_batches B n (b_multiply_coef B n c) w (on_all B n (SMultiply c) f).
Proof.
  intros Ha. cbn. apply sets_rows. apply (one_kernel_sets _ _ (fun _ v => (v * c)%C)).
  - intros i Hi. unfold mul_at. cbn [foot]. auto.
  - intros i m Hi. unfold mul_at. cbn [run1]. unfold upd. now rewrite N.eqb_refl.
  - intros a Hlt. unfold flat. destruct (row_of B n a Hlt). rewrite <- Ha by assumption. unfold batch. fold (at_row n (a / 2 ^ n) (a mod 2 ^ n)).
    rewrite <- row_split. ring.
Qed.
Lemma b_set_ok B n m phi w f : on_batches B n (b_set_state_vector B n m phi) w (family_op B n (BoSet m phi) f).
Proof.
  cbn [family_op]. unfold b_set_state_vector.
  destruct (N.eqb_spec n m) as [->|H]; [rewrite N.eqb_refl|destruct (N.eqb_spec (2 ^ n) (2 ^ m)) as [E|E]]; cbn [negb on_batches].
  - apply (write_rows B m w (fun a => phi (N.land a (2 ^ m - 1)))). intros b i Hb Hi. now rewrite land_row, row_mod.
  - exfalso. apply H. apply N.pow_inj_r in E; [assumption|lia].
  - now apply runs_throw.
Qed.
Lemma b_set_at_ok B n k m phi w f : rows_agree B n (w_amp w) f ->
  on_batches B n (b_set_state_vector_at B n k m phi) w (family_op B n (BoSetAt k m phi) f).
Proof.
  intros Ha. cbn [family_op]. unfold b_set_state_vector_at.
  destruct (N.leb_spec B k) as [Hk|Hk]; destruct (N.ltb_spec k B); try lia; cbn [andb on_batches]; [now apply runs_throw|].
  destruct (N.eqb_spec n m) as [->|H']; [rewrite N.eqb_refl|destruct (N.eqb_spec (2 ^ n) (2 ^ m)) as [E|E]]; cbn [negb on_batches].
  - apply sets_rows. apply (pointwise _ (2 ^ m) (at_row m k) _ (fun i _ => phi i)).
    + intros i Hi. now apply row_lt.
    + intros i j Hi Hj E. now apply row_inj in E.
    + intros i Hi. cbn [foot]. auto.
    + intros i mm Hi. cbn [run1]. unfold upd. now rewrite N.eqb_refl.
    + intros i Hi. unfold flat. rewrite row_div, row_mod, N.eqb_refl by assumption. reflexivity.
    + intros a Hlt Hn. unfold flat. destruct (row_of B m a Hlt) as [H1 H2]. destruct (N.eqb_spec (a / 2 ^ m) k) as [E|E].
      * exfalso. apply (Hn (a mod 2 ^ m) H2). rewrite <- E. now rewrite <- row_split.
      * rewrite <- Ha by assumption. unfold batch. fold (at_row m (a / 2 ^ m) (a mod 2 ^ m)). now rewrite <- row_split.
  - exfalso. apply H'. apply N.pow_inj_r in E; [assumption|lia].
  - now apply runs_throw.
Qed.
Lemma b_load_ok B n ls w f : on_batches B n (b_load B n ls) w (family_op B n (BoLoad ls) f).
Proof.
  cbn [family_op]. unfold b_load. destruct (N.of_nat (length ls) =? B); cbn [negb andb on_batches]; [|now apply runs_throw].
  destruct (forallb _ ls); cbn [negb on_batches]; [|now apply runs_throw].
  apply (write_rows B n w (fun a => nth (N.to_nat (N.land a (2 ^ n - 1))) (nth (N.to_nat (N.shiftr a n)) ls []) C0)).
  intros b i Hb Hi. rewrite land_row, row_mod, N.shiftr_div_pow2, row_div by assumption. reflexivity.
Qed.
Lemma b_add_ok B n c same b2 m other w f : rows_agree B n (w_amp w) f ->
  on_batches B n (b_add_state_vector_with_coef B n c same b2 m other) w (family_op B n (BoAdd c same b2 m other) f).
Proof.
  intros Ha. cbn [family_op]. unfold b_add_state_vector_with_coef.
  destruct (N.eqb_spec n m) as [<-|Hm]; cbn [negb orb andb]; [|now apply runs_throw].
  destruct (N.eqb_spec B b2) as [<-|Hb]; cbn [negb orb andb]; [|now apply runs_throw].
  cbn [on_batches]. apply sets_rows.
  destruct (kcomputes_list_run addr2_eqb (fun a => if fst a then snd a <? B * 2 ^ n else snd a <? B * 2 ^ n)
    [Kernel (B * 2 ^ n) (fun i => Rd (false, i) (fun v => Rd (negb same, i) (fun u => Wr (false, i) (v + c * u)%C Ret)))]
    (fun a => if fst a then other (snd a) else w_amp w (snd a)) _
    (ex_intro _ _ (conj (add_kernel (B * 2 ^ n) (B * 2 ^ n) same c (w_amp w) other (or_intror (N.le_refl _))) (fun _ => eq_refl)))) as [H1 (s & r & H2)].
  split.
  - intros o (scheds & Ho). specialize (H1 scheds). destruct (run_kernels _ _ _ _ _); try contradiction. subst.
    cbn [done]. repeat split. cbn [fst snd w_amp set_amp]. intros a Hlt. pose proof Hlt as Hlt'. apply N.ltb_lt in Hlt'. rewrite Hlt'.
    unfold flat. destruct (row_of B n a Hlt). rewrite <- Ha by assumption. unfold batch.
    fold (at_row n (a / 2 ^ n) (a mod 2 ^ n)). now rewrite <- row_split.
  - eexists. exists s. rewrite H2. reflexivity.
Qed.
(** normalize, element by element *)
Lemma row_normalize_ok B n k w : k < B -> sqnorm n (batch n k (w_amp w)) <> 0%R ->
  runs (s <~ sum_R (B * 2 ^ n) (2 ^ n) (fun i => read_norm (at_row n k i));;
      if Req_EM_T (sqrt s) 0 then hundefined
      else hplan (B * 2 ^ n) (InPlace [Kernel (2 ^ n) (fun i =>
             Rd (at_row n k i) (fun v => Wr (at_row n k i) ((fst v / sqrt s)%R, (snd v / sqrt s)%R) Ret))])) w
    (done (fun _ w' => rows_become B n (fun b => if b =? k
        then (fun x => Cscale (/ sqrt (sqnorm n (batch n k (w_amp w)))) (batch n k (w_amp w) x)) else batch n b (w_amp w)) w w')).
Proof.
  intros Hk Hz. eapply returns_bind.
  { apply (hsum_returns_R _ _ _ _ (fun i => Cnorm2 (batch n k (w_amp w) i))). intros i Hi. now apply (read_norm_ok (B * 2 ^ n) (w_amp w) (at_row n k i)), row_lt. }
  fold (sqnorm n (batch n k (w_amp w))). set (s := sqnorm n (batch n k (w_amp w))) in *.
  destruct (Req_EM_T _ _) as [E|E]; [now apply sqrt_neq_0 in E; [|apply sqnorm_nonneg|]|].
  apply sets_rows. apply (pointwise _ (2 ^ n) (at_row n k) _ (fun i v => ((fst v / sqrt s)%R, (snd v / sqrt s)%R))).
  - intros i Hi. now apply row_lt.
  - intros i j Hi Hj E'. now apply row_inj in E'.
  - intros i Hi. cbn [foot]. auto.
  - intros i mm Hi. cbn [run1]. unfold upd. now rewrite N.eqb_refl.
  - intros i Hi. unfold flat. rewrite row_div, row_mod, N.eqb_refl by assumption. unfold Cscale, Rdiv, batch, at_row. f_equal; ring.
  - intros a Hlt Hn. unfold flat. destruct (row_of B n a Hlt) as [H1 H2]. destruct (N.eqb_spec (a / 2 ^ n) k) as [E'|E'].
    + exfalso. apply (Hn (a mod 2 ^ n) H2). rewrite <- E'. now rewrite <- row_split.
    + unfold batch. fold (at_row n (a / 2 ^ n) (a mod 2 ^ n)). now rewrite <- row_split.
Qed.
Lemma b_normalize_ok B n w f : rows_agree B n (w_amp w) f -> (forall b, b < B -> sqnorm n (f b) <> 0%R) ->
  on_batches B n (b_normalize B n) w (on_all B n SNormalize f).
Proof.
  intros Ha Hz. cbn [on_all vector_op on_batches]. unfold b_normalize, for_batches.
  set (nf := fun b x => Cscale (/ sqrt (sqnorm n (f b))) (f b x)).
  assert (G : forall l w0, NoDup l -> (forall b, In b l -> b < B) ->
    (forall b i, b < B -> i < 2 ^ n -> In b l -> batch n b (w_amp w0) i = f b i) ->
    runs (fold_right (fun b p => (s <~ sum_R (B * 2 ^ n) (2 ^ n) (fun i => read_norm (at_row n b i));;
      if Req_EM_T (sqrt s) 0 then hundefined
      else hplan (B * 2 ^ n) (InPlace [Kernel (2 ^ n) (fun i =>
             Rd (at_row n b i) (fun v => Wr (at_row n b i) ((fst v / sqrt s)%R, (snd v / sqrt s)%R) Ret))]));~ p) (hret tt) l) w0
      (done (fun _ w' => rows_become B n (fun b => if existsb (N.eqb b) l then nf b else batch n b (w_amp w0)) w0 w'))).
  { induction l as [|k l IH]; intros w0 Hnd Hin Hag.
    - apply runs_ret. cbn. repeat split; auto.
    - inversion Hnd as [|? ? Hk Hnd']; subst. cbn [fold_right].
      assert (HkB : k < B) by (apply Hin; now left).
      assert (Es : sqnorm n (batch n k (w_amp w0)) = sqnorm n (f k)).
      { apply sqnorm_ext. intros x Hx. apply Hag; auto. now left. }
      eapply runs_bind_done; [apply row_normalize_ok; [assumption|rewrite Es; now apply Hz]|].
      intros [] w1 (H1 & H2 & H3 & H4). rewrite Es in H1.
      eapply runs_weaken; [apply (IH w1 Hnd')|].
      + intros; apply Hin; now right.
      + intros b i Hb Hi Hbl. rewrite H1 by assumption. destruct (N.eqb_spec b k) as [->|]; [contradiction|]. apply Hag; auto. now right.
      + intros [t w'|w'|]; simpl; auto. intros (K1 & K2 & K3 & K4). repeat split; try congruence.
        intros b i Hb Hi. rewrite K1 by assumption. destruct (N.eqb_spec b k) as [->|Hne].
        * cbn [orb]. destruct (existsb (N.eqb k) l) eqn:Ex; [reflexivity|]. rewrite H1, N.eqb_refl by assumption.
          unfold nf. rewrite Hag by (auto; now left). reflexivity.
        * cbn [orb]. destruct (existsb (N.eqb b) l) eqn:Ex; [reflexivity|]. rewrite H1 by assumption.
          destruct (N.eqb_spec b k); [congruence|reflexivity]. }
  eapply rows_sets; [apply (G (seqN B) w (NoDup_seqN B))|].
  - intros b Hb. now apply in_seqN.
  - intros b i Hb Hi _. now apply Ha.
  - intros b i Hb Hi. cbv beta. assert (existsb (N.eqb b) (seqN B) = true) as ->.
    { apply existsb_exists. exists b. split; [now apply in_seqN|apply N.eqb_refl]. }
    reflexivity.
Qed.
Lemma run_bop_ok B n o f w : rows_agree B n (w_amp w) f -> (o = BoNormalize -> forall b, b < B -> sqnorm n (f b) <> 0%R) ->
  on_batches B n (run_bop B n o) w (family_op B n o f).
Proof.
  intros Ha Hn. destruct o; cbn [run_bop].
  - pose proof (b_basis_ok B n 0 w f Ha) as H. cbn [family_op]. unfold on_all in *. cbn [vector_op] in *.
    destruct (N.ltb_spec 0 (2 ^ n)); [exact H|pose proof (pow2_pos n); lia].
  - apply b_zero_norm_ok.
  - now apply b_basis_ok.
  - apply b_normalize_ok; auto.
  - now apply b_multiply_ok.
  - now apply b_add_ok.
  - apply b_set_ok.
  - now apply b_set_at_ok.
  - apply b_load_ok.
Qed.
Definition rows_end (B n : N) (f : N -> state) (threw : bool) (w : world) (o : houtcome world unit) : Prop :=
  match o with
  | HDone _ w' => threw = false /\ rows_become B n f w w'
  | HThrown w' => threw = true /\ rows_become B n f w w'
  | HUndefined => False
  end.
Lemma run_bops_ok B n l : forall f w, rows_agree B n (w_amp w) f -> bops_ok B n l f ->
  runs (run_bops B n l) w (rows_end B n (fst (family_ops B n l f)) (snd (family_ops B n l f)) w).
Proof.
  induction l as [|o l IH]; intros f w Ha Hok.
  - simpl. apply runs_ret. simpl. repeat split; auto.
  - destruct Hok as [Ho Hr]. pose proof (run_bop_ok B n o f w Ha Ho) as Hs. cbn [run_bops fold_right family_ops].
    destruct (family_op B n o f) as [f'|] eqn:E; cbn [on_batches] in Hs.
    + eapply runs_bind_done; [exact Hs|]. intros [] w1 (H1 & H2 & H3 & H4).
      eapply runs_weaken; [apply (IH f' w1); [exact H1|now apply Hr]|].
      intros [t w'|w'|]; simpl; [| |contradiction].
      * intros [-> (K1 & K2 & K3 & K4)]. split; [reflexivity|]. repeat split; auto; congruence.
      * intros [-> (K1 & K2 & K3 & K4)]. split; [reflexivity|]. repeat split; auto; congruence.
    + eapply runs_bind; [exact Hs| | |]; cbv beta; try discriminate.
      intros w1 [= ->]. simpl. repeat split; auto.
Qed.

(** ** Classical registers *)
Lemma reg_set_length {T} (l : list T) : forall k v, length (reg_set l k v) = length l.
Proof. induction l as [|x l IH]; intros [|k] v; simpl; auto. Qed.
Lemma reg_set_nth {T} (l : list T) : forall k v j, nth_error (reg_set l k v) j = if Nat.eqb j k then (if Nat.ltb k (length l) then Some v else None) else nth_error l j.
Proof.
  induction l as [|x l IH]; intros [|k] v [|j]; simpl; auto.
  - destruct (Nat.eqb j k); reflexivity.
  - rewrite IH. reflexivity.
Qed.
Lemma run_rop_length o r : length (fst (run_rop o r)) = length r.
Proof.
  destruct o as [i b|i|]; simpl.
  - unfold reg_write. destruct (i <? _); simpl; [apply reg_set_length|reflexivity].
  - destruct (reg_read r i); reflexivity.
  - unfold reg_reset. apply map_length.
Qed.
Lemma run_rops_spec size l i : i < size ->
  N.of_nat (length (run_rops l (reg_new size))) = size /\ reg_read (run_rops l (reg_new size)) i = Ok (last_written i l).
Proof.
  intros Hi. unfold run_rops, last_written.
  assert (G : forall l r v, N.of_nat (length r) = size -> reg_read r i = Ok v ->
    N.of_nat (length (fold_left (fun r o => fst (run_rop o r)) l r)) = size /\
    reg_read (fold_left (fun r o => fst (run_rop o r)) l r) i =
    Ok (fold_left (fun v o => match o with RWrite j b => if j =? i then b else v | RRead _ => v | RReset => false end) l v)).
  { clear l. induction l as [|o l IH]; intros r v Hl Hr; [auto|]. cbn [fold_left]. apply IH.
    - now rewrite run_rop_length.
    - destruct o as [j b|j|]; cbn [run_rop].
      + unfold reg_write. destruct (N.ltb_spec j (N.of_nat (length r))) as [Hj|Hj]; cbn [fst].
        * unfold reg_read. rewrite reg_set_nth. destruct (Nat.eqb_spec (N.to_nat i) (N.to_nat j)) as [E|E].
          -- assert (j = i) by lia. subst j. rewrite N.eqb_refl. destruct (Nat.ltb_spec (N.to_nat i) (length r)); [reflexivity|lia].
          -- destruct (N.eqb_spec j i); [lia|]. exact Hr.
        * destruct (N.eqb_spec j i); [lia|]. exact Hr.
      + destruct (reg_read r j); exact Hr.
      + cbn [fst]. unfold reg_read, reg_reset. rewrite nth_error_map.
        assert (Hn : (N.to_nat i < length r)%nat) by lia. apply nth_error_Some in Hn. destruct (nth_error r (N.to_nat i)); [reflexivity|congruence]. }
  apply G.
  - unfold reg_new. rewrite repeat_length. lia.
  - unfold reg_read, reg_new. rewrite nth_error_repeat by lia. reflexivity.
Qed.
Lemma run_rop_out size r o i : N.of_nat (length r) = size -> size <= i -> (o = RRead i \/ exists b, o = RWrite i b) -> run_rop o r = (r, true).
Proof.
  intros Hl Hi [->|[b ->]]; cbn [run_rop].
  - unfold reg_read. destruct (nth_error r (N.to_nat i)) eqn:E; [|reflexivity]. assert (nth_error r (N.to_nat i) <> None) by congruence.
    apply nth_error_Some in H. lia.
  - unfold reg_write. destruct (N.ltb_spec i (N.of_nat (length r))); [lia|reflexivity].
Qed.
Lemma run_rop_in size r o i : N.of_nat (length r) = size -> i < size -> (o = RRead i \/ exists b, o = RWrite i b) -> snd (run_rop o r) = false.
Proof.
  intros Hl Hi [->|[b ->]]; cbn [run_rop].
  - unfold reg_read. assert (Hn : (N.to_nat i < length r)%nat) by lia. apply nth_error_Some in Hn. destruct (nth_error r (N.to_nat i)); [reflexivity|congruence].
  - unfold reg_write. destruct (N.ltb_spec i (N.of_nat (length r))); [reflexivity|lia].
Qed.

Definition breg_ok (size nb : N) (r : breg) : Prop :=
  br_size r = size /\ N.of_nat (length (br_regs r)) = nb /\ forall b x, nth_error (br_regs r) b = Some x -> N.of_nat (length x) = size.
Lemma breg_ok_new size nb : breg_ok size nb (breg_new size nb).
Proof.
  split; [reflexivity|]. split; [cbn; rewrite repeat_length; lia|]. intros b x E. cbn in E. apply nth_error_In, repeat_spec in E. subst x.
  unfold reg_new. rewrite repeat_length. lia.
Qed.
Lemma breg_set_ok size nb r b x : breg_ok size nb r -> N.of_nat (length x) = size -> breg_ok size nb (breg_set r b x).
Proof.
  intros (H1 & H2 & H3) Hx. split; [assumption|]. split; [cbn; now rewrite reg_set_length|].
  intros j y. cbn. rewrite reg_set_nth. destruct (Nat.eqb j _); [|apply H3]. destruct (Nat.ltb _ _); [intros [= <-]; assumption|discriminate].
Qed.
Lemma run_brop_ok size nb o r : breg_ok size nb r -> breg_ok size nb (fst (run_brop o r)).
Proof.
  intros Hr. pose proof Hr as (H1 & H2 & H3). destruct o as [b i v|b x|]; cbn [run_brop].
  - unfold breg_write, breg_get. destruct (nth_error (br_regs r) (N.to_nat b)) as [x|] eqn:E; cbn [bindR]; [|exact Hr].
    unfold reg_write. destruct (i <? _); cbn [bindR fst]; [|exact Hr]. apply breg_set_ok; [exact Hr|]. rewrite reg_set_length. now apply (H3 _ _ E).
  - unfold breg_assign, breg_get. destruct (N.eqb_spec (N.of_nat (length x)) (br_size r)) as [Ex|Ex]; cbn [negb]; [|exact Hr].
    destruct (nth_error (br_regs r) (N.to_nat b)) as [y|] eqn:E; cbn [bindR fst]; [|exact Hr]. apply breg_set_ok; [exact Hr|congruence].
  - cbn [fst]. split; [assumption|]. split; [cbn; now rewrite map_length|]. intros j y. cbn. rewrite nth_error_map.
    destruct (nth_error (br_regs r) j) as [z|] eqn:E; cbn; [|discriminate]. intros [= <-]. unfold reg_reset. rewrite map_length. now apply (H3 _ _ E).
Qed.
Lemma breg_read_some size nb r b i : breg_ok size nb r -> b < nb -> i < size -> exists x v,
  nth_error (br_regs r) (N.to_nat b) = Some x /\ nth_error x (N.to_nat i) = Some v /\ N.of_nat (length x) = size.
Proof.
  intros (H1 & H2 & H3) Hb Hi. assert (Hn : (N.to_nat b < length (br_regs r))%nat) by lia. apply nth_error_Some in Hn.
  destruct (nth_error (br_regs r) (N.to_nat b)) as [x|] eqn:E; [|congruence]. specialize (H3 _ _ E).
  assert (Hm : (N.to_nat i < length x)%nat) by lia. apply nth_error_Some in Hm.
  destruct (nth_error x (N.to_nat i)) as [v|] eqn:E2; [|congruence]. eauto.
Qed.
Definition given (size b i : N) (v : bool) (o : brop) : bool :=
  match o with
  | BWrite b' i' x => if (b' =? b) && (i' =? i) then x else v
  | BAssign b' x => if (b' =? b) && (N.of_nat (length x) =? size) then nth (N.to_nat i) x v else v
  | BReset => false
  end.
Lemma run_brop_read size nb o r b i v : breg_ok size nb r -> b < nb -> i < size -> breg_read r b i = Ok v ->
  breg_read (fst (run_brop o r)) b i = Ok (given size b i v o).
Proof.
  intros Hr Hb Hi Hv. destruct (breg_read_some _ _ _ _ _ Hr Hb Hi) as (x & v' & Ex & Ev & Elen). pose proof Hr as (H1 & H2 & H3).
  assert (v' = v). { unfold breg_read, breg_get in Hv. rewrite Ex in Hv. cbn [bindR] in Hv. unfold reg_read in Hv. rewrite Ev in Hv. congruence. }
  subst v'. destruct o as [b' i' y|b' y|]; cbn [run_brop given].
  - unfold breg_write, breg_get. destruct (nth_error (br_regs r) (N.to_nat b')) as [z|] eqn:Ez; cbn [bindR].
    + pose proof (H3 _ _ Ez) as Hz. unfold reg_write. destruct (N.ltb_spec i' (N.of_nat (length z))) as [Hi'|Hi']; cbn [bindR fst].
      * unfold breg_read, breg_get, breg_set. cbn [br_regs]. rewrite reg_set_nth.
        destruct (Nat.eqb_spec (N.to_nat b) (N.to_nat b')) as [E|E].
        -- assert (b' = b) by lia. subst b'. rewrite N.eqb_refl. cbn [andb]. destruct (Nat.ltb_spec (N.to_nat b) (length (br_regs r))); [|lia].
           cbn [bindR]. unfold reg_read. rewrite reg_set_nth. replace z with x in * by congruence. destruct (Nat.eqb_spec (N.to_nat i) (N.to_nat i')) as [E2|E2].
           ++ assert (i' = i) by lia. subst i'. rewrite N.eqb_refl. destruct (Nat.ltb_spec (N.to_nat i) (length x)); [reflexivity|lia].
           ++ destruct (N.eqb_spec i' i); [lia|]. now rewrite Ev.
        -- destruct (N.eqb_spec b' b); [lia|]. cbn [andb]. rewrite Ex. cbn [bindR]. unfold reg_read. now rewrite Ev.
      * destruct (N.eqb_spec i' i); [lia|]. rewrite Bool.andb_false_r. exact Hv.
    + cbn [fst]. destruct (N.eqb_spec b' b); [congruence|]. exact Hv.
  - unfold breg_assign, breg_get. rewrite H1. destruct (N.eqb_spec (N.of_nat (length y)) size) as [Ey|Ey]; cbn [negb].
    + destruct (nth_error (br_regs r) (N.to_nat b')) as [z|] eqn:Ez; cbn [bindR fst].
      * unfold breg_read, breg_get, breg_set. cbn [br_regs]. rewrite reg_set_nth.
        destruct (Nat.eqb_spec (N.to_nat b) (N.to_nat b')) as [E|E].
        -- assert (b' = b) by lia. subst b'. rewrite N.eqb_refl. cbn [andb]. destruct (Nat.ltb_spec (N.to_nat b) (length (br_regs r))); [|lia].
           cbn [bindR]. unfold reg_read. rewrite (nth_error_nth' y v) by lia. reflexivity.
        -- destruct (N.eqb_spec b' b); [lia|]. cbn [andb]. rewrite Ex. cbn [bindR]. unfold reg_read. now rewrite Ev.
      * destruct (N.eqb_spec b' b); [congruence|]. exact Hv.
    + rewrite Bool.andb_false_r. exact Hv.
  - cbn [fst]. unfold breg_read, breg_get, breg_reset. cbn [br_regs]. rewrite nth_error_map, Ex. cbn [option_map bindR].
    unfold reg_read, reg_reset. rewrite nth_error_map, Ev. reflexivity.
Qed.
Lemma run_brops_spec size nb l b i : b < nb -> i < size ->
  breg_ok size nb (run_brops l (breg_new size nb)) /\ breg_read (run_brops l (breg_new size nb)) b i = Ok (last_given size b i l).
Proof.
  intros Hb Hi. unfold run_brops, last_given.
  assert (G : forall l r v, breg_ok size nb r -> breg_read r b i = Ok v ->
    breg_ok size nb (fold_left (fun r o => fst (run_brop o r)) l r) /\
    breg_read (fold_left (fun r o => fst (run_brop o r)) l r) b i = Ok (fold_left (given size b i) l v)).
  { clear l. induction l as [|o l IH]; intros r v Hr Hv; [auto|]. cbn [fold_left]. apply IH; [now apply run_brop_ok|].
    now apply (run_brop_read size nb). }
  apply G; [apply breg_ok_new|]. unfold breg_read, breg_get, breg_new. cbn [br_regs]. rewrite nth_error_repeat by lia. cbn [bindR].
  unfold reg_read, reg_new. rewrite nth_error_repeat by lia. reflexivity.
Qed.
