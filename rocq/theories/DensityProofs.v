(** Density-matrix kernels: products of row groups and column groups. *)
From Verif Require Export Density StateProofs2 GatesProofs9.
From Coq Require Import ZifyBool ZifyN ZifyNat Permutation FunctionalExtensionality.

(** The two sides of M rho M^dagger. *)
Definition conjm (M : matrix) : matrix := fun i j => Cconj (M i j).
Definition rows_apply ts cs M (m : dmem) : dmem := fun a => apply_mat ts cs M (fun i => m (i, snd a)) (fst a).
Definition cols_apply ts cs M (m : dmem) : dmem := fun a => apply_mat ts cs (conjm M) (fun j => m (fst a, j)) (snd a).
Definition conjugated ts cs M (m : dmem) : dmem := fun a =>
  apply_mat ts cs M (fun i => apply_mat ts cs (conjm M) (fun j => m (i, j)) (snd a)) (fst a).
Definition inside (n : N) (f m : dmem) : dmem := fun a => if d_valid n a then f a else m a.

(** ** Renaming the addresses of a program *)
Fixpoint amap {A B} (f : A -> B) (p : prog C A) : prog C B :=
  match p with
  | Ret => Ret
  | Rd a k => Rd (f a) (fun v => amap f (k v))
  | Wr a v q => Wr (f a) v (amap f q)
  end.
Lemma amap_foot {A B} (f : A -> B) (R W : A -> Prop) (R' W' : B -> Prop) p :
  (forall a, R a -> R' (f a)) -> (forall a, W a -> W' (f a)) -> foot R W p -> foot R' W' (amap f p).
Proof. intros HR HW. induction p as [|a k IH|a v q IH]; simpl; intuition. Qed.
Lemma amap_run1 {A B} (ea : A -> A -> bool) (eb : B -> B -> bool) (f : A -> B) p : (forall a a', eb (f a) (f a') = ea a a') ->
  forall m a, run1 eb (amap f p) m (f a) = run1 ea p (fun x => m (f x)) a.
Proof.
  intros He. induction p as [|b k IH|b v q IH]; intros m a; simpl; [reflexivity|apply IH|].
  rewrite IH. f_equal. apply functional_extensionality. intros x. unfold upd. now rewrite He.
Qed.
Lemma pair_eqb_pair a b a' b' : pair_eqb (a, b) (a', b') = (a =? a') && (b =? b').
Proof. reflexivity. Qed.

(** ** Product loops *)
Lemma divmod_pair X Y g : 0 < Y -> g < X * Y -> g / Y < X /\ g mod Y < Y /\ g = (g / Y) * Y + g mod Y.
Proof.
  intros HY Hg. split; [apply N.div_lt_upper_bound; lia|]. split; [apply N.mod_lt; lia|].
  rewrite (N.mul_comm (g / Y)). apply N.div_mod. lia.
Qed.
Lemma pair_divmod X Y x y : y < Y -> x < X -> x * Y + y < X * Y /\ (x * Y + y) / Y = x /\ (x * Y + y) mod Y = y.
Proof.
  intros Hy Hx. split; [nia|]. rewrite N.add_comm. split.
  - rewrite N.div_add by lia. rewrite N.div_small by assumption. lia.
  - rewrite N.mod_add by lia. now apply N.mod_small.
Qed.

Section Product.
  Variables (n X Y : N) (domR domC : N -> bool) (ownR ownC : N -> N).
  Hypothesis HR : forall r, domR r = true -> r < 2 ^ n /\ ownR r < X.
  Hypothesis HC : forall c, domC c = true -> c < 2 ^ n /\ ownC c < Y.

  Lemma product_computes (P : N -> N -> dprog) (body : N -> dprog) m :
    (forall g, body g = P (g / Y) (g mod Y)) ->
    (forall x y, x < X -> y < Y ->
       let S a := domR (fst a) = true /\ ownR (fst a) = x /\ domC (snd a) = true /\ ownC (snd a) = y in foot S S (P x y)) ->
    kcomputes pair_eqb (d_valid n) (Kernel (X * Y) body) m
      (fun a => if domR (fst a) && domC (snd a) then run1 pair_eqb (P (ownR (fst a)) (ownC (snd a))) m a else m a).
  Proof.
    intros Hb Hf. unfold kcomputes. cbn [k_iters k_body].
    eapply par_computes_ext; [|apply (owned_par_computes C (N * N) pair_eqb pair_eqb_spec (d_valid n) (X * Y) body m (fun _ => false)
      (fun a => domR (fst a) && domC (snd a)) (fun a => ownR (fst a) * Y + ownC (snd a)))].
    - intros a. cbn beta. destruct (domR (fst a)) eqn:E1; [|reflexivity]. destruct (domC (snd a)) eqn:E2; [|reflexivity]. cbn [andb].
      apply HR in E1. apply HC in E2. rewrite Hb.
      destruct (pair_divmod X Y (ownR (fst a)) (ownC (snd a))) as (_ & -> & ->); intuition.
    - intros a Ha. apply andb_true_iff in Ha. destruct Ha as [E1 E2]. apply HR in E1. apply HC in E2.
      destruct (pair_divmod X Y (ownR (fst a)) (ownC (snd a))) as (Hl & _); try easy.
      split; [|split; [exact Hl|reflexivity]]. unfold d_valid. rewrite andb_true_iff, !N.ltb_lt. easy.
    - discriminate.
    - intros g Hg. rewrite Hb.
      assert (HY : 0 < Y) by (destruct Y; [rewrite N.mul_0_r in Hg|]; lia).
      destruct (divmod_pair X Y g HY Hg) as (H1 & H2 & H3).
      eapply foot_mono; [| |apply (Hf _ _ H1 H2)].
      + intros a (A1 & A2 & A3 & A4). right. rewrite A1, A3, A2, A4. auto.
      + intros a (A1 & A2 & A3 & A4). rewrite A1, A3, A2, A4. auto.
  Qed.
End Product.

(** ** Groups of rows *)
Definition group_ok (t : N) (ts : list N) (P : N -> cprog) (M : matrix) : Prop :=
  (forall b, N.land b t = 0 -> let S a := exists s, N.land s t = s /\ a = N.lor b s in foot S S (P b)) /\
  (forall m a, run1 N.eqb (P (N.ldiff a t)) m a =
     Csum (2 ^ N.of_nat (length ts)) (fun j => (M (gather ts a) j * m (scatter ts j a))%C)).

Lemma pow_n_two64 n : n < 32 -> 1 * 2 ^ n <= two64.
Proof. intros Hn. rewrite N.mul_1_l. unfold two64. apply N.pow_le_mono_r; lia. Qed.
Lemma mul64_le n a b : n < 32 -> a <= 2 ^ n -> b <= 2 ^ n -> mul64 a b = a * b.
Proof.
  intros Hn Ha Hb. unfold mul64. apply wrap_small. apply N.le_lt_trans with (2 ^ n * 2 ^ n); [apply N.mul_le_mono; assumption|].
  rewrite <- N.pow_add_r. unfold two64. apply N.pow_lt_mono_r; lia.
Qed.
Lemma groups_le n x : n_groups n x <= 2 ^ n.
Proof.
  unfold n_groups. rewrite N.shiftr_div_pow2. apply N.div_le_upper_bound; [apply N.pow_nonzero; lia|].
  pose proof (pow2_pos (popcount x)). pose proof (pow2_pos n). nia.
Qed.

Section Passes.
  Variables (n t c cv : N).
  Hypothesis Hn : n < 32.
  Hypothesis Ht : t < 2 ^ n.
  Hypothesis Hc : c < 2 ^ n.
  Hypothesis Hd : N.land t c = 0.
  Hypothesis Hcv : N.land cv c = cv.

  Let Hn64 : n <= 64. Proof. lia. Qed.
  Let HB := pow_n_two64 n Hn.
  Notation X := (n_groups n (N.lor t c)).
  Lemma groups_gcnt : X = gcnt n 1 t c.
  Proof. unfold n_groups, gcnt. now rewrite N.mul_1_l. Qed.
  Lemma gbase_land it : it < gcnt n 1 t c -> N.land (gbase t c cv it) t = 0.
  Proof.
    intros Hit. bitwise i. destruct (N.testbit t i) eqn:Et; [|now rewrite andb_false_r].
    rewrite (gbase_tb n 1 t c cv Hn64 HB Ht Hc Hd Hcv); [|assumption|rewrite N.lor_spec, Et; reflexivity].
    destruct (N.testbit cv i) eqn:Ev; [|reflexivity]. apply (cv_tb c cv Hcv) in Ev.
    rewrite (land0_tb t c i Hd Et) in Ev. discriminate.
  Qed.
  Lemma gdom_bounds r : gdom n 1 c cv r = true -> r < 2 ^ n /\ gowner t c r < X.
  Proof.
    intros H. rewrite groups_gcnt. split.
    - apply valid_gdom in H. now rewrite N.mul_1_l in H.
    - now apply (gowner_base n 1 t c cv Hn64 HB Ht Hc Hd Hcv).
  Qed.
  Lemma id_bounds r : (r <? 2 ^ n) = true -> r < 2 ^ n /\ r < 2 ^ n.
  Proof. rewrite N.ltb_lt. auto. Qed.

  Lemma left_computes ts P M body m : group_ok t ts P M ->
    (forall g, body g = amap (fun a => (a, g mod 2 ^ n)) (P (gbase t c cv (g / 2 ^ n)))) ->
    kcomputes pair_eqb (d_valid n) (Kernel (mul64 X (2 ^ n)) body) m (inside n (rows_apply ts (ctrls c cv) M m) m).
  Proof.
    intros [Hf Hr] Hb. rewrite (mul64_le n) by (try apply groups_le; lia).
    unfold kcomputes. eapply par_computes_ext;
      [|apply (product_computes n X (2 ^ n) (gdom n 1 c cv) (fun r => r <? 2 ^ n) (gowner t c) (fun r => r) gdom_bounds id_bounds
          (fun x y => amap (fun a => (a, y)) (P (gbase t c cv x))) body m Hb)].
    - intros [r y]. cbn [fst snd]. unfold inside, d_valid, rows_apply, gdom. cbn [fst snd]. rewrite N.mul_1_l.
      destruct (r <? 2 ^ n) eqn:Er; [|reflexivity]. cbn [andb]. destruct (y <? 2 ^ n) eqn:Ey; [|now rewrite andb_false_r].
      rewrite andb_true_r. unfold apply_mat. rewrite ctrl_ok_ctrls by assumption.
      destruct (N.land r c =? cv) eqn:Ec; [|reflexivity].
      etransitivity; [apply (amap_run1 N.eqb pair_eqb (fun a => (a, y))); intros; rewrite pair_eqb_pair, N.eqb_refl, andb_true_r; reflexivity|].
      assert (Hg : gdom n 1 c cv r = true) by (apply gdom_intro; [rewrite N.mul_1_l; now apply N.ltb_lt|now apply N.eqb_eq]).
      destruct (gowner_base n 1 t c cv Hn64 HB Ht Hc Hd Hcv r Hg) as [_ ->]. apply Hr.
    - intros x y Hx Hy S. rewrite groups_gcnt in Hx.
      eapply amap_foot; [| |apply (Hf (gbase t c cv x)); now apply gbase_land].
      + intros a (s & Hs & ->). destruct (gbase_owner n 1 t c cv Hn64 HB Ht Hc Hd Hcv x s Hx Hs). unfold S. cbn. rewrite N.ltb_lt. auto.
      + intros a (s & Hs & ->). destruct (gbase_owner n 1 t c cv Hn64 HB Ht Hc Hd Hcv x s Hx Hs). unfold S. cbn. rewrite N.ltb_lt. auto.
  Qed.
  Lemma right_computes ts P M body m : group_ok t ts P (conjm M) ->
    (forall g, body g = amap (fun a => (g / X, a)) (P (gbase t c cv (g mod X)))) ->
    kcomputes pair_eqb (d_valid n) (Kernel (mul64 (2 ^ n) X) body) m (inside n (cols_apply ts (ctrls c cv) M m) m).
  Proof.
    intros [Hf Hr] Hb. rewrite (mul64_le n) by (try apply groups_le; lia).
    unfold kcomputes. eapply par_computes_ext;
      [|apply (product_computes n (2 ^ n) X (fun r => r <? 2 ^ n) (gdom n 1 c cv) (fun r => r) (gowner t c) id_bounds gdom_bounds
          (fun x y => amap (fun a => (x, a)) (P (gbase t c cv y))) body m Hb)].
    - intros [r y]. cbn [fst snd]. unfold inside, d_valid, cols_apply, gdom. cbn [fst snd]. rewrite N.mul_1_l.
      destruct (r <? 2 ^ n) eqn:Er; [|reflexivity]. cbn [andb]. destruct (y <? 2 ^ n) eqn:Ey; [|reflexivity]. cbn [andb].
      unfold apply_mat. rewrite ctrl_ok_ctrls by assumption.
      destruct (N.land y c =? cv) eqn:Ec; [|reflexivity].
      etransitivity; [apply (amap_run1 N.eqb pair_eqb (fun a => (r, a))); intros; rewrite pair_eqb_pair, N.eqb_refl; reflexivity|].
      assert (Hg : gdom n 1 c cv y = true) by (apply gdom_intro; [rewrite N.mul_1_l; now apply N.ltb_lt|now apply N.eqb_eq]).
      destruct (gowner_base n 1 t c cv Hn64 HB Ht Hc Hd Hcv y Hg) as [_ ->]. apply Hr.
    - intros x y Hx Hy S. rewrite groups_gcnt in Hy.
      eapply amap_foot; [| |apply (Hf (gbase t c cv y)); now apply gbase_land].
      + intros a (s & Hs & ->). destruct (gbase_owner n 1 t c cv Hn64 HB Ht Hc Hd Hcv y s Hy Hs). unfold S. cbn. rewrite N.ltb_lt. auto.
      + intros a (s & Hs & ->). destruct (gbase_owner n 1 t c cv Hn64 HB Ht Hc Hd Hcv y s Hy Hs). unfold S. cbn. rewrite N.ltb_lt. auto.
  Qed.
End Passes.

(** ** Blocks *)
Section Blocks.
  Variables (n t : N).
  Hypothesis Hn : n < 32.
  Hypothesis Ht : t < 2 ^ n.
  Let HB := pow_n_two64 n Hn.
  Let Hn64 : n <= 64. Proof. lia. Qed.
  Let Hd : N.land t 0 = 0 := N.land_0_r t.
  Let Hc : 0 < 2 ^ n := pow2_pos n.
  Let Hcv : N.land 0 0 = 0 := eq_refl.
  Notation X := (n_groups n t).

  Lemma gdom0 r : gdom n 1 0 0 r = (r <? 2 ^ n).
  Proof. unfold gdom. rewrite N.land_0_r, N.mul_1_l. apply andb_true_r. Qed.
  Lemma gbase0 it : gbase t 0 0 it = insert_zero_at_mask_positions it t.
  Proof. unfold gbase. now rewrite !N.lor_0_r. Qed.

  Lemma block_computes (Q : N -> N -> dprog) (body : N -> dprog) (f m : dmem) :
    (forall g, body g = Q (insert_zero_at_mask_positions (g / X) t) (insert_zero_at_mask_positions (g mod X) t)) ->
    (forall br bc, N.land br t = 0 -> N.land bc t = 0 ->
       let S a := exists s s', N.land s t = s /\ N.land s' t = s' /\ a = (N.lor br s, N.lor bc s') in foot S S (Q br bc)) ->
    (forall i j, run1 pair_eqb (Q (N.ldiff i t) (N.ldiff j t)) m (i, j) = f (i, j)) ->
    kcomputes pair_eqb (d_valid n) (Kernel (mul64 X X) body) m (inside n f m).
  Proof.
    intros Hb Hf Hr. assert (EX : X = n_groups n (N.lor t 0)) by now rewrite N.lor_0_r.
    assert (HX : X <= 2 ^ n) by (rewrite EX; apply groups_le).
    rewrite (mul64_le n) by (assumption || exact HX).
    assert (Hbd : forall r, (r <? 2 ^ n) = true -> r < 2 ^ n /\ gowner t 0 r < X).
    { intros r Hr0. rewrite EX. apply (gdom_bounds n t 0 0 Hn Ht Hc Hd Hcv). now rewrite gdom0. }
    unfold kcomputes. eapply par_computes_ext;
      [|apply (product_computes n X X (fun r => r <? 2 ^ n) (fun r => r <? 2 ^ n) (gowner t 0) (gowner t 0) Hbd Hbd
          (fun x y => Q (gbase t 0 0 x) (gbase t 0 0 y)) body m)].
    - intros [i j]. cbn [fst snd]. unfold inside, d_valid. cbn [fst snd].
      destruct ((i <? 2 ^ n) && (j <? 2 ^ n)) eqn:E; [|reflexivity]. apply andb_true_iff in E. destruct E as [Ei Ej].
      rewrite <- gdom0 in Ei, Ej.
      destruct (gowner_base n 1 t 0 0 Hn64 HB Ht Hc Hd Hcv i Ei) as [_ ->].
      destruct (gowner_base n 1 t 0 0 Hn64 HB Ht Hc Hd Hcv j Ej) as [_ ->]. apply Hr.
    - intros g. rewrite !gbase0. apply Hb.
    - intros x y Hx Hy S. rewrite EX, groups_gcnt in Hx, Hy.
      eapply foot_mono; [| |apply (Hf (gbase t 0 0 x) (gbase t 0 0 y)); now apply (gbase_land n t 0 0 Hn Ht Hc Hd Hcv)];
        intros a (s & s' & Hs & Hs' & ->);
        destruct (gbase_owner n 1 t 0 0 Hn64 HB Ht Hc Hd Hcv x s Hx Hs) as [D1 O1];
        destruct (gbase_owner n 1 t 0 0 Hn64 HB Ht Hc Hd Hcv y s' Hy Hs') as [D2 O2];
        rewrite gdom0 in D1, D2; unfold S; cbn [fst snd]; auto.
  Qed.
End Blocks.

(** ** Two passes *)
Lemma Csum_if n (b : bool) f g : (if b then Csum n f else Csum n g) = Csum n (fun i => if b then f i else g i).
Proof. now destruct b. Qed.
Lemma cols_rows ts cs M m a : cols_apply ts cs M (rows_apply ts cs M m) a = conjugated ts cs M m a.
Proof.
  destruct a as [i j]. unfold cols_apply, rows_apply, conjugated. cbn [fst snd]. unfold apply_mat.
  destruct (ctrl_ok cs j) eqn:Ej, (ctrl_ok cs i) eqn:Ei; try reflexivity.
  - rewrite (Csum_ext _ _ (fun y => Csum (2 ^ N.of_nat (length ts)) (fun x => (conjm M (gather ts j) y * (M (gather ts i) x * m (scatter ts x i, scatter ts y j)))%C)))
      by (intros; now rewrite Csum_mul_l).
    rewrite Csum_swap. apply Csum_ext. intros x _. rewrite <- Csum_mul_l. apply Csum_ext. intros y _. ring.
Qed.
Lemma inside_local n ts cs M m f : wf_ops n ts cs ->
  forall a, inside n (cols_apply ts cs M (inside n f m)) (inside n f m) a = inside n (cols_apply ts cs M f) m a.
Proof.
  intros Hw a. unfold inside. destruct (d_valid n a) eqn:E; [|reflexivity].
  unfold cols_apply. unfold d_valid in E. apply andb_true_iff in E. destruct E as [E1 E2]. apply N.ltb_lt in E2.
  apply (apply_mat_local n ts cs); [assumption| |assumption]. intros x Hx. unfold d_valid. cbn [fst snd]. rewrite E1.
  apply N.ltb_lt in Hx. now rewrite Hx.
Qed.
Lemma two_pass n ts cs M kl kr m : wf_ops n ts cs ->
  (forall m, kcomputes pair_eqb (d_valid n) kl m (inside n (rows_apply ts cs M m) m)) ->
  (forall m, kcomputes pair_eqb (d_valid n) kr m (inside n (cols_apply ts cs M m) m)) ->
  kcomputes_list pair_eqb (d_valid n) [kl; kr] m (inside n (conjugated ts cs M m) m).
Proof.
  intros Hw Hl Hr. exists (inside n (rows_apply ts cs M m) m). split; [apply Hl|].
  eexists. split; [apply Hr|]. intros a. rewrite inside_local by assumption. unfold inside.
  destruct (d_valid n a); [|reflexivity]. symmetry. apply cols_rows.
Qed.
Lemma one_pass n k m f g : kcomputes pair_eqb (d_valid n) k m (inside n f m) -> (forall a, f a = g a) ->
  kcomputes_list pair_eqb (d_valid n) [k] m (inside n g m).
Proof.
  intros H E. eexists. split; [exact H|]. intros a. unfold inside. now rewrite E.
Qed.
