(** The general dense kernel and the sparse kernel (two buffers), and the run-time dispatch. *)
From Verif Require Export KernelsProofs3.
From Coq Require Import ZifyBool ZifyN ZifyNat Permutation Sorting.Sorted.

(** ** Spreading the bits of r over the set positions of a mask *)
Definition below (i : N) (l : list N) : N := N.of_nat (length (filter (fun p => p <? i) l)).
Lemma incr_filter f l : incr l -> incr (filter f l).
Proof.
  induction 1 as [|a l Hl IH Ha]; simpl; [constructor|]. destruct (f a); [|assumption].
  constructor; [assumption|]. rewrite Forall_forall in *. intros x Hx. apply filter_In in Hx. now apply Ha.
Qed.
Lemma below_ins l : forall r i, incr l -> ~ In i l -> N.testbit (ins_list l r) i = N.testbit r (i - below i l).
Proof.
  induction l as [|p l IH]; intros r i Hs Hi; simpl.
  - unfold below. simpl. now rewrite N.sub_0_r.
  - inversion Hs as [|? ? Hs' Hp]; subst.
    rewrite IH by (try assumption; intros H; apply Hi; now right). rewrite ins1_tb.
    assert (Hne : i <> p) by (intros ->; apply Hi; now left).
    unfold below. simpl. destruct (N.ltb_spec p i) as [Hlt|Hge].
    + pose proof (incr_len (filter (fun q => q <? i) l) i p) as Hl.
      assert (Hl1 : incr (p :: filter (fun q => q <? i) l)).
      { constructor; [now apply incr_filter|]. rewrite Forall_forall in *. intros x Hx. apply filter_In in Hx. now apply Hp. }
      assert (Hl2 : Forall (fun x => x < i) (p :: filter (fun q => q <? i) l)).
      { constructor; [assumption|]. rewrite Forall_forall. intros x Hx. apply filter_In in Hx. lia. }
      specialize (Hl Hl1 Hl2). simpl length.
      replace (i - N.of_nat (length (filter (fun p0 => p0 <? i) l)) <? p) with false by lia.
      replace (i - N.of_nat (length (filter (fun p0 => p0 <? i) l)) =? p) with false by lia.
      f_equal. lia.
    + assert (E : filter (fun q => q <? i) l = []).
      { clear - Hp Hge. induction l as [|a l IH]; [reflexivity|]. inversion Hp; subst. simpl.
        replace (a <? i) with false by lia. now apply IH. }
      rewrite E. simpl. rewrite N.sub_0_r. replace (i <? p) with true by lia. reflexivity.
Qed.
Lemma nth_error_below l : forall k i, incr l -> nth_error l k = Some i -> below i l = N.of_nat k.
Proof.
  unfold below. induction l as [|p l IH]; intros k i Hs Hk; [destruct k; discriminate|].
  inversion Hs as [|? ? Hs' Hp]; subst. destruct k as [|k]; simpl in Hk.
  - injection Hk as ->. simpl. rewrite N.ltb_irrefl.
    assert (E : filter (fun q => q <? i) l = []).
    { clear - Hp. induction l as [|a l IH]; [reflexivity|]. inversion Hp; subst. simpl.
      replace (a <? i) with false by lia. now apply IH. }
    rewrite E. reflexivity.
  - assert (Hlt : p < i) by (rewrite Forall_forall in Hp; apply Hp; eapply nth_error_In; eassumption).
    simpl. replace (p <? i) with true by lia. simpl. rewrite Nat2N.inj_succ. rewrite (IH k i Hs' Hk). lia.
Qed.
Lemma below_compl t o i : (forall k, k < i -> N.testbit o k = negb (N.testbit t k)) ->
  below i (bits t) + below i (bits o) = i.
Proof.
  intros H. unfold below. rewrite <- Nat2N.inj_add, <- app_length.
  rewrite (Permutation_length (l' := seqN i)); [rewrite length_seqN; lia|].
  apply NoDup_Permutation.
  - apply NoDup_app_intro; try (apply NoDup_filter, bits_NoDup).
    intros x Hx Hy. apply filter_In in Hx, Hy. rewrite !in_bits in *. destruct Hx as [Hx Hl], Hy as [Hy _].
    rewrite H in Hy by lia. rewrite Hx in Hy. discriminate.
  - apply NoDup_seqN.
  - intros x. rewrite in_app_iff, !filter_In, !in_bits, in_seqN. split; [lia|]. intros Hx. rewrite H by assumption.
    destruct (N.testbit t x); simpl; lia.
Qed.

Section Multi.
  Variables (n t : N).
  Hypothesis Hn : n < 64.
  Hypothesis Ht : t < 2 ^ n.

  Lemma two64_n : 2 ^ n < two64.
  Proof. unfold two64. apply N.pow_lt_mono_r; lia. Qed.
  Lemma outer_tb i : N.testbit (outer_mask n t) i = (i <? n) && negb (N.testbit t i).
  Proof.
    unfold outer_mask. rewrite shl64_1 by assumption. rewrite sub64_pred by (try apply pow2_pos; apply two64_n).
    replace (2 ^ n - 1) with (N.ones n) by (rewrite N.ones_equiv; lia). autorewrite with tb.
    destruct (N.ltb_spec i n); [|now rewrite andb_false_r]. replace (i <? 64) with true by lia.
    now rewrite xorb_true_r, andb_true_r.
  Qed.
  Lemma outer_lt : outer_mask n t < 2 ^ n.
  Proof. apply lt_pow2_testbit. intros i Hi. rewrite outer_tb. now replace (i <? n) with false by lia. Qed.
  Lemma below_all l i : Forall (fun q => q < i) l -> below i l = N.of_nat (length l).
  Proof.
    intros H. unfold below. f_equal. f_equal. induction H; [reflexivity|]. simpl.
    replace (x <? i) with true by lia. congruence.
  Qed.
  Lemma popcount_outer : popcount t + popcount (outer_mask n t) = n.
  Proof.
    rewrite <- !bits_length. rewrite <- (below_all (bits t) n) by now apply bits_lt.
    rewrite <- (below_all (bits (outer_mask n t)) n) by now apply bits_lt, outer_lt.
    apply below_compl. intros k Hk. rewrite outer_tb. now replace (k <? n) with true by lia.
  Qed.
  Lemma outer_insert r : r < 2 ^ popcount t ->
    insert_zero_at_mask_positions r (outer_mask n t) = scatter (bits t) r 0.
  Proof.
    intros Hr. pose proof two64_n as H64. pose proof outer_lt as Ho.
    assert (Hr' : r < 1 * 2 ^ (n - popcount (outer_mask n t))).
    { rewrite N.mul_1_l. pose proof popcount_outer. replace (n - _) with (popcount t) by lia. assumption. }
    rewrite (insert_zero_spec _ r n 1) by (try assumption; lia).
    apply N.bits_inj. intro i. destruct (N.testbit t i) eqn:Et.
    - apply in_bits in Et. apply In_nth_error in Et. destruct Et as [k Hk].
      rewrite (scatter_in _ _ _ k i (bits_NoDup t) Hk).
      pose proof (nth_error_below _ _ _ (bits_incr t) Hk) as Hb.
      assert (Hi : In i (bits t)) by (eapply nth_error_In; eassumption). apply in_bits in Hi.
      assert (Hin : i < n). { destruct (N.lt_ge_cases i n); [assumption|]. rewrite (testbit_high t n) in Hi by assumption. discriminate. }
      rewrite below_ins.
      + f_equal. pose proof (below_compl t (outer_mask n t) i) as Hc. rewrite Hb in Hc.
        assert (E : N.of_nat k + below i (bits (outer_mask n t)) = i).
        { apply Hc. intros j Hj. rewrite outer_tb. now replace (j <? n) with true by lia. }
        lia.
      + apply bits_incr.
      + rewrite in_bits, outer_tb, Hi, andb_false_r. discriminate.
    - rewrite scatter_out by (rewrite in_bits, Et; discriminate). rewrite N.bits_0.
      destruct (N.lt_ge_cases i n) as [Hi|Hi].
      + apply ins_list_zero; [apply bits_incr|]. apply in_bits. rewrite outer_tb, Et. now replace (i <? n) with true by lia.
      + apply testbit_high with (n := n); [|assumption].
        apply (ins_list_bound _ r n 1) in Hr' || idtac.
        rewrite <- (N.mul_1_l (2 ^ n)). apply ins_list_bound; [apply bits_incr|now apply bits_lt|].
        rewrite bits_length. exact Hr'.
  Qed.
  Lemma scatter_lor b r : N.land b t = 0 -> r < 2 ^ popcount t -> N.lor (scatter (bits t) r 0) b = scatter (bits t) r b.
  Proof.
    intros Hb Hr. apply N.bits_inj. intro i. rewrite N.lor_spec. destruct (N.testbit t i) eqn:Et.
    - rewrite N.land_comm in Hb. rewrite (land0_tb t b i Hb Et), orb_false_r.
      apply in_bits, In_nth_error in Et. destruct Et as [k Hk]. now rewrite !(scatter_in _ _ _ k i (bits_NoDup t) Hk).
    - rewrite !scatter_out by (rewrite in_bits, Et; discriminate). now rewrite N.bits_0.
  Qed.
End Multi.

Lemma addr2_spec a b : reflect (a = b) (addr2_eqb a b).
Proof.
  destruct a as [x i], b as [y j]. unfold addr2_eqb. simpl.
  destruct (N.eqb_spec i j) as [->|H]; destruct x, y; simpl; constructor; congruence.
Qed.
Lemma run_dot l : forall acc cont m, run1 addr2_eqb (dot_prog l acc cont) m =
  run1 addr2_eqb (cont (acc + Csuml (fun p => fst p * m (false, snd p)) l)%C) m.
Proof.
  induction l as [|[v a] l IH]; intros acc cont m; simpl.
  - f_equal. f_equal. ring.
  - rewrite IH. f_equal. f_equal. ring.
Qed.
Lemma foot_dot (R W : addr2 -> Prop) l : forall acc cont, (forall p, In p l -> R (false, snd p)) ->
  (forall v, foot R W (cont v)) -> foot R W (dot_prog l acc cont).
Proof.
  induction l as [|[v a] l IH]; intros acc cont HR HW; simpl; [apply HW|]. split.
  - apply (HR (v, a)). now left.
  - intros v0. apply IH; [|assumption]. intros p Hp. apply HR. now right.
Qed.

Section MultiKernels.
  Variables (n B t c cv : N).
  Hypothesis Hn : n < 64.
  Hypothesis HB : B * 2 ^ n <= two64.
  Hypothesis Ht : t < 2 ^ n.
  Hypothesis Hc : c < 2 ^ n.
  Hypothesis Hd : N.land t c = 0.
  Hypothesis Hcv : N.land cv c = cv.
  Let D := B * 2 ^ n.
  Let valid (a : addr2) := snd a <? D.
  Let d := 2 ^ popcount t.

  Lemma init_computes m :
    kcomputes addr2_eqb valid (multi_init D c cv) m
      (fun a => if fst a then (if snd a <? D then (if N.land (snd a) c =? cv then C0 else m (false, snd a)) else m a) else m a).
  Proof.
    unfold kcomputes. simpl.
    eapply par_computes_ext; [|apply (owned_par_computes C addr2 addr2_eqb addr2_spec valid D _ m
       (fun a => negb (fst a) && (snd a <? D)) (fun a => fst a && (snd a <? D)) snd)].
    - intros [b i]. simpl. destruct b; simpl; [|reflexivity]. destruct (i <? D) eqn:E; [|reflexivity].
      destruct (N.land i c =? cv); simpl; unfold upd, addr2_eqb; simpl; now rewrite N.eqb_refl.
    - intros [b i]. simpl. destruct b; simpl; [|discriminate]. intros E. unfold valid. simpl. split; [assumption|]. split; [lia|reflexivity].
    - intros [b i]. simpl. destruct b; simpl; [discriminate|]. auto.
    - intros i Hi. simpl. destruct (N.land i c =? cv); simpl.
      + repeat split. lia.
      + split; [left; lia|]. intros v. repeat split. lia.
  Qed.

  (** Row-wise update: [ent r] lists (coefficient, column) of row r. *)
  Definition rows_update (ent : N -> list (C * N)) : kernel addr2 :=
    Kernel (N.shiftr D (popcount (N.lor t c)) * d) (fun w =>
      let basis := N.lor (insert_zero_at_mask_positions (w / d) (N.lor t c)) cv in
      dot_prog (map (fun p => (fst p, N.lor (insert_zero_at_mask_positions (snd p) (outer_mask n t)) basis)) (ent (w mod d))) C0
        (fun sum => Wr (true, N.lor (insert_zero_at_mask_positions (w mod d) (outer_mask n t)) basis) sum Ret)).

  Lemma base_t0 it : it < gcnt n B t c -> N.land (gbase t c cv it) t = 0.
  Proof.
    intros Hit. bitwise i. destruct (N.testbit t i) eqn:E; [|apply andb_false_r].
    rewrite (gbase_tb n B t c cv ltac:(lia) HB Ht Hc Hd Hcv it i Hit) by (rewrite N.lor_spec, E; reflexivity).
    destruct (N.testbit cv i) eqn:Ev; [|reflexivity]. apply (cv_tb c cv Hcv) in Ev.
    rewrite (land0_tb t c i Hd E) in Ev. discriminate.
  Qed.
  Lemma gather_lor_scatter b r : N.land b t = 0 -> r < d ->
    gather (bits t) (scatter (bits t) r b) = r.
  Proof. intros Hb Hr. apply gather_scatter; [apply bits_NoDup|]. rewrite bits_length. exact Hr. Qed.
  Lemma scatter_group b r : N.land b t = 0 -> r < d -> exists s, N.land s t = s /\ scatter (bits t) r b = N.lor b s.
  Proof.
    intros Hb Hr. exists (scatter (bits t) r 0). split.
    - bitwise i. destruct (N.testbit t i) eqn:E; [now rewrite andb_true_r|]. rewrite andb_false_r.
      rewrite scatter_out by (rewrite in_bits, E; discriminate). now rewrite N.bits_0.
    - rewrite <- (scatter_lor t) by assumption. apply N.lor_comm.
  Qed.

  Lemma gather_d x : gather (bits t) x < d.
  Proof. unfold d. rewrite <- (bits_length t). apply gather_lt. Qed.

  Lemma rows_computes ent m : (forall r p, r < d -> In p (ent r) -> snd p < d) ->
    kcomputes addr2_eqb valid (rows_update ent) m
      (fun a => if fst a && gdom n B c cv (snd a)
                then Csuml (fun p => (fst p * m (false, scatter (bits t) (snd p) (snd a)))%C) (ent (gather (bits t) (snd a)))
                else m a).
  Proof.
    intros Hent. unfold kcomputes. simpl.
    assert (Hd0 : 0 < d) by apply pow2_pos.
    set (owner := fun a : addr2 => gowner t c (snd a) * d + gather (bits t) (snd a)).
    assert (Hdiv : forall i, owner i / d = gowner t c (snd i)).
    { intros i. unfold owner. rewrite N.div_add_l by lia. rewrite N.div_small; [lia|]. apply gather_d. }
    assert (Hmod : forall i, owner i mod d = gather (bits t) (snd i)).
    { intros i. unfold owner. rewrite N.add_comm, N.mod_add by lia. apply N.mod_small. apply gather_d. }
    eapply par_computes_ext; [|apply (owned_par_computes C addr2 addr2_eqb addr2_spec valid _ _ m
       (fun a => negb (fst a) && (snd a <? D)) (fun a => fst a && gdom n B c cv (snd a)) owner)].
    - intros [b a]. simpl. destruct b; simpl; [|reflexivity]. destruct (gdom n B c cv a) eqn:E; [|reflexivity].
      destruct (gowner_base n B t c cv ltac:(lia) HB Ht Hc Hd Hcv a E) as [Hlt Hb].
      rewrite Hdiv, Hmod. simpl snd. rewrite run_dot. simpl. fold (gbase t c cv (gowner t c a)). rewrite Hb.
      assert (Hl0 : N.land (N.ldiff a t) t = 0) by (bitwise i; bool_solve).
      assert (Hg : gather (bits t) a < d) by apply gather_d.
      rewrite outer_insert by assumption. rewrite scatter_lor by assumption.
      assert (Hext : forall r, scatter (bits t) r (N.ldiff a t) = scatter (bits t) r a).
      { intros r. apply scatter_ext; [apply bits_NoDup|]. intros i Hi. rewrite N.ldiff_spec.
        destruct (N.testbit t i) eqn:F; [exfalso; apply Hi; now apply in_bits|]. apply andb_true_r. }
      rewrite Hext, scatter_gather by apply bits_NoDup.
      unfold upd, addr2_eqb. simpl. rewrite N.eqb_refl. rewrite Csuml_map, Cadd_0_l.
      apply Csuml_ext. intros p Hp. simpl. f_equal. f_equal. f_equal.
      specialize (Hent _ p Hg Hp). rewrite outer_insert by assumption. rewrite scatter_lor by assumption. now rewrite Hext.
    - intros [b a]. simpl. destruct b; simpl; [|discriminate]. intros E.
      destruct (gowner_base n B t c cv ltac:(lia) HB Ht Hc Hd Hcv a E) as [Hlt Hb].
      pose proof (valid_gdom _ _ _ _ _ E) as [HD _]. unfold valid. simpl. split; [now apply N.ltb_lt|]. split; [|reflexivity].
      unfold owner. simpl. fold D in Hlt. unfold gcnt in Hlt. fold D in Hlt.
      assert (Hg : gather (bits t) a < d) by apply gather_d.
      nia.
    - intros [b a]. simpl. destruct b; simpl; [discriminate|]. auto.
    - intros w Hw. simpl.
      assert (Hit : w / d < gcnt n B t c).
      { unfold gcnt. fold D. apply N.div_lt_upper_bound; [lia|]. lia. }
      assert (Hr : w mod d < d) by (apply N.mod_lt; lia).
      pose proof (base_t0 _ Hit) as Hb0. fold (gbase t c cv (w / d)).
      apply foot_dot.
      + intros p Hp. apply in_map_iff in Hp. destruct Hp as ([v col] & <- & Hp). simpl.
        specialize (Hent _ _ Hr Hp). simpl in Hent. left. simpl.
        rewrite outer_insert by assumption. rewrite scatter_lor by assumption.
        destruct (scatter_group _ col Hb0 Hent) as (s & Hs & ->).
        destruct (gbase_owner n B t c cv ltac:(lia) HB Ht Hc Hd Hcv (w / d) s Hit Hs) as [G _].
        apply valid_gdom in G. apply N.ltb_lt. tauto.
      + intros v. simpl. split; [|exact I]. rewrite outer_insert by assumption. rewrite scatter_lor by assumption.
        unfold owner. simpl. rewrite gather_lor_scatter by assumption.
        destruct (scatter_group _ (w mod d) Hb0 Hr) as (s & Hs & Es). rewrite Es.
        destruct (gbase_owner n B t c cv ltac:(lia) HB Ht Hc Hd Hcv (w / d) s Hit Hs) as [G1 G2].
        split; [exact G1|]. rewrite G2. rewrite (N.div_mod w d) at 3 by lia. lia.
  Qed.

  Lemma shl_d : shl64 1 (popcount t) = d.
  Proof. unfold d. apply shl64_1. pose proof (popcount_le t n Ht). lia. Qed.

  Lemma multi_update_computes M m :
    kcomputes addr2_eqb valid (multi_update n D t c cv M) m
      (fun a => if fst a && gdom n B c cv (snd a)
                then apply_mat (bits t) [] M (fun x => m (false, x)) (snd a)
                else m a).
  Proof.
    assert (E : multi_update n D t c cv M = rows_update (fun r => map (fun col => (M r col, col)) (seqN d))).
    { unfold multi_update, rows_update. rewrite shl_d. f_equal.
      apply FunctionalExtensionality.functional_extensionality. intros w. f_equal. rewrite map_map. reflexivity. }
    rewrite E. eapply par_computes_ext; [|apply rows_computes].
    - intros [b a]. simpl. destruct (b && gdom n B c cv a); [|reflexivity].
      rewrite Csuml_map. unfold apply_mat. simpl. rewrite bits_length. reflexivity.
    - intros r p Hr Hp. apply in_map_iff in Hp. destruct Hp as (col & <- & Hcol). now apply in_seqN.
  Qed.

  (** multi_dense_matrix_gate: initialise the second buffer, then fill in the controlled rows. *)
  Lemma multi_dense_computes M m :
    exists m', kcomputes_list addr2_eqb valid [multi_init D c cv; multi_update n D t c cv M] m m' /\
      forall a, a < D -> m' (true, a) = apply_mat (bits t) (ctrls c cv) M (fun x => m (false, x)) a.
  Proof.
    eexists. split.
    - simpl. eexists. split; [apply init_computes|]. eexists. split; [apply multi_update_computes|]. intros a. reflexivity.
    - intros a Ha. simpl. unfold gdom. fold D. apply N.ltb_lt in Ha. rewrite Ha. simpl.
      unfold apply_mat. rewrite ctrl_ok_ctrls by assumption. destruct (N.land a c =? cv) eqn:E; [|reflexivity]. reflexivity.
  Qed.

  (** CSR matrices *)
  Definition csr_row (S : csr) (r : N) : list (C * N) :=
    map (fun k => (nth (N.to_nat (nth (N.to_nat r) (csr_row_ptr S) 0 + k)) (csr_vals S) C0,
                   nth (N.to_nat (nth (N.to_nat r) (csr_row_ptr S) 0 + k)) (csr_col_idx S) 0))
        (seqN (nth (N.to_nat (r + 1)) (csr_row_ptr S) 0 - nth (N.to_nat r) (csr_row_ptr S) 0)).
  Definition csr_matrix (S : csr) : matrix := fun r col =>
    Csuml (fun p => if snd p =? col then fst p else C0) (csr_row S r).
  Definition csr_wf (S : csr) : Prop := forall r p, r < csr_rows S -> In p (csr_row S r) -> snd p < csr_rows S.

  Lemma sparse_computes S m : csr_rows S = d -> csr_wf S ->
    exists m', kcomputes_list addr2_eqb valid [multi_init D c cv; sparse_update n D t c cv S] m m' /\
      forall a, a < D -> m' (true, a) = apply_mat (bits t) (ctrls c cv) (csr_matrix S) (fun x => m (false, x)) a.
  Proof.
    intros Hrows Hwf.
    assert (E : sparse_update n D t c cv S = rows_update (csr_row S)).
    { unfold sparse_update, rows_update. rewrite Hrows. f_equal.
      apply FunctionalExtensionality.functional_extensionality. intros w. f_equal.
      unfold csr_row. rewrite map_map. reflexivity. }
    rewrite E. eexists. split.
    - simpl. eexists. split; [apply init_computes|]. eexists. split.
      + apply rows_computes. intros r p Hr Hp. rewrite <- Hrows. rewrite <- Hrows in Hr. now apply (Hwf r).
      + intros a. reflexivity.
    - intros a Ha. simpl. unfold gdom. fold D. apply N.ltb_lt in Ha. rewrite Ha. simpl.
      unfold apply_mat. rewrite ctrl_ok_ctrls by assumption. destruct (N.land a c =? cv) eqn:Ec; [|reflexivity].
      assert (Hg : gather (bits t) a < d) by apply gather_d.
      set (r := gather (bits t) a) in *. rewrite bits_length. fold d. unfold csr_matrix.
      transitivity (Csum d (fun j => Csuml (fun p => if snd p =? j then (fst p * m (false, scatter (bits t) j a))%C else C0) (csr_row S r))).
      + unfold Csum. rewrite Csuml_swap. apply Csuml_ext. intros p Hp.
        symmetry. rewrite (Csuml_single _ _ (snd p)); [now rewrite N.eqb_refl|apply NoDup_seqN| |].
        * apply in_seqN. rewrite <- Hrows. apply (Hwf r); [rewrite Hrows; assumption|assumption].
        * intros x _ Hx. replace (snd p =? x) with false by lia. reflexivity.
      + apply Csum_ext. intros j Hj. rewrite <- Csuml_mul_r. apply Csuml_ext. intros p Hp.
        destruct (snd p =? j); [reflexivity|]. ring.
  Qed.
End MultiKernels.

(** ** Dispatch between the vectorised and the scalar path *)
Section Dispatch.
  Variables (n B c cv L : N).
  Hypothesis Hn : n <= 64.
  Hypothesis HB : B * 2 ^ n <= two64.
  Hypothesis Hc : c < 2 ^ n.
  Hypothesis Hcv : N.land cv c = cv.
  Let D := B * 2 ^ n.
  (** complex_lanes is a power of two, or there is no vector path at all *)
  Hypothesis HL : L = 0 \/ exists l, l < 64 /\ L = 2 ^ l.

  Lemma use_simd_true skip : skip < 2 ^ n -> use_simd n L skip = true ->
    exists l, L = 2 ^ l /\ L <= 2 ^ (n - popcount skip) /\ N.land skip (L - 1) = 0.
  Proof.
    intros Hs H. unfold use_simd in H. rewrite !andb_true_iff in H. destruct H as [[H1 H2] H3].
    destruct HL as [->|(l & Hl & ->)]; [discriminate|]. exists l. split; [reflexivity|].
    rewrite <- (N.mul_1_l (2 ^ n)) in H2. rewrite shiftr_flat in H2 by now apply popcount_le. rewrite N.mul_1_l in H2.
    split; [lia|]. rewrite sub64_pred in H3; [lia|apply pow2_pos|]. unfold two64. apply N.pow_lt_mono_r; lia.
  Qed.
  Lemma zero_target_computes s m :
    kcomputes N.eqb (fun a => a <? D) (zero_target_dense_matrix_gate n D L c cv s) m
      (fun a => if a <? D then apply_mat [] (ctrls c cv) (fun _ _ => s) m a else m a).
  Proof.
    unfold zero_target_dense_matrix_gate. destruct (use_simd n L c) eqn:E.
    - destruct (use_simd_true c Hc E) as (l & -> & H1 & H2). now apply zero_target_simd_computes.
    - now apply zero_target_scalar_computes.
  Qed.
  Lemma one_target_computes q M m : q < n -> N.testbit c q = false ->
    kcomputes N.eqb (fun a => a <? D) (one_target_dense_matrix_gate n D L (2 ^ q) c cv M) m
      (fun a => if a <? D then apply_mat [q] (ctrls c cv) M m a else m a).
  Proof.
    intros Hq Hdq. unfold one_target_dense_matrix_gate. destruct (use_simd n L (N.lor (2 ^ q) c)) eqn:E.
    - destruct (use_simd_true (N.lor (2 ^ q) c)) as (l & -> & H1 & H2); [|exact E|].
      + apply lor_u64_pow2; [apply N.pow_lt_mono_r; lia|assumption].
      + now apply one_target_simd_computes.
    - now apply dense1_scalar_computes.
  Qed.
End Dispatch.
