(** get_expanded_matrix computes [embed]. *)
From Verif Require Export MergeProofs.
From Coq Require Import ZifyBool ZifyN ZifyNat.

Lemma fold_lor_tb {T} (f : T -> N) l : forall acc p,
  N.testbit (fold_left (fun a x => N.lor a (f x)) l acc) p = N.testbit acc p || existsb (fun x => N.testbit (f x) p) l.
Proof.
  induction l as [|x l IH]; intros acc p; simpl; [now rewrite orb_false_r|]. rewrite IH, N.lor_spec, orb_assoc. reflexivity.
Qed.
Lemma shl64_bit_tb (b : bool) m p : m < 64 -> N.testbit (shl64 (if b then 1 else 0) m) p = (p =? m) && b.
Proof.
  intros Hm. destruct b.
  - rewrite shl64_one, pow2_tb by assumption. now rewrite andb_true_r.
  - rewrite andb_false_r. unfold shl64. rewrite N.shiftl_0_l. apply N.bits_0.
Qed.
Lemma shiftr_land_1 x j : N.land (N.shiftr x j) 1 = if N.testbit x j then 1 else 0.
Proof.
  rewrite N.land_comm. change 1 with (N.ones 1). rewrite N.land_comm, N.land_ones. change (2 ^ 1) with 2. 
  rewrite <- N.bit0_mod, N.shiftr_spec by lia. rewrite N.add_0_l. now destruct (N.testbit x j).
Qed.
Lemma sub64_sub a b : b <= a -> a < two64 -> sub64 a b = a - b.
Proof.
  intros H1 H2. unfold sub64, wrap. replace (a + (two64 - b)) with (a - b + 1 * two64) by lia.
  unfold two64 in *. rewrite N.mod_add by lia. apply N.mod_small. lia.
Qed.

Lemma land_le_l a b : N.land a b <= a.
Proof.
  pose proof (N.sub_nocarry_ldiff a (N.land a b)) as H.
  destruct (N.le_gt_cases (N.land a b) a) as [|Hlt]; [assumption|]. exfalso.
  assert (E : a = N.land a b + N.ldiff a b).
  { rewrite N.add_nocarry_lxor.
    - apply N.bits_inj. intros i. rewrite N.lxor_spec, N.land_spec, N.ldiff_spec. destruct (N.testbit a i), (N.testbit b i); reflexivity.
    - apply N.bits_inj. intros i. rewrite !N.land_spec, N.ldiff_spec, N.bits_0. destruct (N.testbit a i), (N.testbit b i); reflexivity. }
  lia.
Qed.
Lemma forallb_ext_in {T} (f g : T -> bool) l : (forall x, In x l -> f x = g x) -> forallb f l = forallb g l.
Proof. induction l as [|x l IH]; intros H; simpl; [reflexivity|]. rewrite H by now left. f_equal. apply IH. intros; apply H; now right. Qed.
Section Em.
  Variables (from : matrix) (ts : list N) (c cv : N) (ops : list N).
  Hypothesis Hops : incr ops.
  Hypothesis Hlen : (length ops < 64)%nat.
  Hypothesis Hts : NoDup ts.
  Hypothesis Hsub : incl ts ops.
  Hypothesis Hc : c < two64.
  Hypothesis Hcsub : incl (bits c) ops.
  Hypothesis Hdisj : forall q, In q ts -> N.testbit c q = false.
  Hypothesis Hcv : N.land cv c = cv.

  Let pos := opos ops.
  Let ts' := map pos ts.
  Let cs' := map (fun p => (pos (fst p), snd p)) (ctrls c cv).
  Let k := N.of_nat (length ops).
  Let d := 2 ^ N.of_nat (length ts).

  Lemma pos_64 q : In q ops -> pos q < 64.
  Proof. intros H. apply opos_lt in H; [|assumption]. unfold pos. lia. Qed.
  Lemma pos_k q : In q ops -> pos q < k.
  Proof. intros H. apply opos_lt in H; assumption. Qed.
  Lemma nd' : NoDup ts'. Proof. now apply opos_NoDup. Qed.
  Lemma lt' : Forall (fun q => q < k) ts'.
  Proof. apply Forall_forall. intros p Hp. apply in_map_iff in Hp. destruct Hp as (q & <- & Hq). apply pos_k; auto. Qed.
  Lemma len' : length ts' = length ts. Proof. apply map_length. Qed.
  Lemma lents : (length ts <= length ops)%nat. Proof. now apply NoDup_incl_length. Qed.

  Lemma em_idx_tb i p : N.testbit (em_idx ts ops i) p = true <-> exists j, nth_error ts' j = Some p /\ N.testbit i (N.of_nat j) = true.
  Proof.
    unfold em_idx. rewrite (fold_lor_tb (fun jm => shl64 (N.land (N.shiftr i (fst jm)) 1) (snd jm))). rewrite N.bits_0. simpl.
    change (em_targets_map ts ops) with ts'. rewrite existsb_exists.
    split.
    - intros ([j m] & Hin & H). cbn [fst snd] in H. rewrite <- len' in Hin. apply in_combine_seqN in Hin. destruct Hin as [Hj ->].
      rewrite shiftr_land_1, shl64_bit_tb in H.
      + apply andb_true_iff in H. destruct H as [H1 H2]. apply N.eqb_eq in H1. subst p. exists (N.to_nat j). split.
        * apply nth_error_nth'. lia.
        * now rewrite N2Nat.id.
      + pose proof lt' as HF. rewrite Forall_forall in HF. pose proof (HF (nth (N.to_nat j) ts' 0) ltac:(apply nth_In; lia)). unfold k in *. lia.
    - intros (j & Hj & Hi). assert (Hjl : (j < length ts')%nat) by (apply nth_error_Some; congruence).
      exists (N.of_nat j, p). split.
      + rewrite <- len'. apply in_combine_seqN. split; [lia|]. rewrite Nat2N.id. symmetry. now apply nth_error_nth.
      + cbn [fst snd]. rewrite shiftr_land_1, shl64_bit_tb, N.eqb_refl, Hi; [reflexivity|].
        pose proof lt' as HF. rewrite Forall_forall in HF. pose proof (HF p (nth_error_In _ _ Hj)). unfold k in *. lia.
  Qed.
  Lemma em_idx_scatter i : em_idx ts ops i = scatter ts' i 0.
  Proof.
    apply N.bits_inj. intros p. apply eq_iff_eq_true. rewrite em_idx_tb. destruct (in_dec_N p ts') as [Hin|Hin].
    - apply In_nth_error in Hin. destruct Hin as [j Hj]. rewrite (scatter_in ts' i 0 j p nd' Hj). split.
      + intros (j' & Hj' & H). assert (j = j') as ->; [|assumption]. eapply NoDup_nth_error; [apply nd'| |congruence]. apply nth_error_Some. congruence.
      + intros H. exists j. auto.
    - rewrite scatter_out by assumption. rewrite N.bits_0. split; [|discriminate]. intros (j & Hj & _). apply nth_error_In in Hj. contradiction.
  Qed.

  Lemma em_controls_loop_eq fuel : forall s m v, s < two64 -> (length (bits s) <= fuel)%nat ->
    em_controls_loop cv ops fuel s m v =
    (fold_left (fun a q => N.lor a (shl64 1 (lower_bound ops q))) (bits s) m,
     fold_left (fun a q => N.lor a (shl64 (N.land (N.shiftr cv q) 1) (lower_bound ops q))) (bits s) v).
  Proof.
    induction fuel as [|fuel IH]; intros s m v Hs Hl; simpl.
    - destruct (bits s); [reflexivity|simpl in Hl; lia].
    - destruct (N.eqb_spec s 0) as [->|Hnz]; [reflexivity|]. destruct (bits_step s ltac:(lia) Hs) as (Hb & _).
      rewrite Hb in *. simpl in Hl. simpl. apply IH; [|lia]. eapply N.le_lt_trans; [apply land_le_l|]. assumption.
  Qed.
  Lemma em_mask_tb p : N.testbit (fst (em_controls c cv ops)) p = true <-> exists q, In q (bits c) /\ pos q = p.
  Proof.
    unfold em_controls. rewrite em_controls_loop_eq by (try assumption; now apply bits_length_64). cbn [fst].
    rewrite (fold_lor_tb (fun q => shl64 1 (lower_bound ops q))), N.bits_0. simpl. rewrite existsb_exists. split; intros (q & Hq & H); exists q; split; try assumption.
    - rewrite shl64_one, pow2_tb in H by (apply pos_64; auto). symmetry. now apply N.eqb_eq.
    - rewrite shl64_one, pow2_tb by (apply pos_64; auto). apply N.eqb_eq. now symmetry.
  Qed.
  Lemma em_val_tb p : N.testbit (snd (em_controls c cv ops)) p = true <-> exists q, In q (bits c) /\ pos q = p /\ N.testbit cv q = true.
  Proof.
    unfold em_controls. rewrite em_controls_loop_eq by (try assumption; now apply bits_length_64). cbn [snd].
    rewrite (fold_lor_tb (fun q => shl64 (N.land (N.shiftr cv q) 1) (lower_bound ops q))), N.bits_0. simpl. rewrite existsb_exists.
    split.
    - intros (q & Hq & H). rewrite shiftr_land_1, shl64_bit_tb in H by (apply pos_64; auto). apply andb_true_iff in H. destruct H as [H1 H2].
      exists q. repeat split; try assumption. symmetry. now apply N.eqb_eq.
    - intros (q & Hq & <- & H). exists q. split; [assumption|]. rewrite shiftr_land_1, shl64_bit_tb, H by (apply pos_64; auto). now rewrite N.eqb_refl.
  Qed.
  Lemma em_ctrl x : (N.land x (fst (em_controls c cv ops)) =? snd (em_controls c cv ops)) = ctrl_ok cs' x.
  Proof.
    apply eq_iff_eq_true. rewrite N.eqb_eq. unfold ctrl_ok. rewrite forallb_forall. split.
    - intros E pv Hin. unfold cs', ctrls in Hin. apply in_map_iff in Hin. destruct Hin as ([q b] & <- & Hin). apply in_map_iff in Hin.
      destruct Hin as (q' & Eq & Hin). injection Eq as <- <-. cbn [fst snd]. apply (f_equal (fun y => N.testbit y (pos q'))) in E. rewrite N.land_spec in E.
      assert (Em : N.testbit (fst (em_controls c cv ops)) (pos q') = true) by (apply em_mask_tb; exists q'; auto). rewrite Em, andb_true_r in E. rewrite E.
      apply eqb_true_iff. apply eq_iff_eq_true. rewrite em_val_tb. split.
      + intros (q2 & H2 & H3 & H4). apply opos_inj in H3; auto. now subst.
      + intros H. exists q'. auto.
    - intros H. apply N.bits_inj. intros p. rewrite N.land_spec. apply eq_iff_eq_true. rewrite andb_true_iff, em_mask_tb, em_val_tb.
      assert (G : forall q, In q (bits c) -> N.testbit x (pos q) = N.testbit cv q).
      { intros q Hq. specialize (H (pos q, N.testbit cv q)). cbn [fst snd] in H. apply eqb_true_iff. apply H.
        unfold cs', ctrls. apply in_map_iff. exists (q, N.testbit cv q). split; [reflexivity|]. apply in_map_iff. exists q. auto. }
      split.
      + intros [Hx (q & Hq & <-)]. exists q. rewrite <- G by assumption. auto.
      + intros (q & Hq & <- & Hv). rewrite G by assumption. split; [assumption|]. exists q. auto.
  Qed.
  Lemma em_val_lt : snd (em_controls c cv ops) < 2 ^ k.
  Proof.
    apply lt_pow2_testbit. intros i Hi. apply not_true_iff_false. rewrite em_val_tb. intros (q & Hq & <- & _). pose proof (pos_k q (Hcsub q Hq)). lia.
  Qed.
  Lemma em_val_sub x : ctrl_ok cs' x = true -> N.lor (snd (em_controls c cv ops)) x = x.
  Proof.
    intros H. rewrite <- em_ctrl in H. apply N.eqb_eq in H. rewrite <- H. apply N.bits_inj. intros i. rewrite N.lor_spec, N.land_spec.
    destruct (N.testbit x i); [now rewrite orb_true_r|reflexivity].
  Qed.
  Lemma cs'_ts' p : In p cs' -> ~ In (fst p) ts'.
  Proof.
    intros Hin Ht. unfold cs', ctrls in Hin. rewrite map_map in Hin. apply in_map_iff in Hin. destruct Hin as (q & <- & Hq). cbn [fst] in Ht.
    apply in_map_iff in Ht. destruct Ht as (q' & E & Hq'). apply opos_inj in E; auto. subst q'. apply in_bits in Hq. rewrite Hdisj in Hq; [discriminate|assumption].
  Qed.

  (** Where the writes of one outer index go. *)
  Lemma row_tb i o p : ~ In p ts' -> N.testbit (N.lor (scatter ts' i 0) o) p = N.testbit o p.
  Proof. intros H. rewrite N.lor_spec, scatter_out, N.bits_0 by assumption. reflexivity. Qed.
  Lemma row_ctrl i o : ctrl_ok cs' (N.lor (scatter ts' i 0) o) = ctrl_ok cs' o.
  Proof.
    unfold ctrl_ok. apply forallb_ext_in. intros p Hp. rewrite row_tb; [reflexivity|]. now apply cs'_ts'.
  Qed.
  Lemma row_gather_le i o : i < d -> i <= gather ts' (N.lor (scatter ts' i 0) o).
  Proof.
    intros Hi. rewrite <- (gather_scatter ts' i 0 nd') at 1 by (rewrite len'; exact Hi).
    assert (E : N.land (gather ts' (scatter ts' i 0)) (gather ts' (N.lor (scatter ts' i 0) o)) = gather ts' (scatter ts' i 0)).
    { apply N.bits_inj. intros p. rewrite N.land_spec. rewrite <- (N2Nat.id p), !gather_tb. destruct (nth_error ts' (N.to_nat p)); [|reflexivity].
      rewrite N.lor_spec. now destruct (N.testbit (scatter ts' i 0) n). }
    rewrite <- E. rewrite N.land_comm. apply land_le_l.
  Qed.
  Lemma row_outside i o : scatter ts' 0 (N.lor (scatter ts' i 0) o) = scatter ts' 0 o.
  Proof. apply scatter_ext; [apply nd'|]. intros p Hp. now apply row_tb. Qed.
  Lemma row_hit r : N.lor (scatter ts' (gather ts' r) 0) (scatter ts' 0 r) = r.
  Proof.
    apply N.bits_inj. intros p. rewrite N.lor_spec. destruct (in_dec_N p ts') as [Hin|Hin].
    - apply In_nth_error in Hin. destruct Hin as [j Hj]. rewrite !(scatter_in ts' _ _ j p nd' Hj), N.bits_0, orb_false_r, gather_tb, Hj. reflexivity.
    - rewrite !scatter_out, N.bits_0 by assumption. reflexivity.
  Qed.
  Lemma outer_in o : In o (em_outer c cv ops) <-> o < 2 ^ k /\ ctrl_ok cs' o = true.
  Proof. unfold em_outer. rewrite filter_In, in_seqN, em_ctrl, shl64_one by lia. reflexivity. Qed.

  Definition cell (i j o : N) : N * N * C :=
    (N.lor (N.lor (em_idx ts ops i) (snd (em_controls c cv ops))) o, N.lor (N.lor (em_idx ts ops j) (snd (em_controls c cv ops))) o, from i j).
  Lemma cell_eq i j o : In o (em_outer c cv ops) -> cell i j o = (N.lor (scatter ts' i 0) o, N.lor (scatter ts' j 0) o, from i j).
  Proof.
    intros H. apply outer_in in H. unfold cell. rewrite <- !N.lor_assoc, em_val_sub by apply H. now rewrite !em_idx_scatter.
  Qed.
  Definition cells_ij (i j : N) := map (cell i j) (em_outer c cv ops).
  Definition cells_i (i : N) := flat_map (fun j => cells_ij i j) (seqN d).
  Lemma writes1_eq : em_writes1 from ts c cv ops = flat_map cells_i (seqN d).
  Proof. unfold em_writes1. pose proof lents. rewrite shl64_one by lia. reflexivity. Qed.
  Lemma cells_no_hit i j r s : (i < d -> gather ts' r < i) \/ (j < d -> gather ts' s < j) -> i < d -> j < d ->
    forall w, In w (cells_ij i j) -> hits r s w = false.
  Proof.
    intros H Hi Hj w Hw. apply in_map_iff in Hw. destruct Hw as (o & <- & Ho). rewrite cell_eq by assumption. unfold hits. cbn [fst snd].
    destruct (N.eqb_spec r (N.lor (scatter ts' i 0) o)) as [Er|]; [|reflexivity].
    destruct (N.eqb_spec s (N.lor (scatter ts' j 0) o)) as [Es|]; [|now rewrite andb_false_r].
    exfalso. pose proof (row_gather_le i o Hi) as Hri. pose proof (row_gather_le j o Hj) as Hsj. rewrite <- Er in Hri. rewrite <- Es in Hsj.
    destruct H as [H|H]; [specialize (H Hi)|specialize (H Hj)]; lia.
  Qed.
  Lemma cells_i_in i w : In w (cells_i i) <-> exists j, j < d /\ In w (cells_ij i j).
  Proof. unfold cells_i. rewrite in_flat_map. split; intros (j & Hj & H); exists j; (split; [now apply in_seqN|assumption]). Qed.

  Lemma writes1_hit M0 r s : r < 2 ^ k -> ctrl_ok cs' r = true ->
    fold_left em_write (em_writes1 from ts c cv ops) M0 r s =
    if scatter ts' 0 r =? scatter ts' 0 s then from (gather ts' r) (gather ts' s) else M0 r s.
  Proof.
    intros Hr Hc'. rewrite writes1_eq.
    assert (Hgr : gather ts' r < d) by (unfold d; rewrite <- len'; apply gather_lt).
    assert (Hgs : gather ts' s < d) by (unfold d; rewrite <- len'; apply gather_lt).
    destruct (N.eqb_spec (scatter ts' 0 r) (scatter ts' 0 s)) as [E|E].
    - set (i0 := gather ts' r) in *. set (j0 := gather ts' s) in *.
      rewrite (seqN_split i0 d Hgr), flat_map_app'. cbn [flat_map]. rewrite !fold_left_app.
      rewrite fold_none.
      2:{ intros w Hw. apply in_flat_map in Hw. destruct Hw as (i & Hi & Hw). apply in_map_iff in Hi. destruct Hi as (x & <- & Hx). apply in_seqN in Hx.
          apply cells_i_in in Hw. destruct Hw as (j & Hj & Hw). eapply cells_no_hit; [|exact (ltac:(lia) : i0 + 1 + x < d)|exact Hj|exact Hw]. left. intros _. fold i0. lia. }
      unfold cells_i at 1. rewrite (seqN_split j0 d Hgs), flat_map_app'. cbn [flat_map]. rewrite !fold_left_app.
      rewrite fold_none.
      2:{ intros w Hw. apply in_flat_map in Hw. destruct Hw as (j & Hj & Hw). apply in_map_iff in Hj. destruct Hj as (x & <- & Hx). apply in_seqN in Hx.
          eapply cells_no_hit; [|exact Hgr|exact (ltac:(lia) : j0 + 1 + x < d)|exact Hw]. right. intros _. fold j0. lia. }
      apply fold_all.
      + intros w Hw _. apply in_map_iff in Hw. destruct Hw as (o & <- & _). reflexivity.
      + right. assert (Ho : In (scatter ts' 0 r) (em_outer c cv ops)).
        { apply outer_in. split; [apply scatter_lt; [apply nd'|apply lt'|assumption]|]. rewrite <- row_ctrl with (i := i0). unfold i0. now rewrite row_hit. }
        exists (cell i0 j0 (scatter ts' 0 r)). split; [now apply in_map|]. rewrite cell_eq by assumption. unfold hits. cbn [fst snd]. unfold i0, j0. rewrite row_hit, E, row_hit, !N.eqb_refl. reflexivity.
    - apply fold_none. intros w Hw. apply in_flat_map in Hw. destruct Hw as (i & Hi & Hw). apply cells_i_in in Hw. destruct Hw as (j & Hj & Hw).
      apply in_map_iff in Hw. destruct Hw as (o & <- & Ho). rewrite cell_eq by assumption. unfold hits. cbn [fst snd].
      destruct (N.eqb_spec r (N.lor (scatter ts' i 0) o)) as [Er|]; [|reflexivity].
      destruct (N.eqb_spec s (N.lor (scatter ts' j 0) o)) as [Es|]; [|reflexivity]. exfalso. apply E. rewrite Er, Es, !row_outside. reflexivity.
  Qed.
  Lemma writes1_no r s : ctrl_ok cs' r = false -> forall w, In w (em_writes1 from ts c cv ops) -> hits r s w = false.
  Proof.
    intros Hr w Hw. rewrite writes1_eq in Hw. apply in_flat_map in Hw. destruct Hw as (i & Hi & Hw). apply cells_i_in in Hw. destruct Hw as (j & Hj & Hw).
    apply in_map_iff in Hw. destruct Hw as (o & <- & Ho). rewrite cell_eq by assumption. unfold hits. cbn [fst snd].
    destruct (N.eqb_spec r (N.lor (scatter ts' i 0) o)) as [Er|]; [|reflexivity]. exfalso. apply outer_in in Ho. rewrite Er, row_ctrl in Hr. destruct Ho. congruence.
  Qed.
  Lemma em_matrix r s : r < 2 ^ k -> s < 2 ^ k ->
    fold_left em_write (em_all_writes from ts c cv ops) (fun _ _ => C0) r s = embed ts' cs' from r s.
  Proof.
    intros Hr Hs. unfold em_all_writes. rewrite fold_left_app. unfold embed.
    assert (H2 : forall w, In w (em_writes2 c cv ops) -> exists i, w = (i, i, C1) /\ i < 2 ^ k /\ ctrl_ok cs' i = false).
    { intros w Hw. unfold em_writes2 in Hw. apply in_map_iff in Hw. destruct Hw as (i & <- & Hi). apply filter_In in Hi. destruct Hi as [Hi1 Hi2].
      apply in_seqN in Hi1. rewrite em_ctrl in Hi2. rewrite shl64_one in Hi1 by lia. exists i. repeat split; try assumption. now apply negb_true_iff. }
    destruct (ctrl_ok cs' r) eqn:Ec.
    - rewrite fold_none.
      + now apply writes1_hit.
      + intros w Hw. apply H2 in Hw. destruct Hw as (i & -> & _ & Hi). unfold hits. cbn [fst snd]. destruct (N.eqb_spec r i); [congruence|reflexivity].
    - destruct (N.eqb_spec r s) as [<-|Hne].
      + apply fold_all.
        * intros w Hw _. apply H2 in Hw. destruct Hw as (i & -> & _). reflexivity.
        * right. exists (r, r, C1). split; [|unfold hits; cbn [fst snd]; now rewrite N.eqb_refl].
          unfold em_writes2. apply in_map_iff. exists r. split; [reflexivity|]. apply filter_In. split; [apply in_seqN; now rewrite shl64_one by lia|]. now rewrite em_ctrl, Ec.
      + rewrite fold_none; [|intros w Hw; apply H2 in Hw; destruct Hw as (i & -> & _); unfold hits; cbn [fst snd];
          destruct (N.eqb_spec r i), (N.eqb_spec s i); try reflexivity; congruence].
        rewrite fold_none by now apply writes1_no. reflexivity.
  Qed.
  Lemma em_bounds w : In w (em_all_writes from ts c cv ops) -> fst (fst w) < 2 ^ k /\ snd (fst w) < 2 ^ k.
  Proof.
    intros Hw. unfold em_all_writes in Hw. apply in_app_or in Hw. destruct Hw as [Hw|Hw].
    - rewrite writes1_eq in Hw. apply in_flat_map in Hw. destruct Hw as (i & Hi & Hw). apply cells_i_in in Hw. destruct Hw as (j & Hj & Hw).
      apply in_map_iff in Hw. destruct Hw as (o & <- & Ho). rewrite cell_eq by assumption. cbn [fst snd]. apply outer_in in Ho.
      assert (Z : 0 < 2 ^ k) by (apply N.neq_0_lt_0, N.pow_nonzero; lia).
      split; apply lor_lt_iff; (split; [|apply Ho]); (apply scatter_lt; [apply nd'|apply lt'|assumption]).
    - unfold em_writes2 in Hw. apply in_map_iff in Hw. destruct Hw as (i & <- & Hi). apply filter_In in Hi. destruct Hi as [Hi _]. apply in_seqN in Hi.
      rewrite shl64_one in Hi by lia. cbn [fst snd]. auto.
  Qed.
  Lemma room : N.of_nat (length ts) + popcount c <= k.
  Proof.
    rewrite <- bits_length. unfold k. rewrite <- Nat2N.inj_add, <- app_length. assert ((length (ts ++ bits c) <= length ops)%nat); [|lia].
    apply NoDup_incl_length.
    - apply NoDup_app_intro; [assumption|apply bits_NoDup|]. intros q Hq Hb. apply in_bits in Hb. rewrite Hdisj in Hb; [discriminate|assumption].
    - intros q Hq. apply in_app_or in Hq. destruct Hq; auto.
  Qed.
  Theorem expanded_correct : exists E, get_expanded_matrix (DMat d d from) ts c cv ops = Ok E /\
    m_rows E = 2 ^ k /\ m_cols E = 2 ^ k /\ mat_eq (2 ^ k) (m_at E) (embed ts' cs' from).
  Proof.
    unfold get_expanded_matrix. pose proof room as Hroom. pose proof lents as Hl. fold k. cbn [m_rows m_cols m_at].
    assert (E1 : (64 <=? N.of_nat (length ts)) = false) by lia. rewrite E1.
    assert (E2 : (64 <=? k) = false) by (unfold k; lia). rewrite E2.
    assert (Hk : k < 64) by (unfold k; lia).
    rewrite (sub64_sub k) by (unfold k, two64; lia). rewrite sub64_sub by (unfold two64; lia).
    assert (E3 : (64 <=? k - N.of_nat (length ts) - popcount c) = false) by lia. rewrite E3.
    assert (E4 : existsb (fun m => 64 <=? m) (em_targets_map ts ops) = false).
    { apply not_true_iff_false. intros H. apply existsb_exists in H. destruct H as (m & Hm & H). pose proof lt' as HF. rewrite Forall_forall in HF.
      change (em_targets_map ts ops) with ts' in Hm. specialize (HF m Hm). lia. }
    assert (E5 : existsb (fun q => 64 <=? lower_bound ops q) (mask_to_vector c) = false).
    { apply not_true_iff_false. intros H. apply existsb_exists in H. destruct H as (m & Hm & H). rewrite mask_to_vector_bits in Hm by assumption.
      pose proof (pos_64 m (Hcsub m Hm)) as HH. unfold pos, opos in HH. lia. }
    rewrite E4, E5. rewrite !shl64_one by lia. fold d. rewrite N.eqb_refl. cbn [negb orb].
    assert (E6 : existsb (fun w => (2 ^ k <=? fst (fst w)) || (2 ^ k <=? snd (fst w))) (em_all_writes from ts c cv ops) = false).
    { apply not_true_iff_false. intros H. apply existsb_exists in H. destruct H as (w & Hw & H). apply em_bounds in Hw. lia. }
    rewrite E6. eexists. split; [reflexivity|]. cbn [m_rows m_cols m_at]. repeat split; try reflexivity. intros r s Hr Hs. now apply em_matrix.
  Qed.
End Em.
