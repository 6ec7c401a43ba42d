(** The size of the gates in an optimized circuit. *)
From Verif Require Export OptimizeProofs11.
From Coq Require Import Lia Lra Permutation ZifyBool ZifyN ZifyNat.
Open Scope N_scope.
Open Scope list_scope.

Lemma merge_any_other vf h g m : merge_any vf h g = Ok m ->
  (exists a b ph, h = CElem a /\ g = CElem b /\ merge_gate vf a b = Ok (ph, snd m) /\ fst m = CElem ph) \/
  ((forall e, fst m <> CElem e) /\ (fst m = h \/ fst m = g)).
Proof.
  intros H. destruct h as [a|t cl b|v ps gs].
  - destruct g as [b|t cl b|v ps gs].
    + left. rewrite merge_any_elem in H. apply bindR_ok in H. destruct H as ([e ph] & H & Hm). injection Hm as <-. exists a, b, e. auto.
    + right. destruct a as [[] []]; cbn in H; try discriminate; try (destruct (_ =? _) in H; [|discriminate]); injection H as <-; split; cbn; try discriminate; tauto.
    + right. destruct v; destruct a as [[] []]; cbn in H; try discriminate; injection H as <-; split; cbn; try discriminate; tauto.
  - right. destruct g as [[[] []]|t' cl' b'|[] ps gs]; cbn in H; try discriminate; try (destruct (_ =? _) in H; [|discriminate]); injection H as <-; split; cbn; try discriminate; tauto.
  - right. destruct v; [cbn in H; destruct g as [|t' cl' b'|[] ps' gs']; discriminate|]. destruct g as [[[] []]|t' cl' b'|[] ps' gs']; cbn in H; try discriminate; injection H as <-; split; cbn; try discriminate; tauto.
Qed.
Lemma bits_sub_length a (l : list N) : (forall q, N.testbit a q = true -> In q l) -> popcount a <= N.of_nat (length l).
Proof.
  intros H. rewrite <- bits_length. assert (length (bits a) <= length l)%nat; [|lia]. apply NoDup_incl_length; [apply bits_NoDup|]. intros q Hq. apply H. now apply in_bits.
Qed.
Lemma bits_sub_length2 a b (l : list N) : (forall q, N.testbit a q = true -> In q l /\ N.testbit b q = false) -> (forall q, N.testbit b q = true -> In q l) ->
  popcount a + popcount b <= N.of_nat (length l).
Proof.
  intros Ha Hb. rewrite <- !bits_length. assert (length (bits a ++ bits b) <= length l)%nat; [|rewrite app_length in *; lia]. apply NoDup_incl_length.
  - apply NoDup_app_intro; try apply bits_NoDup. intros q Hq Hq'. apply in_bits in Hq. apply in_bits in Hq'. destruct (Ha q Hq). congruence.
  - intros q Hq. apply in_app_or in Hq. destruct Hq as [Hq|Hq]; apply in_bits in Hq; [now apply Ha|now apply Hb].
Qed.
Lemma olist_elem e : gate_wf (snd e) -> olist (IGate (CElem e)) = bits (ops_of e).
Proof.
  intros [(_ & _ & Ht & Hc) _]. unfold olist. destruct e as [t e]. cbn [item_mask operand_mask]. apply mask_to_vector_bits. apply lor_u64; assumption.
Qed.

Lemma filter_shorter {A} (p : A -> bool) l : (length (filter p l) <= length l)%nat.
Proof. induction l as [|a l IH]; cbn; [lia|]. destruct (p a); cbn; lia. Qed.
Lemma combine_fst_snd {A B} (l : list (A * B)) : combine (map fst l) (map snd l) = l.
Proof. induction l as [|[a b] l IH]; cbn; [reflexivity|now rewrite IH]. Qed.

Section Block.
  Variables (vf : bool) (mb nq : N) (items : list (citem * option cond)).
  Hypothesis Hwf : forall e, In (IGate (CElem e), None) items -> gate_wf (snd e).
  Definition fits_block (e : tgate) : Prop := popcount (g_t (g_base (snd e))) <= mb \/ pauli_kind e = true.
  Definition good (g : cgate) : Prop := In (IGate g, None) items \/ exists e, g = CElem e /\ gate_wf (snd e) /\ fits_block e.
  Definition good_item (x : citem * option cond) : Prop := In x items \/ exists e, x = (IGate (CElem e), None) /\ gate_wf (snd e) /\ fits_block e.
  Record block_inv (st : ost) : Prop := {
    bi_pool : forall g, In g (o_pool st) -> good g;
    bi_wait : forall q k, o_wait st q = Some k -> exists g, nth_error (o_pool st) k = Some g /\ In q (olist (IGate g));
    bi_out : forall x, In x (o_out st) -> good_item x }.
  Lemma good_wf e : good (CElem e) -> gate_wf (snd e).
  Proof using Hwf. intros [H|(e' & [= <-] & W & _)]; [now apply Hwf|exact W]. Qed.
  Lemma good_to_item g : good g -> good_item (IGate g, None).
  Proof. intros [H|(e & -> & W & H)]; [now left|right; eauto]. Qed.
  Lemma start_inv : block_inv o_start.
  Proof. split; cbn; try contradiction. discriminate. Qed.
  Lemma push_inv i f st st' : block_inv st -> good_item (i, f) -> o_push nq i f st = Ok st' -> block_inv st'.
  Proof.
    intros Hi Hg H. apply on_operands_ok in H. destruct H as [_ H]. injection H as <-. split; cbn [o_pool o_wait o_out].
    - apply Hi.
    - intros q k. destruct (in_dec N.eq_dec q (olist i)) as [Hq|Hq]; [now rewrite set_wait_in|rewrite set_wait_out by assumption; apply Hi].
    - intros x Hx. apply in_app_or in Hx. destruct Hx as [Hx|[<-|[]]]; [now apply Hi|exact Hg].
  Qed.
  Lemma waitfor_inv g st st' : block_inv st -> good g -> o_waitfor nq g st = Ok st' -> block_inv st'.
  Proof.
    intros Hi Hg H. apply on_operands_ok in H. destruct H as [_ H]. injection H as <-. split; cbn [o_pool o_wait o_out].
    - intros h Hh. apply in_app_or in Hh. destruct Hh as [Hh|[<-|[]]]; [now apply Hi|exact Hg].
    - intros q k. destruct (in_dec N.eq_dec q (olist (IGate g))) as [Hq|Hq].
      + rewrite set_wait_in by assumption. intros [= <-]. exists g. split; [|exact Hq]. rewrite nth_error_app2, Nat.sub_diag by lia. reflexivity.
      + rewrite set_wait_out by assumption. intros Hk. destruct (bi_wait _ Hi _ _ Hk) as (h & Hh & Hq'). exists h. split; [|exact Hq']. rewrite nth_error_app1; [exact Hh|]. apply nth_error_Some. congruence.
    - apply Hi.
  Qed.
  Lemma pool_at_ok st k g : pool_at st k = Ok g -> nth_error (o_pool st) k = Some g.
  Proof. unfold pool_at. destruct (nth_error _ k); intros [= <-]. reflexivity. Qed.
  Lemma pool_good st k g : block_inv st -> pool_at st k = Ok g -> good g.
  Proof. intros Hi H. apply pool_at_ok in H. apply (bi_pool _ Hi). now apply nth_error_In in H. Qed.
  Lemma push_all_inv ks : forall st st', block_inv st -> push_all nq ks st = Ok st' -> block_inv st'.
  Proof.
    induction ks as [|k ks IH]; intros st st' Hi H; cbn [push_all] in H; [now injection H as <-|].
    inv_bind H. inv_bind H. apply (IH v0); [|exact H]. apply (push_inv _ _ _ _ Hi) in E0; [exact E0|]. apply good_to_item. exact (pool_good _ _ _ Hi E).
  Qed.
  (** the gates in ks and the gate itself, all on the qubits U *)
  Lemma merge_all_inv U ks : forall g st r, merge_all vf ks g st = Ok r -> good g \/ (exists e, g = CElem e /\ gate_wf (snd e)) ->
    (forall e, g = CElem e -> forall q, N.testbit (ops_of e) q = true -> In q U) ->
    (forall k h, In k ks -> nth_error (o_pool st) k = Some h -> good h /\ forall e, h = CElem e -> forall q, N.testbit (ops_of e) q = true -> In q U) ->
    (o_pool (snd r) = o_pool st /\ o_wait (snd r) = o_wait st /\ o_out (snd r) = o_out st) /\
    (good (fst r) \/ (exists e, fst r = CElem e /\ gate_wf (snd e))) /\ forall e, fst r = CElem e -> gate_wf (snd e) /\ forall q, N.testbit (ops_of e) q = true -> In q U.
  Proof using Hwf.
    induction ks as [|k ks IH]; intros g st r H Hg Hu Hks; cbn [merge_all] in H.
    - injection H as <-. cbn [fst snd]. split; [auto|]. split; [exact Hg|]. intros e He. split; [|now apply Hu]. destruct Hg as [Hg|(e' & E & W)]; [rewrite He in Hg; now apply good_wf|congruence].
    - inv_bind H. inv_bind H. apply pool_at_ok in E. destruct (Hks k v (or_introl eq_refl) E) as [Hgv Huv].
      apply IH in H; cbn [o_pool o_wait o_out] in *; [exact H| | |intros k' h Hk'; apply Hks; now right].
      + destruct (merge_any_other _ _ _ _ E0) as [(a & b & e & -> & -> & Hm & ->)|[Hno [-> | ->]]]; [right; exists e; split; [reflexivity|]|now left|exact Hg].
        refine (proj1 (merge_sized vf a b e _ _ _ Hm)); [now apply good_wf|]. destruct Hg as [Hg|(e' & [= <-] & W)]; [now apply good_wf|exact W].
      + intros e He q Hq. destruct (merge_any_other _ _ _ _ E0) as [(a & b & e' & -> & -> & Hm & He')|[Hno _]]; [|now elim (Hno e)]. rewrite He' in He. injection He as ->.
        assert (Wb : gate_wf (snd b)) by (destruct Hg as [Hg|(e' & [= <-] & W)]; [now apply good_wf|exact W]).
        destruct (merge_sized vf a b e _ (good_wf _ Hgv) Wb Hm) as (_ & Ho & _). destruct (Ho q Hq) as [H'|H']; [apply (Huv a)|apply (Hu b)]; auto.
  Qed.
  (** a result without type is one of the gates: good *)
  Lemma merge_all_other ks : forall g st r, merge_all vf ks g st = Ok r -> (forall k h, In k ks -> nth_error (o_pool st) k = Some h -> good h) -> good g \/ (exists e, g = CElem e) -> good (fst r) \/ exists e, fst r = CElem e.
  Proof.
    induction ks as [|k ks IH]; intros g st r H Hks Hg; cbn [merge_all] in H; [now injection H as <-|]. inv_bind H. inv_bind H. apply pool_at_ok in E.
    apply IH in H; [exact H|intros k' h Hk'; apply Hks; now right|]. destruct (merge_any_other _ _ _ _ E0) as [(a & b & e & -> & -> & Hm & ->)|[Hno [-> | ->]]]; [right; eauto|left; apply (Hks k v); [now left|exact E]|exact Hg].
  Qed.
  Lemma all_pure_pool st st' ks : o_pool st = o_pool st' -> all_pure st ks = all_pure st' ks.
  Proof. intros H. induction ks as [|k ks IH]; [reflexivity|]. cbn [all_pure]. unfold pool_at. now rewrite H, IH. Qed.
  Definition pure (g : cgate) : Prop := g = CElem (true, EI) \/ exists e : tgate, g = CElem e /\ pauli_kind e = true /\ gate_wf (snd e) /\ g_c (g_base (snd e)) = 0.
  Lemma wf_cv (e : tgate) : gate_wf (snd e) -> g_c (g_base (snd e)) = 0 -> g_cv (g_base (snd e)) = 0.
  Proof. intros [(_ & H & _) _] Hc. rewrite Hc in H. now rewrite N.land_0_r in H. Qed.
  Lemma merge_all_pure ks : forall g st r, merge_all vf ks g st = Ok r -> pure g -> (forall k h, In k ks -> nth_error (o_pool st) k = Some h -> good h) -> all_pure st ks = Ok true -> pure (fst r).
  Proof using Hwf.
    induction ks as [|k ks IH]; intros g st r H Hg Hks Hp; cbn [merge_all all_pure] in *; [now injection H as <-|].
    inv_bind H. inv_bind H. inv_bind Hp. inv_bind Hp. rewrite E in E1. injection E1 as <-. destruct v2; [|discriminate]. pose proof (pool_at_ok _ _ _ E) as En.
    apply IH in H; [exact H| |intros k' h Hk'; apply Hks; now right|].
    - unfold is_pure_pauli in E2. inv_bind E2. injection E2 as E2. apply andb_true_iff in E2. destruct E2 as [Ec Ep]. destruct v as [a|t cl b|t ps gs]; try discriminate.
      assert (Wa : gate_wf (snd a)) by (apply good_wf; apply (Hks k); [now left|exact En]). assert (Hc : g_c (g_base (snd a)) = 0) by (destruct a; injection E1 as <-; cbn; lia).
      destruct Hg as [-> |(e & -> & Pe & We & Ce)].
      + right. exists a. destruct a as [[] a]; [|discriminate Ep]. assert (fst v0 = CElem (true, a)); [|auto].
        rewrite merge_any_elem in E0. apply bindR_ok in E0. destruct E0 as (m & E0 & Em). injection Em as <-. cbn [fst]. f_equal. unfold merge_gate in E0. cbn in E0.
        destruct a as [| |k' b'| | | |b' p'| | |]; try discriminate Ep; cbn in E0; injection E0 as <-; reflexivity.
      + rewrite merge_any_elem in E0. apply bindR_ok in E0. destruct E0 as ([m ph] & E0 & Em). injection Em as <-. cbn [fst].
        destruct (merge_pauli vf a e m ph) as [-> |[Pm Cm]]; auto; try (rewrite Hc, Ce; reflexivity); [rewrite !wf_cv; auto|now left|]. right. exists m. repeat split; auto. all: try apply (merge_sized vf a e m ph Wa We E0).
    - rewrite <- Hp. now apply all_pure_pool.
  Qed.
  Lemma pool_size_ok st ks : forall acc size, pool_size st ks acc = Ok size -> exists hs, Forall2 (fun k h => nth_error (o_pool st) k = Some h) ks hs /\ size = acc + N.of_nat (length (flat_map (fun h => olist (IGate h)) hs)).
  Proof.
    induction ks as [|k ks IH]; intros acc size H; cbn [pool_size] in H; [injection H as <-; exists []; split; [constructor|cbn; lia]|].
    inv_bind H. apply pool_at_ok in E. destruct (IH _ _ H) as (hs & Hf & ->). exists (v :: hs). split; [now constructor|]. cbn [flat_map]. rewrite app_length. lia.
  Qed.
  Lemma gate_inv g st st' : block_inv st -> In (IGate g, None) items -> o_gate vf mb nq g st = Ok st' -> block_inv st'.
  Proof using Hwf.
    intros Hi Hg H. assert (Gg : good g) by now left. unfold o_gate in H. apply bindR_ok in H. destruct H as (ks & Hk & H). apply waiting_indices_ok in Hk. destruct ks as [|k0 ks0]; [now apply (waitfor_inv g st)|].
    set (ks := k0 :: ks0) in *. inv_bind H. inv_bind H. inv_bind H. inv_bind H. inv_bind H. rename v into new, v0 into size, v1 into pg, v2 into allp, v3 into sp.
    destruct (snd sp || (fst sp <=? mb)) eqn:Edo; [|inv_bind H; apply (waitfor_inv g v); [now apply (push_all_inv ks st)|exact Gg|exact H]].
    inv_bind H. rename v into m. destruct (pool_size_ok _ _ _ _ E0) as (hs & Hhs & Hsize).
    apply on_operands_ok in E. destruct E as [_ E]. injection E as Enew.
    set (U := new ++ flat_map (fun h => olist (IGate h)) hs).
    assert (HU : N.of_nat (length U) = size) by (unfold U; rewrite app_length; lia).
    assert (HgU : forall e, g = CElem e -> forall q, N.testbit (ops_of e) q = true -> In q U).
    { intros e -> q Hq. apply in_bits in Hq. rewrite <- olist_elem in Hq by now apply good_wf. destruct (o_wait st q) as [k|] eqn:Ew.
      - apply in_or_app. right. assert (Hin : In k ks) by (rewrite Hk; apply waiting_In; eauto). destruct (bi_wait _ Hi _ _ Ew) as (h & Hh & Hqh).
        apply in_flat_map. exists h. split; [|exact Hqh]. clear -Hhs Hin Hh. induction Hhs as [|k' h' ks' hs' Hn _ IH]; [contradiction|]. destruct Hin as [->|Hin]; [left; congruence|right; auto].
      - apply in_or_app. left. rewrite <- Enew. apply filter_In. now rewrite Ew. }
    assert (HksU : forall k h, In k ks -> nth_error (o_pool st) k = Some h -> good h /\ forall e, h = CElem e -> forall q, N.testbit (ops_of e) q = true -> In q U).
    { intros k h Hin Hn. assert (Gh : good h) by (apply (bi_pool _ Hi); now apply nth_error_In in Hn). split; [exact Gh|]. intros e -> q Hq. apply in_or_app. right. apply in_flat_map. exists (CElem e). split.
      - clear -Hhs Hin Hn. induction Hhs as [|k' h' ks' hs' Hn' _ IH]; [contradiction|]. destruct Hin as [->|Hin]; [left; congruence|right; auto].
      - rewrite olist_elem by now apply good_wf. now apply in_bits. }
    destruct (merge_all_inv U ks g st m E4 (or_introl Gg) HgU HksU) as ((Hp1 & Hp2 & Hp3) & Hgm & Hm).
    apply (waitfor_inv (fst m) (snd m)); [split; rewrite ?Hp1, ?Hp2, ?Hp3; apply Hi| |exact H].
    destruct (merge_all_other ks g st m E4 (fun k h Hin Hn => proj1 (HksU k h Hin Hn)) (or_introl Gg)) as [G|[e He]]; [exact G|]. destruct (Hm e He) as [We HeU].
    right. exists e. split; [exact He|]. split; [exact We|].
    assert (Hpure : allp = true -> fits_block e).
    { intros ->. destruct pg; [|discriminate E2]. unfold is_pure_pauli in E1. inv_bind E1. injection E1 as E1. apply andb_true_iff in E1. destruct E1 as [Ec Ep]. destruct g as [a|? ? ?|? ? ?]; try discriminate.
      assert (P : pure (fst m)).
      { apply (merge_all_pure ks (CElem a) st m E4); [|intros k h Hin Hn; apply (HksU k h Hin Hn)|exact E2]. right. exists a. repeat split; auto; try apply (good_wf a Gg). destruct a; injection E as <-; cbn; lia. }
      destruct P as [P|(e' & P & Pe & _)]; rewrite He in P; injection P as ->; [left; cbn; lia|now right]. }
    assert (Hsmall : size <= mb -> fits_block e).
    { intros Hs. left. eapply N.le_trans; [|exact Hs]. rewrite <- HU. apply bits_sub_length. intros q Hq. apply HeU. unfold ops_of, base_operands. now rewrite N.lor_spec, Hq. }
    unfold ks in E3, E4. destruct ks0 as [|k1 ks1].
    - inv_bind E3. inv_bind E3. inv_bind E3. inv_bind E3. inv_bind E3. injection E3 as <-. cbn [fst snd] in Edo. pose proof (pool_at_ok _ _ _ E) as En.
      cbn [merge_all] in E4. rewrite E in E4. inv_bind E4. inv_bind E4. injection E4 as Em. injection E3 as <-. rewrite <- Em in He. cbn [fst] in He.
      destruct (merge_any_other _ _ _ _ E9) as [(a & b & e' & -> & -> & Hmm & He')|[Hno _]]; [|now elim (Hno e)]. rewrite He' in He. injection He as ->.
      assert (Ga : good (CElem a)) by now apply (HksU k0); [left|]. assert (Wa := good_wf a Ga). assert (Wb := good_wf b Gg).
      destruct a as [ta a], b as [tb b]. injection E5 as <-. injection E6 as <-. injection E7 as <-. injection E8 as <-.
      destruct (merge_sized vf _ _ e _ Wa Wb Hmm) as (_ & _ & Hb). cbn [snd] in *.
      set (common := N.land (N.land (g_c (g_base b)) (g_c (g_base a))) (not64 (N.lxor (g_cv (g_base b)) (g_cv (g_base a))))) in *.
      assert (Hcommon : common_of (ta, a) (tb, b) = common) by (unfold common_of, common; cbn [snd]; now rewrite (N.land_comm (g_c (g_base a))), (N.lxor_comm (g_cv (g_base a)))).
      assert (Hsz : popcount (g_t (g_base (snd e))) + popcount common <= size).
      { rewrite <- HU. apply bits_sub_length2.
        - intros q Hq. split; [apply HeU; unfold ops_of, base_operands; now rewrite N.lor_spec, Hq|]. rewrite <- Hcommon. now apply Hb.
        - intros q Hq. apply (HgU (tb, b) eq_refl). rewrite <- Hcommon in Hq. apply common_in in Hq. unfold ops_of, base_operands. cbn [snd] in *. rewrite N.lor_spec. destruct Hq as [_ ->]. apply orb_true_r. }
      assert (Hlt : size < two64).
      { assert (Hlen : forall e, gate_wf (snd e) -> N.of_nat (length (olist (IGate (CElem e)))) <= 64).
        { intros e0 W0. rewrite olist_elem by assumption. rewrite bits_length. destruct W0 as [(_ & _ & Ht & Hc) _]. exact (popcount_le (ops_of e0) 64 (lor_u64 _ _ Ht Hc)). }
        inversion Hhs as [|x1 x2 x3 x4 Hn1 Hn2]; subst. inversion Hn2; subst. rewrite En in Hn1. injection Hn1 as <-. cbn [flat_map]. rewrite app_nil_r.
        pose proof (Hlen (ta, a) Wa). pose proof (Hlen (tb, b) Wb).
        match goal with |- N.of_nat (length (filter ?p ?l)) + _ < _ => pose proof (filter_shorter p l) end. unfold two64. lia. }
      rewrite sub64_sub in Edo by lia. apply orb_true_iff in Edo. destruct Edo as [Edo|Edo]; [|left; lia].
      apply orb_true_iff in Edo. destruct Edo as [Edo|Edo]; [now apply Hpure|]. rewrite !andb_true_iff in Edo. destruct Edo as [[[Ec Ev] Pb] Pa].
      destruct (merge_pauli vf (ta, a) (tb, b) e (snd v5)) as [-> |[Pm _]]; auto; [symmetry; now apply N.eqb_eq|symmetry; now apply N.eqb_eq|left; cbn; lia|now right].
    - injection E3 as <-. cbn [fst snd] in Edo. apply orb_true_iff in Edo. destruct Edo as [Edo|Edo]; [now apply Hpure|apply Hsmall; lia].
  Qed.
  Lemma step_inv i f st st' : block_inv st -> In (i, f) items -> o_step vf mb nq i f st = Ok st' -> block_inv st'.
  Proof using Hwf.
    intros Hi Hin H. assert (Hfixed : (ks <- waiting_indices nq i st ;; s <- push_all nq ks st ;; o_push nq i f s) = Ok st' -> block_inv st').
    { intros E. inv_bind E. inv_bind E. apply (push_inv i f v0); [now apply (push_all_inv v st)|now left|exact E]. }
    unfold o_step in H. destruct f as [c|]; [now apply Hfixed|]. destruct i as [g|]; [|now apply Hfixed].
    destruct g as [[[] e]|? ? ?|[] ? ?]; try (now apply Hfixed); try (exact (gate_inv _ st st' Hi Hin H)).
    destruct e as [|b p| | | | | | | |]; [now injection H as <-| |exact (gate_inv _ st st' Hi Hin H)..]. destruct (g_c b =? 0); [|exact (gate_inv _ st st' Hi Hin H)].
    injection H as <-. destruct Hi as [H1 H2 H3]. now split.
  Qed.
  Lemma loop_inv l : forall fs st st', block_inv st -> (forall x, In x (combine l fs) -> In x items) -> o_loop vf mb nq l fs st = Ok st' -> block_inv st'.
  Proof using Hwf.
    induction l as [|i l IH]; intros fs st st' Hi Hin H; cbn [o_loop] in H; [now injection H as <-|]. destruct fs as [|f fs]; [discriminate|]. inv_bind H.
    apply (IH fs v); [|intros x Hx; apply Hin; now right|exact H]. apply (step_inv i f st); [exact Hi|apply Hin; now left|exact E].
  Qed.
  Lemma take_all_good ks : forall st l, block_inv st -> take_all ks st = Ok l -> forall i, In i l -> good_item (i, None).
  Proof.
    induction ks as [|k ks IH]; intros st l Hi H; cbn [take_all] in H; [injection H as <-; contradiction|]. inv_bind H. inv_bind H. injection H as <-. intros i [<-|Hin]; [|now apply (IH st v0)].
    apply good_to_item. exact (pool_good _ _ _ Hi E).
  Qed.
  Lemma finish_good st c' : block_inv st -> o_finish vf nq st = Ok c' -> forall x, In x (combine (c_gates c') (c_conds c')) -> good_item x.
  Proof.
    intros Hi H. unfold o_finish in H. inv_bind H. inv_bind H. injection H as <-. cbn [c_gates c_conds]. rewrite combine_fst_snd.
    assert (Hout : forall x, In x (o_out st ++ map (fun i => (i, None)) v) -> good_item x).
    { intros x Hx. apply in_app_or in Hx. destruct Hx as [Hx|Hx]; [now apply Hi|]. apply in_map_iff in Hx. destruct Hx as (i & <- & Hx). now apply (take_all_good _ st v Hi E). }
    destruct (Rlt_dec _ _); [|now injection E0 as <-]. inv_bind E0. injection E0 as <-. intros x Hx. apply in_app_or in Hx. destruct Hx as [Hx|[<-|[]]]; [now apply Hout|].
    right. eexists. split; [reflexivity|]. split; [exact (means_wf _ _ _ _ (make_means vf (CallGlobalPhase _ _ _) _ I E1))|]. left. cbn in E1. destruct vf; cbn in E1; injection E1 as <-; cbn; lia.
  Qed.
End Block.
Lemma pauli_gate_kind e : pauli_kind e = true <-> pauli_gate e.
Proof. destruct e as [[] e]; [|split; [discriminate|intros []]]. destruct e as [| |k b| | | | | | |]; try (split; [discriminate|intros []]); [destruct k; cbn; intuition congruence|cbn; intuition]. Qed.
Lemma block_size vf mb c c' : (forall e, In (IGate (CElem e), None) (combine (c_gates c) (c_conds c)) -> made e) -> optimize vf mb c = Ok c' ->
  forall i f, In (i, f) (combine (c_gates c') (c_conds c')) -> In (i, f) (combine (c_gates c) (c_conds c)) \/
    f = None /\ exists e, i = IGate (CElem e) /\ (N.of_nat (length (gate_target_list (snd e))) <= mb \/ pauli_gate e).
Proof.
  intros Hm H i f Hin. unfold optimize in H. inv_bind H.
  assert (Hwf : forall e, In (IGate (CElem e), None) (combine (c_gates c) (c_conds c)) -> gate_wf (snd e)) by (intros e He; apply made_wf; auto).
  assert (Hi : block_inv mb (combine (c_gates c) (c_conds c)) v) by (apply (loop_inv vf mb (required_n_qubits c) _ Hwf (c_gates c) (c_conds c) o_start v (start_inv _ _)); auto).
  destruct (finish_good vf mb _ _ v c' Hi H _ Hin) as [G|(e & [= -> ->] & W & Hf)]; [now left|right]. split; [reflexivity|]. exists e. split; [reflexivity|]. rewrite <- pauli_gate_kind. unfold gate_target_list. rewrite mask_to_vector_bits by apply W. now rewrite bits_length.
Qed.

(** ** Two gates *)
Lemma waiting_one qs w k : (exists q, In q qs /\ w q = Some k) -> (forall q j, In q qs -> w q = Some j -> j = k) -> waiting qs w = [k].
Proof.
  intros He Hu. apply waiting_In in He. assert (Hall : forall j, In j (waiting qs w) -> j = k) by (intros j Hj; apply waiting_In in Hj; destruct Hj as (q & Hq & Hw); eauto).
  pose proof (sort_unique_NoDup (flat_map (fun q => match w q with Some k => [k] | None => [] end) qs)) as Hn. fold (waiting qs w) in Hn.
  destruct (waiting qs w) as [|a [|b l]]; [contradiction|f_equal; apply Hall; now left|]. exfalso. inversion Hn as [|? ? H _]; subst. apply H. left. rewrite (Hall a), (Hall b); cbn; auto.
Qed.
Lemma waiting_none qs w : (forall q, In q qs -> w q = None) -> waiting qs w = [].
Proof. intros H. destruct (waiting qs w) as [|k l] eqn:E; [reflexivity|]. exfalso. assert (Hk : In k (waiting qs w)) by (rewrite E; now left). apply waiting_In in Hk. destruct Hk as (q & Hq & Hw). rewrite H in Hw by assumption. discriminate. Qed.
Lemma operands_run {T} nq e (k : list N -> res T) : gate_wf (snd e) -> (forall q, N.testbit (ops_of e) q = true -> q < nq) -> on_operands nq (IGate (CElem e)) k = k (bits (ops_of e)).
Proof.
  intros W H. unfold on_operands. rewrite (olist_elem e W). destruct (forallb _ _) eqn:E; [reflexivity|]. exfalso. apply not_true_iff_false in E. apply E. apply forallb_forall. intros q Hq. apply in_bits in Hq. specialize (H q Hq). lia.
Qed.
Lemma ops_mask e : operand_mask (CElem e) = ops_of e.
Proof. now destruct e. Qed.
Definition mask_union (e1 e2 : tgate) : N := N.lor (ops_of e1) (ops_of e2).
Definition pair_size (e1 e2 : tgate) : N := popcount (mask_union e1 e2) - popcount (common_of e2 e1).
Definition pair_pauli (e1 e2 : tgate) : Prop :=
  pauli_kind e1 = true /\ pauli_kind e2 = true /\ g_c (g_base (snd e1)) = g_c (g_base (snd e2)) /\ g_cv (g_base (snd e1)) = g_cv (g_base (snd e2)).
Definition plain_gate (e : tgate) : Prop := match e with (true, EI) | (true, EGlobalPhase _ _) => False | _ => True end.
Lemma plain_step vf mb nq e st : plain_gate e -> o_step vf mb nq (IGate (CElem e)) None st = o_gate vf mb nq (CElem e) st.
Proof. destruct e as [[] e]; [|reflexivity]. destruct e; cbn; intros H; now elim H || reflexivity. Qed.

Section Pair.
  Variables (vf : bool) (mb : N) (e1 e2 : tgate).
  Hypotheses (W1 : gate_wf (snd e1)) (W2 : gate_wf (snd e2)) (P1 : plain_gate e1) (P2 : plain_gate e2).
  Variable q0 : N.
  Hypothesis Hq1 : N.testbit (ops_of e1) q0 = true.
  Hypothesis Hq2 : N.testbit (ops_of e2) q0 = true.
  Let c : circuit := Circuit [IGate (CElem e1); IGate (CElem e2)] [None; None].
  Let nq : N := required_n_qubits c.
  Lemma pair_nq q : N.testbit (mask_union e1 e2) q = true -> q < nq.
  Proof using Type. intros H. assert (Hm : nq = bit_width (mask_union e1 e2)) by (unfold nq, c, required_n_qubits, mask_union; cbn [c_gates fold_left item_mask]; now rewrite !ops_mask, N.lor_0_l).
    rewrite Hm. apply (proj1 (bit_width_le (mask_union e1 e2) (bit_width (mask_union e1 e2))) (N.le_refl _)). exact H. Qed.
  Lemma pair_nq1 q : N.testbit (ops_of e1) q = true -> q < nq.
  Proof. intros H. apply pair_nq. unfold mask_union. now rewrite N.lor_spec, H. Qed.
  Lemma pair_nq2 q : N.testbit (ops_of e2) q = true -> q < nq.
  Proof. intros H. apply pair_nq. unfold mask_union. now rewrite N.lor_spec, H, orb_true_r. Qed.
  Let w1 : N -> option nat := set_wait (bits (ops_of e1)) (Some 0%nat) (fun _ => None).
  Let st1 : ost := OSt [] 0 [CElem e1] w1 (false || (operand_mask (CElem e1) =? 0)).
  Lemma w1_spec q : w1 q = if N.testbit (ops_of e1) q then Some 0%nat else None.
  Proof. unfold w1. destruct (N.testbit (ops_of e1) q) eqn:E; [apply set_wait_in; now apply in_bits|rewrite set_wait_out; [reflexivity|]]. intros H. apply in_bits in H. congruence. Qed.
  Lemma first_step : o_step vf mb nq (IGate (CElem e1)) None o_start = Ok st1.
  Proof using W1 P1.
    rewrite (plain_step _ _ _ _ _ P1). unfold o_gate, waiting_indices. rewrite (operands_run nq e1 _ W1 pair_nq1). cbn [bindR]. rewrite waiting_none by reflexivity.
    unfold o_waitfor. rewrite (operands_run nq e1 _ W1 pair_nq1). reflexivity.
  Qed.
  Lemma pair_count : N.of_nat (length (filter (fun q => match w1 q with None => true | Some _ => false end) (bits (ops_of e2)))) + N.of_nat (length (olist (IGate (CElem e1)))) = popcount (mask_union e1 e2).
  Proof using W1.
    rewrite (olist_elem e1 W1), <- (bits_length (mask_union e1 e2)). rewrite <- Nnat.Nat2N.inj_add, <- app_length. f_equal. apply Permutation_length. apply NoDup_Permutation.
    - apply NoDup_app_intro; [apply NoDup_filter, bits_NoDup|apply bits_NoDup|]. intros q Hq Hq'. apply filter_In in Hq. destruct Hq as [_ Hq]. apply in_bits in Hq'. rewrite w1_spec, Hq' in Hq. discriminate.
    - apply bits_NoDup.
    - intros q. rewrite in_app_iff, filter_In, !in_bits, w1_spec. unfold mask_union. rewrite N.lor_spec. destruct (N.testbit (ops_of e1) q), (N.testbit (ops_of e2) q); cbn; intuition congruence.
  Qed.
  Lemma union_u64 : popcount (mask_union e1 e2) < two64.
  Proof using W1 W2.
    pose proof W1 as [(_ & _ & Ht1 & Hc1) _]. pose proof W2 as [(_ & _ & Ht2 & Hc2) _].
    refine (N.le_lt_trans _ 64 _ _ (eq_refl : 64 < two64)). exact (popcount_le (mask_union e1 e2) 64 (lor_u64 _ _ (lor_u64 _ _ Ht1 Hc1) (lor_u64 _ _ Ht2 Hc2))).
  Qed.
  Lemma common_small : popcount (common_of e2 e1) <= popcount (mask_union e1 e2).
  Proof.
    rewrite <- (bits_length (mask_union e1 e2)). apply bits_sub_length. intros q Hq. apply common_in in Hq. apply in_bits. unfold mask_union, ops_of, base_operands. rewrite !N.lor_spec. destruct Hq as [_ ->]. now rewrite orb_true_r.
  Qed.
  Lemma second_step : o_step vf mb nq (IGate (CElem e2)) None st1 =
    if (if pauli_kind e1 && pauli_kind e2 && (g_c (g_base (snd e1)) =? g_c (g_base (snd e2))) && (g_cv (g_base (snd e1)) =? g_cv (g_base (snd e2))) then true else pair_size e1 e2 <=? mb)
    then m <- merge_all vf [0%nat] (CElem e2) st1 ;; o_waitfor nq (fst m) (snd m)
    else st' <- push_all nq [0%nat] st1 ;; o_waitfor nq (CElem e2) st'.
  Proof using W1 W2 P1 P2 Hq1 Hq2.
    rewrite (plain_step _ _ _ _ _ P2). unfold o_gate, waiting_indices. rewrite (operands_run nq e2 _ W2 pair_nq2). cbn [bindR].
    rewrite (waiting_one _ _ 0%nat); cycle 1.
    { exists q0. split; [now apply in_bits|]. cbn [st1 o_wait]. rewrite w1_spec. now rewrite Hq1. }
    { intros q j _. cbn [st1 o_wait]. rewrite w1_spec. destruct (N.testbit _ q); congruence. }
    pose proof common_small as Hcs. pose proof union_u64 as Hu. unfold newly_applied. rewrite (operands_run nq e2 _ W2 pair_nq2). cbn [bindR pool_size]. unfold pool_at at 1. cbn [st1 o_pool nth_error bindR o_wait]. rewrite pair_count.
    unfold is_pure_pauli at 1, c_control_mask at 1. set (p1 := pauli_kind e1). set (p2 := pauli_kind e2).
    replace (is_pauli_type (CElem e2)) with p2 by reflexivity.
    assert (Hall : all_pure st1 [0%nat] = Ok ((g_c (g_base (snd e1)) =? 0) && p1)).
    { cbn [all_pure]. unfold pool_at. cbn [st1 o_pool nth_error bindR]. unfold is_pure_pauli, c_control_mask. unfold p1, pauli_kind. destruct e1 as [t1 g1]. cbn [bindR snd]. now destruct (_ && _). }
    destruct e2 as [t2 g2] eqn:Ee2. cbn [bindR snd] in *. fold st1. rewrite Hall. unfold pool_at at 1. cbn [st1 o_pool nth_error bindR]. unfold c_control_mask, c_control_value_mask.
    replace (is_pauli_type (CElem e1)) with p1 by reflexivity. destruct e1 as [t1 g1] eqn:Ee1. cbn [bindR snd fst] in *.
    assert (Hz : g_c (g_base g1) = 0 -> g_cv (g_base g1) = 0) by exact (wf_cv (t1, g1) W1). assert (Hz2 : g_c (g_base g2) = 0 -> g_cv (g_base g2) = 0) by exact (wf_cv (t2, g2) W2).
    unfold common_of in Hcs. cbn [snd] in Hcs. rewrite sub64_sub by assumption.
    assert (Hs : pair_size (t1, g1) (t2, g2) = popcount (mask_union (t1, g1) (t2, g2)) - popcount (N.land (N.land (g_c (g_base g2)) (g_c (g_base g1))) (not64 (N.lxor (g_cv (g_base g2)) (g_cv (g_base g1)))))) by reflexivity. rewrite <- Hs.
    assert (Hb : (if (g_c (g_base g2) =? 0) && p2 then Ok ((g_c (g_base g1) =? 0) && p1) else Ok false) = Ok ((g_c (g_base g2) =? 0) && p2 && ((g_c (g_base g1) =? 0) && p1))) by now destruct ((g_c (g_base g2) =? 0) && p2).
    rewrite Hb. cbn [bindR fst snd].
    match goal with |- (if ?a then _ else _) = (if ?b then _ else _) => replace a with b; [reflexivity|] end.
    rewrite (N.eqb_sym (g_c (g_base g1))), (N.eqb_sym (g_cv (g_base g1))).
    destruct (N.eqb_spec (g_c (g_base g2)) 0) as [Z2|Z2], (N.eqb_spec (g_c (g_base g1)) 0) as [Z1|Z1]; cbn [andb orb];
      try (rewrite Z1, Z2, Hz, Hz2 by assumption; rewrite ?N.eqb_refl); destruct (g_c (g_base g2) =? g_c (g_base g1)), (g_cv (g_base g2) =? g_cv (g_base g1)), p1, p2, (_ <=? mb); reflexivity.
  Qed.
  Lemma pair_kept : mb < pair_size e1 e2 -> ~ pair_pauli e1 e2 -> optimize vf mb c = Ok c.
  Proof using W1 W2 P1 P2 Hq1 Hq2.
    intros Hs Hp. unfold optimize. fold nq. cbn [c c_gates c_conds o_loop]. rewrite first_step. cbn [bindR]. rewrite second_step.
    destruct (_ && _ && _ && _) eqn:E; [exfalso; apply Hp; unfold pair_pauli; rewrite !andb_true_iff, !N.eqb_eq in E; tauto|]. destruct (N.leb_spec (pair_size e1 e2) mb) as [|_]; [lia|].
    cbn [push_all]. unfold pool_at. cbn [st1 o_pool nth_error bindR]. unfold o_push. rewrite (operands_run nq e1 _ W1 pair_nq1). cbn [bindR o_out o_phase o_pool o_wait o_lost]. unfold o_waitfor. rewrite (operands_run nq e2 _ W2 pair_nq2). cbn [bindR o_out o_phase o_pool o_wait o_lost length app].
    unfold o_finish. cbn [o_wait o_out o_phase].
    set (w := set_wait (bits (ops_of e2)) (Some 1%nat) (set_wait (bits (ops_of e1)) None w1)).
    assert (Hw : forall q, w q = if N.testbit (ops_of e2) q then Some 1%nat else None).
    { intros q. unfold w. destruct (N.testbit (ops_of e2) q) eqn:E2; [apply set_wait_in; now apply in_bits|]. rewrite set_wait_out by (intros H; apply in_bits in H; congruence). destruct (N.testbit (ops_of e1) q) eqn:E1; [apply set_wait_in; now apply in_bits|]. rewrite set_wait_out by (intros H; apply in_bits in H; congruence). rewrite w1_spec, E1. reflexivity. }
    rewrite (waiting_one _ _ 1%nat).
    - cbn [take_all]. unfold pool_at. cbn [o_pool nth_error bindR map app]. destruct (Rlt_dec _ _) as [H|_]; [exfalso; unfold st1 in H; cbn [o_phase] in H; rewrite Rabs_R0 in H; assert (0 < / 10 ^ 12)%R by (apply Rinv_0_lt_compat, pow_lt; lra); lra|]. reflexivity.
    - exists q0. split; [apply in_seqN; now apply pair_nq2|]. rewrite Hw, Hq2. reflexivity.
    - intros q j _. rewrite Hw. destruct (N.testbit _ q); congruence.
  Qed.
  Lemma pair_merged e ph : pair_size e1 e2 <= mb \/ pair_pauli e1 e2 -> merge_gate vf e1 e2 = Ok (e, ph) -> ops_of e = mask_union e1 e2 -> (Rabs ph <= / 10 ^ 12)%R ->
    optimize vf mb c = Ok (Circuit [IGate (CElem e)] [None]).
  Proof using W1 W2 P1 P2 Hq1 Hq2.
    intros Hs Hm Ho Hph. unfold optimize. fold nq. cbn [c c_gates c_conds o_loop]. rewrite first_step. cbn [bindR]. rewrite second_step.
    match goal with |- context [if (if ?b then true else _) then _ else _] => replace (if b then true else pair_size e1 e2 <=? mb) with true end.
    2: { destruct Hs as [Hs|(A & B & D & F)]; [destruct (_ && _ && _ && _); [reflexivity|]; symmetry; now apply N.leb_le|]. now rewrite A, B, D, F, !N.eqb_refl. }
    cbn [merge_all]. unfold pool_at. cbn [st1 o_pool nth_error bindR]. rewrite merge_any_elem, Hm. cbn [bindR fst snd].
    assert (We : gate_wf (snd e)) by apply (merge_sized vf e1 e2 e ph W1 W2 Hm).
    assert (Hn : forall q, N.testbit (ops_of e) q = true -> q < nq) by (intros q; rewrite Ho; apply pair_nq).
    unfold o_waitfor. rewrite (operands_run nq e _ We Hn). cbn [bindR o_out o_phase o_pool o_wait o_lost length app].
    unfold o_finish. cbn [o_wait o_out o_phase].
    set (w := set_wait (bits (ops_of e)) (Some 1%nat) w1).
    assert (Hw : forall q, w q = if N.testbit (mask_union e1 e2) q then Some 1%nat else None).
    { intros q. unfold w. rewrite Ho. destruct (N.testbit (mask_union e1 e2) q) eqn:E2; [apply set_wait_in; now apply in_bits|]. rewrite set_wait_out by (intros H; apply in_bits in H; congruence). rewrite w1_spec. unfold mask_union in E2. rewrite N.lor_spec in E2. apply orb_false_iff in E2. now rewrite (proj1 E2). }
    rewrite (waiting_one _ _ 1%nat).
    - cbn [take_all]. unfold pool_at. cbn [o_pool nth_error bindR map app]. destruct (Rlt_dec _ _) as [H|_]; [exfalso; unfold st1 in H; cbn [o_phase] in H; rewrite Rplus_0_l in H; lra|]. reflexivity.
    - exists q0. split; [apply in_seqN; now apply pair_nq2|]. rewrite Hw. unfold mask_union. now rewrite N.lor_spec, Hq1.
    - intros q j _. rewrite Hw. destruct (N.testbit _ q); congruence.
  Qed.
End Pair.

Lemma block_length e1 e2 : gate_wf (snd e1) -> gate_wf (snd e2) -> N.of_nat (length (block_qubits e1 e2)) = pair_size e1 e2.
Proof.
  intros W1 W2. pose proof W1 as [(_ & _ & Ht1 & Hc1) _]. pose proof W2 as [(_ & _ & Ht2 & Hc2) _].
  assert (Hu : mask_union e1 e2 < 2 ^ 64) by exact (lor_u64 _ _ (lor_u64 _ _ Ht1 Hc1) (lor_u64 _ _ Ht2 Hc2)).
  set (common := common_of e2 e1).
  assert (Hsub : forall q, N.testbit common q = true -> N.testbit (mask_union e1 e2) q = true).
  { intros q Hq. apply common_in in Hq. unfold mask_union, ops_of, base_operands. rewrite !N.lor_spec. destruct Hq as [_ ->]. now rewrite orb_true_r. }
  assert (Hsum : popcount (mask_union e1 e2) = popcount (N.ldiff (mask_union e1 e2) common) + popcount common).
  { rewrite <- popcount_lor_disj by (apply N.bits_inj_0; intros q; rewrite N.land_spec, N.ldiff_spec; destruct (N.testbit common q), (N.testbit (mask_union e1 e2) q); reflexivity).
    f_equal. apply N.bits_inj. intros q. rewrite N.lor_spec, N.ldiff_spec. specialize (Hsub q). destruct (N.testbit common q), (N.testbit (mask_union e1 e2) q); cbn; try reflexivity. now discriminate Hsub. }
  unfold pair_size. fold common. rewrite Hsum, N.add_sub, <- bits_length. f_equal. apply Permutation_length. apply NoDup_Permutation; [apply NoDup_filter, NoDup_seqN|apply bits_NoDup|].
  intros q. unfold block_qubits. rewrite filter_In, in_seqN, in_bits, N.ldiff_spec.
  assert (Hm : N.testbit (mask_union e1 e2) q = uses e1 q || uses e2 q) by (unfold mask_union, ops_of, base_operands, uses; now rewrite !N.lor_spec).
  destruct (N.ltb_spec q 64) as [Hq|Hq].
  - rewrite <- Hm. assert (Hc : N.testbit common q = shared_control e1 e2 q); [|rewrite Hc; tauto].
    unfold common, common_of, shared_control. rewrite !N.land_spec, not64_testbit, N.lxor_spec. assert (E64 : q <? 64 = true) by lia. rewrite ?E64.
    destruct (N.testbit (g_c (g_base (snd e1))) q), (N.testbit (g_c (g_base (snd e2))) q), (N.testbit (g_cv (g_base (snd e1))) q), (N.testbit (g_cv (g_base (snd e2))) q); reflexivity.
  - rewrite (testbit_high _ 64 q Hu Hq). cbn. split; [intros [? _]; lia|discriminate].
Qed.
Lemma uses_ops e q : N.testbit (ops_of e) q = uses e q.
Proof. unfold ops_of, base_operands, uses. now rewrite N.lor_spec. Qed.
Lemma alike_pauli e1 e2 : paulis_alike e1 e2 <-> pair_pauli e1 e2.
Proof. unfold paulis_alike, pair_pauli. now rewrite !pauli_gate_kind. Qed.
Lemma two_kept vf mb e1 e2 q : made e1 -> made e2 -> acts_on_qubits e1 -> acts_on_qubits e2 -> uses e1 q = true -> uses e2 q = true ->
  mb < N.of_nat (length (block_qubits e1 e2)) -> ~ paulis_alike e1 e2 -> optimize vf mb (two_gates e1 e2) = Ok (two_gates e1 e2).
Proof.
  intros M1 M2 A1 A2 U1 U2 Hs Hp. apply made_wf in M1. apply made_wf in M2. rewrite block_length in Hs by assumption. rewrite alike_pauli in Hp. rewrite <- uses_ops in U1, U2.
  exact (pair_kept vf mb e1 e2 M1 M2 A1 A2 q U1 U2 Hs Hp).
Qed.
Lemma two_merged vf mb e1 e2 q e ph : made e1 -> made e2 -> acts_on_qubits e1 -> acts_on_qubits e2 -> uses e1 q = true -> uses e2 q = true ->
  N.of_nat (length (block_qubits e1 e2)) <= mb \/ paulis_alike e1 e2 ->
  merge_gate vf e1 e2 = Ok (e, ph) -> (forall q, uses e q = uses e1 q || uses e2 q) -> (Rabs ph <= / 10 ^ 12)%R ->
  optimize vf mb (two_gates e1 e2) = Ok (Circuit [IGate (CElem e)] [None]).
Proof.
  intros M1 M2 A1 A2 U1 U2 Hs Hm Ho Hph. apply made_wf in M1. apply made_wf in M2. rewrite block_length, alike_pauli in Hs by assumption. rewrite <- uses_ops in U1, U2.
  refine (pair_merged vf mb e1 e2 M1 M2 A1 A2 q U1 U2 e ph Hs Hm _ Hph). apply N.bits_inj. intros j. unfold mask_union. rewrite N.lor_spec, !uses_ops. apply Ho.
Qed.
(** T T with a control, block size 1: the new gate S has two operands *)
Definition ct : tgate := (true, EStd GT (GBase 1 2 2)).
Definition cs_gate : tgate := (true, EStd GS (GBase 1 2 2)).
Lemma made_ct : made ct.
Proof. apply (made_call false (Call1 GT 0 [1] [1])); [exact I|reflexivity]. Qed.
Lemma uses_cs q : uses cs_gate q = uses ct q || uses ct q.
Proof. unfold uses. cbn [cs_gate ct snd g_base g_t g_c]. now destruct (N.testbit 1 q || N.testbit 2 q). Qed.
Lemma merge_ct : merge_gate false ct ct = Ok (cs_gate, 0%R).
Proof. reflexivity. Qed.
Lemma two_example : made ct /\ acts_on_qubits ct /\ uses ct 0 = true /\ block_qubits ct ct = [0] /\ ~ paulis_alike ct ct /\ merge_gate false ct ct = Ok (cs_gate, 0%R) /\
  (forall q, uses cs_gate q = uses ct q || uses ct q) /\ optimize false 0 (two_gates ct ct) = Ok (two_gates ct ct) /\ optimize false 1 (two_gates ct ct) = Ok (Circuit [IGate (CElem cs_gate)] [None]).
Proof.
  assert (Hn : ~ paulis_alike ct ct) by (intros [[] _]). assert (Hb : block_qubits ct ct = [0]) by reflexivity. split; [exact made_ct|]. split; [exact I|]. split; [reflexivity|]. split; [exact Hb|]. split; [exact Hn|]. split; [exact merge_ct|]. split; [exact uses_cs|]. split.
  - apply (two_kept false 0 ct ct 0); try exact made_ct; try exact I; try reflexivity. exact Hn.
  - apply (two_merged false 1 ct ct 0 cs_gate 0); try exact made_ct; try exact I; try reflexivity; [left; rewrite Hb; cbn; lia|exact uses_cs|]. rewrite Rabs_R0. apply Rlt_le, Rinv_0_lt_compat, pow_lt. lra.
Qed.
Lemma controls_uncounted : exists c c' e, (forall e, In (IGate (CElem e), None) (combine (c_gates c) (c_conds c)) -> made e) /\ optimize false 1 c = Ok c' /\
  In (IGate (CElem e)) (c_gates c') /\ ~ In (IGate (CElem e)) (c_gates c) /\ ~ pauli_gate e /\ uses e 0 = true /\ uses e 1 = true.
Proof.
  exists (two_gates ct ct), (Circuit [IGate (CElem cs_gate)] [None]), cs_gate. split; [|split; [apply two_example|]].
  - cbn. intros e [[= <-]|[[= <-]|[]]]; exact made_ct.
  - split; [now left|]. split; [cbn; intros [H|[H|[]]]; discriminate H|]. split; [intros []|]. split; reflexivity.
Qed.
