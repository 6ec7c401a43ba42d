(** Proofs about OperatorBatched, continued: products, updates in place, and what the batch holds. *)
From Verif Require Import OperatorBatchedSpec OperatorBatchedProofs.
From Coq Require Import ZifyBool ZifyN ZifyNat.

Lemma always_ext {S T} (f g : S -> option (res T)) v : (forall s, f s = g s) -> always g v -> always f v.
Proof. intros E [G1 [s G2]]. split; [intros s'; rewrite E; apply G1|exists s; now rewrite E]. Qed.

(** ** Product *)
Definition products (l1 l2 : list pauli) : list pauli := flat_map (fun p => map (fun q => pauli_mul p q) l2) l1.
Lemma lenN_products l1 l2 : lenN (products l1 l2) = lenN l1 * lenN l2.
Proof.
  unfold products. induction l1 as [|p l1 IH]; [reflexivity|]. cbn [flat_map]. rewrite lenN_app, lenN_map, IH, lenN_cons. lia.
Qed.
Lemma nth_products l1 l2 i : i < lenN l1 * lenN l2 ->
  nth (N.to_nat i) (products l1 l2) no_pauli = pauli_mul (nth (N.to_nat (i / lenN l2)) l1 no_pauli) (nth (N.to_nat (i mod lenN l2)) l2 no_pauli).
Proof.
  revert i. induction l1 as [|p l1 IH]; intros i Hi; [unfold lenN in Hi; simpl in Hi; lia|].
  unfold products. cbn [flat_map]. fold (products l1 l2). rewrite lenN_cons in Hi.
  destruct (N.lt_ge_cases i (lenN l2)) as [Hlt|Hge].
  - rewrite N.div_small, N.mod_small by assumption. rewrite app_nth1 by (rewrite map_length; unfold lenN in Hlt; lia).
    rewrite (nth_indep _ no_pauli (pauli_mul p no_pauli)) by (rewrite map_length; unfold lenN in Hlt; lia).
    rewrite (map_nth (fun q => pauli_mul p q)). reflexivity.
  - assert (Hl : lenN l2 <> 0) by (intros E; rewrite E in Hi; lia).
    rewrite app_nth2 by (rewrite map_length; unfold lenN in Hge; lia). rewrite map_length.
    replace (N.to_nat i - length l2)%nat with (N.to_nat (i - lenN l2)) by (unfold lenN in *; lia). rewrite IH by lia.
    replace i with (i - lenN l2 + 1 * lenN l2) at 3 4 by lia. rewrite N.div_add, N.mod_add by assumption.
    replace (N.to_nat ((i - lenN l2) / lenN l2 + 1)) with (S (N.to_nat ((i - lenN l2) / lenN l2))) by lia. reflexivity.
Qed.
Lemma mul_its_ok A B junk L1 : forall L2 P1 P2 s, length L1 = length L2 -> A = P1 ++ concat L1 -> B = P2 ++ concat L2 ->
  its_ok (lenN A) (lenN B) (pmemory A B junk) s
    (flat_map (fun '((begin1, end1), (begin2, end2), begin_res) =>
           map (fun i =>
             let i1 := i / (end2 - begin2) in
             let i2 := i mod (end2 - begin2) in
             Rd (this_at (begin1 + i1)) (fun p => Rd (arg_at (begin2 + i2)) (fun q => Wr (out_at (begin_res + i)) (pauli_mul p q) Ret)))
             (seqN ((end1 - begin1) * (end2 - begin2))))
           (combine (combine (ranges (lenN P1) (map lenN L1)) (ranges (lenN P2) (map lenN L2))) (scan s (map (fun p => lenN (fst p) * lenN (snd p)) (combine L1 L2)))))
    (concat (each2 products L1 L2)).
Proof.
  induction L1 as [|l1 L1 IH]; intros [|l2 L2] P1 P2 s El EA EB; try discriminate; [apply its_ok_nil|].
  cbn [map ranges combine scan flat_map each2 concat fst snd].
  apply its_ok_app.
  - replace (lenN P1 + lenN l1 - lenN P1) with (lenN l1) by lia. replace (lenN P2 + lenN l2 - lenN P2) with (lenN l2) by lia.
    apply its_ok_map; [now rewrite lenN_products|]. intros i Hi. cbv zeta. cbn [concat] in EA, EB.
    assert (Hl : lenN l2 <> 0) by (intros E; rewrite E in Hi; lia).
    assert (H1 : i / lenN l2 < lenN l1) by (apply N.div_lt_upper_bound; lia).
    assert (H2 : i mod lenN l2 < lenN l2) by now apply N.mod_lt.
    split.
    + simpl. split; [left|intros _; split; [left|intros _; auto]].
      * unfold ro_at, this_at. simpl. rewrite EA, !lenN_app. apply orb_true_iff. left. apply N.ltb_lt. lia.
      * unfold ro_at, arg_at. simpl. rewrite EB, !lenN_app. apply N.ltb_lt. lia.
    + rewrite nth_products by assumption. cbn [run1]. rewrite upd_same by apply paddr_eqb_spec. unfold pmemory, this_at, arg_at. simpl.
      rewrite EA, EB. now rewrite !nth_mid.
  - rewrite lenN_products.
    specialize (IH L2 (P1 ++ l1) (P2 ++ l2) (s + (lenN l1 * lenN l2))). rewrite !lenN_app in IH.
    apply IH; [simpl in El; lia| |]; cbn [concat] in *; rewrite <- app_assoc; assumption.
Qed.
Lemma sizes_mul L1 : forall L2 s1 s2, map (fun '((begin1, end1), (begin2, end2)) => (end1 - begin1) * (end2 - begin2))
    (combine (ranges s1 (map lenN L1)) (ranges s2 (map lenN L2))) =
  map (fun p : list pauli * list pauli => lenN (fst p) * lenN (snd p)) (combine L1 L2).
Proof.
  induction L1 as [|l1 L1 IH]; intros [|l2 L2] s1 s2; try reflexivity. cbn [map ranges combine]. f_equal; [|apply IH].
  simpl. f_equal; lia.
Qed.
Lemma sizes_each2_mul L1 L2 : map lenN (each2 products L1 L2) = map (fun p => lenN (fst p) * lenN (snd p)) (combine L1 L2).
Proof. unfold each2. rewrite map_map. apply map_ext. intros [a b]. apply lenN_products. Qed.
Lemma ob_mul_correct L1 L2 junk : length L1 = length L2 ->
  always (ob_mul (ob_of_lists L1) (ob_of_lists L2) junk) (ob_of_lists (each2 products L1 L2)).
Proof.
  intros El. eapply always_ext.
  - intros s. unfold ob_mul. rewrite !lenN_row. unfold lenN at 1 2. rewrite El, N.eqb_refl, !rows_of_lists, sizes_mul. reflexivity.
  - unfold ob_of_lists at 5. rewrite sizes_each2_mul. apply launch_ok.
    + rewrite last_scan, lenN_concat, sizes_each2_mul. lia.
    + apply (mul_its_ok (concat L1) (concat L2) junk L1 L2 [] [] 0); auto.
Qed.
Lemma ob_mismatch L1 L2 junk : length L1 <> length L2 ->
  always_throws (ob_add (ob_of_lists L1) (ob_of_lists L2) junk) /\ always_throws (ob_mul (ob_of_lists L1) (ob_of_lists L2) junk).
Proof.
  intros Hne. assert (E : (lenN L1 + 1 =? lenN L2 + 1) = false) by (apply N.eqb_neq; unfold lenN; lia).
  split; intros s; [unfold ob_add|unfold ob_mul]; now rewrite !lenN_row, E.
Qed.

(** ** Updates in place *)
Lemma update_ok (l : list pauli) f g row_ptr :
  (forall i, i < lenN l -> f i (nth (N.to_nat i) l no_pauli) = Wr (out_at i) (nth (N.to_nat i) g no_pauli) Ret) ->
  (forall i p, i < lenN l -> foot (fun a => a = out_at i) (fun a => a = out_at i) (f i p)) ->
  length g = length l ->
  always (launch 0 0 (lenN l) (update_loop f (lenN l)) (pmemory [] [] (from_list l)) row_ptr) (OB g row_ptr).
Proof.
  intros Hf Hfoot Eg. apply launch_ok; [unfold lenN; now rewrite Eg|]. apply its_ok_map; [unfold lenN; now rewrite Eg|].
  intros i Hi. rewrite N.add_0_l. split.
  - cbn [foot]. split; [now right|]. intros v. eapply foot_mono; [| |apply Hfoot, Hi]; auto.
  - cbn [run1]. change (pmemory [] [] (from_list l) (out_at i)) with (nth (N.to_nat i) l no_pauli). rewrite Hf by assumption. cbn [run1].
    apply upd_same, paddr_eqb_spec.
Qed.
Lemma update_map_ok (l : list pauli) h row_ptr :
  always (launch 0 0 (lenN l) (update_loop (fun i p => Wr (out_at i) (h p) Ret) (lenN l)) (pmemory [] [] (from_list l)) row_ptr) (OB (map h l) row_ptr).
Proof.
  apply update_ok.
  - intros i Hi. f_equal. rewrite (nth_indep (map h l) no_pauli (h no_pauli)) by (rewrite map_length; unfold lenN in Hi; lia). now rewrite map_nth.
  - intros i p Hi. simpl. auto.
  - now rewrite map_length.
Qed.
Lemma map_lenN_map (h : pauli -> pauli) L : map lenN (map (map h) L) = map lenN L.
Proof. rewrite map_map. apply map_ext. intros l. apply lenN_map. Qed.
Lemma ob_map_lists h L : OB (map h (concat L)) (ob_row (ob_of_lists L)) = ob_of_lists (map (map h) L).
Proof. unfold ob_of_lists. cbn [ob_row]. now rewrite map_lenN_map, concat_map. Qed.
Lemma ob_dagger_correct L : always (ob_dagger (ob_of_lists L)) (ob_of_lists (map (map pauli_dagger) L)).
Proof. rewrite <- ob_map_lists. apply update_map_ok. Qed.
Lemma ob_neg_correct L : always (ob_neg (ob_of_lists L)) (ob_of_lists (map (map (fun p => pauli_scale p (- C1)%C)) L)).
Proof. rewrite <- ob_map_lists. apply (update_map_ok (concat L) (fun p => pauli_scale p (- C1)%C)). Qed.
Lemma ob_sub_correct L1 L2 junk : length L1 = length L2 ->
  always (fun s => ob_sub (ob_of_lists L1) (ob_of_lists L2) junk (fst s) (snd s))
    (ob_of_lists (each2 (fun a b => a ++ map (fun p => pauli_scale p (- C1)%C) b) L1 L2)).
Proof.
  intros El. destruct (ob_neg_correct L2) as [N1 [s1 N2]].
  assert (E : each2 (fun a b => a ++ map (fun p => pauli_scale p (- C1)%C) b) L1 L2 = each2 (@app pauli) L1 (map (map (fun p => pauli_scale p (- C1)%C)) L2)).
  { unfold each2. clear. revert L2. induction L1 as [|a L1 IH]; intros [|b L2]; try reflexivity. simpl. f_equal. apply IH. }
  rewrite E. destruct (ob_add_correct L1 (map (map (fun p => pauli_scale p (- C1)%C)) L2) junk ltac:(now rewrite map_length)) as [A1 [s2 A2]].
  split.
  - intros [x y]. cbn [fst snd]. unfold ob_sub. destruct (N1 x) as [-> | ->]; [now left|]. apply A1.
  - exists (s1, s2). cbn [fst snd]. unfold ob_sub. now rewrite N2.
Qed.
Lemma ob_sub_mismatch L1 L2 junk : length L1 <> length L2 ->
  (forall s1 s2, ob_sub (ob_of_lists L1) (ob_of_lists L2) junk s1 s2 = None \/ ob_sub (ob_of_lists L1) (ob_of_lists L2) junk s1 s2 = Some Throw) /\
  exists s1 s2, ob_sub (ob_of_lists L1) (ob_of_lists L2) junk s1 s2 = Some Throw.
Proof.
  intros Hne. destruct (ob_neg_correct L2) as [N1 [s1 N2]].
  destruct (ob_mismatch L1 (map (map (fun p => pauli_scale p (- C1)%C)) L2) junk) as [T _]; [now rewrite map_length|].
  split.
  - intros x y. unfold ob_sub. destruct (N1 x) as [-> | ->]; [now left|right; apply T].
  - exists s1, []. unfold ob_sub. rewrite N2. apply T.
Qed.

(** ** Scaling *)
Lemma batch_size_lists L : lenN L < two64 - 1 -> ob_batch_size (ob_of_lists L) = lenN L.
Proof.
  intros H. unfold ob_batch_size. rewrite lenN_row. unfold sub64, wrap, two64 in *.
  replace (lenN L + 1 + (2 ^ 64 - 1)) with (lenN L + 1 * 2 ^ 64) by lia.
  rewrite N.mod_add by discriminate. apply N.mod_small. lia.
Qed.
Lemma scale_terms_ok L coef : lenN coef = lenN L -> lenN L < two64 - 1 -> lenN (concat L) <= lenN L ->
  always (ob_scale (ob_of_lists L) coef) (OB (each2 pauli_scale (concat L) coef) (ob_row (ob_of_lists L))).
Proof.
  intros Ec HL Hle. eapply always_ext.
  - intros s. unfold ob_scale. rewrite batch_size_lists, Ec, N.eqb_refl by assumption. reflexivity.
  - cbn [ob_ops ob_of_lists].
    assert (Hlen : length (each2 pauli_scale (concat L) coef) = length (concat L)).
    { unfold each2. rewrite map_length, combine_length. unfold lenN in *. lia. }
    apply update_ok; [| |assumption].
    + intros i Hi. assert (Hc : (N.to_nat i < length coef)%nat) by (unfold lenN in *; lia).
      rewrite (nth_error_nth' coef C0 Hc). f_equal. unfold each2.
      rewrite (nth_indep (map _ _) no_pauli (pauli_scale (fst (no_pauli, C0)) (snd (no_pauli, C0)))) by (fold (each2 pauli_scale (concat L) coef); unfold lenN in Hi; lia).
      rewrite (map_nth (fun p => pauli_scale (fst p) (snd p))). 
      assert (En : nth (N.to_nat i) (combine (concat L) coef) (no_pauli, C0) = (nth (N.to_nat i) (concat L) no_pauli, nth (N.to_nat i) coef C0)).
      { clear - Hi Hc. unfold lenN in Hi. assert (H : (N.to_nat i < length (concat L))%nat) by lia. revert H Hc. generalize (N.to_nat i) as k, (concat L) as l. clear. intros k l. revert k coef. induction l as [|a l IH]; intros k coef H1 H2; [simpl in H1; lia|]. destruct coef as [|c coef]; [simpl in H2; lia|]. destruct k; [reflexivity|]. simpl. apply IH; simpl in *; lia. }
      rewrite En. reflexivity.
    + intros i p Hi. destruct (nth_error coef (N.to_nat i)) eqn:E; [simpl; auto|]. apply nth_error_None in E. unfold lenN in *. lia.
Qed.
Lemma each2_single L : forall coef, lenN coef = lenN L -> Forall (fun l : list pauli => length l = 1%nat) L ->
  each2 pauli_scale (concat L) coef = concat (each2 (fun l c => map (fun p => pauli_scale p c) l) L coef).
Proof.
  induction L as [|l L IH]; intros [|c coef] E H; try reflexivity; [unfold lenN in E; simpl in E; lia|].
  inversion H as [|? ? H1 H2]; subst. destruct l as [|p [|]]; try discriminate. unfold each2. cbn. f_equal. apply IH; [|assumption].
  unfold lenN in *. simpl in E. lia.
Qed.
Lemma lenN_single (L : list (list pauli)) : Forall (fun l => length l = 1%nat) L -> lenN (concat L) = lenN L.
Proof.
  induction 1 as [|l L H1 _ IH]; [reflexivity|]. cbn [concat]. rewrite lenN_app, IH, lenN_cons. unfold lenN at 1. rewrite H1. lia.
Qed.
Lemma ob_scale_single L coef : lenN coef = lenN L -> lenN L < two64 - 1 -> Forall (fun l => length l = 1%nat) L ->
  always (ob_scale (ob_of_lists L) coef) (ob_of_lists (each2 (fun l c => map (fun p => pauli_scale p c) l) L coef)).
Proof.
  intros Ec HL H1.
  assert (E : ob_of_lists (each2 (fun l c => map (fun p => pauli_scale p c) l) L coef) = OB (each2 pauli_scale (concat L) coef) (ob_row (ob_of_lists L))).
  { unfold ob_of_lists. cbn [ob_row]. rewrite each2_single by assumption. f_equal. f_equal. unfold each2. rewrite map_map.
    clear - Ec. revert coef Ec. induction L as [|l L IH]; intros [|c coef] E; try reflexivity; [unfold lenN in E; simpl in E; lia|].
    simpl. rewrite lenN_map. f_equal. apply IH. unfold lenN in *. simpl in E. lia. }
  rewrite E. apply scale_terms_ok; try assumption. rewrite lenN_single by assumption. lia.
Qed.
Lemma ob_scale_oob L coef : lenN coef = lenN L -> lenN L < two64 - 1 -> lenN L < lenN (concat L) -> never_returns (ob_scale (ob_of_lists L) coef).
Proof.
  intros Ec HL Hlt s. unfold ob_scale. rewrite batch_size_lists, Ec, N.eqb_refl by assumption. cbn [ob_ops ob_of_lists ob_row].
  revert s. eapply launch_oob.
  - unfold update_loop. apply in_map_iff. exists (lenN L). split; [reflexivity|]. apply in_seqN. exact Hlt.
  - cbn [doomed]. right. intros v. assert (E : nth_error coef (N.to_nat (lenN L)) = None) by (apply nth_error_None; unfold lenN in *; lia).
    rewrite E. simpl. left. reflexivity.
Qed.
Lemma ob_scale_mismatch L coef : lenN coef <> lenN L -> lenN L < two64 - 1 -> always_throws (ob_scale (ob_of_lists L) coef).
Proof. intros H HL s. unfold ob_scale. rewrite batch_size_lists by assumption. apply N.eqb_neq in H. now rewrite H. Qed.

(** ** Adding and multiplying one Pauli per element *)
Lemma paulis_right_size L ps junk : length ps = length L ->
  always_throws (ob_add_paulis (ob_of_lists L) ps junk) /\ always_throws (ob_sub_paulis (ob_of_lists L) ps junk) /\
  always_throws (ob_mul_paulis (ob_of_lists L) ps) /\ always_throws (ob_mul_paulis_in_place (ob_of_lists L) ps).
Proof.
  intros E. assert (F : forall qs : list pauli, length qs = length L -> (lenN L + 1 =? lenN qs) = false) by (intros; apply N.eqb_neq; unfold lenN; lia).
  repeat split; intros s.
  - unfold ob_add_paulis. now rewrite lenN_row, F.
  - unfold ob_sub_paulis, ob_add_paulis. rewrite lenN_row, F; [reflexivity|now rewrite map_length].
  - unfold ob_mul_paulis. now rewrite lenN_row, F.
  - unfold ob_mul_paulis_in_place. now rewrite lenN_row, F.
Qed.
Lemma add_paulis_its_ok A junk L : forall ps P s, length ps = length L -> A = P ++ concat L ->
  its_ok (lenN A) 0 (pmemory A [] junk) s
    (flat_map (fun '((begin, end_), begin_res, p) =>
           map (fun i => if i <? end_ - begin then Rd (this_at (begin + i)) (fun v => Wr (out_at (begin_res + i)) v Ret)
                         else Wr (out_at (begin_res + i)) p Ret)
             (seqN (end_ - begin + 1)))
           (combine (combine (ranges (lenN P) (map lenN L)) (scan s (map (fun l => lenN l + 1) L))) ps))
    (concat (each2 (fun l p => l ++ [p]) L ps)).
Proof.
  induction L as [|l L IH]; intros [|p ps] P s El EA; try discriminate; [apply its_ok_nil|].
  cbn [map ranges combine scan flat_map each2 concat fst snd].
  apply its_ok_app.
  - replace (lenN P + lenN l - lenN P) with (lenN l) by lia.
    apply its_ok_map; [now rewrite lenN_app|]. intros i Hi. cbn [concat] in EA.
    destruct (N.ltb_spec i (lenN l)) as [Hlt|Hge]; split.
    + simpl. split; [left|auto]. unfold ro_at, this_at. simpl. rewrite EA, !lenN_app. apply orb_true_iff. left. apply N.ltb_lt. lia.
    + cbn [run1]. rewrite upd_same by apply paddr_eqb_spec. rewrite app_nth1 by (unfold lenN in Hlt; lia). unfold pmemory, this_at. simpl. rewrite EA. now apply nth_mid.
    + simpl. auto.
    + cbn [run1]. rewrite upd_same by apply paddr_eqb_spec. rewrite app_nth2 by (unfold lenN in Hge; lia).
      replace (N.to_nat i - length l)%nat with 0%nat by (unfold lenN in *; lia). reflexivity.
  - rewrite lenN_app. change (lenN [p]) with 1.
    specialize (IH ps (P ++ l) (s + (lenN l + 1))). rewrite !lenN_app in IH.
    apply IH; [simpl in El; lia|]. cbn [concat] in EA. rewrite <- app_assoc. exact EA.
Qed.
Lemma ob_add_paulis_correct L ps q junk : length ps = length L ->
  always (ob_add_paulis (ob_of_lists L) (ps ++ [q]) junk) (ob_of_lists (each2 (fun l p => l ++ [p]) L ps)).
Proof.
  intros El.
  assert (Es : forall s, map (fun '(begin, end_) => end_ - begin + 1) (ranges s (map lenN L)) = map (fun l => lenN l + 1) L).
  { clear. induction L as [|l L IH]; intros s; [reflexivity|]. cbn [map ranges]. rewrite IH. f_equal. lia. }
  assert (Ee : map lenN (each2 (fun l p => l ++ [p]) L ps) = map (fun l => lenN l + 1) L).
  { unfold each2. rewrite map_map. clear - El. revert ps El. induction L as [|l L IH]; intros [|p ps] E; try discriminate; [reflexivity|].
    simpl. rewrite IH by (simpl in E; lia). f_equal. now rewrite lenN_app. }
  assert (Et : forall {T} (l : list T), length l = length ps -> combine l (ps ++ [q]) = combine l ps).
  { intros T l. clear. revert ps. induction l as [|a l IH]; intros [|p ps] E; try discriminate; [reflexivity|]. simpl. f_equal. apply IH. simpl in E. lia. }
  eapply always_ext.
  - intros s. unfold ob_add_paulis. rewrite lenN_row. replace (lenN L + 1 =? lenN (ps ++ [q])) with true by (symmetry; apply N.eqb_eq; rewrite lenN_app; unfold lenN; simpl length; lia).
    rewrite rows_of_lists, Es, Et; [reflexivity|].
    rewrite combine_length, length_ranges, map_length.
    assert (Hs : length (scan 0 (map (fun l => lenN l + 1) L)) = (length L + 1)%nat).
    { pose proof (lenN_scan 0 (map (fun l : list pauli => lenN l + 1) L)) as H. rewrite lenN_map in H.
      change (N.of_nat (length (scan 0 (map (fun l : list pauli => lenN l + 1) L))) = N.of_nat (length L) + 1) in H. lia. }
    rewrite Hs. lia.
  - unfold ob_of_lists at 3. rewrite Ee. apply launch_ok.
    + rewrite last_scan, lenN_concat, Ee. lia.
    + apply (add_paulis_its_ok (concat L) junk L ps [] 0); auto.
Qed.

Lemma combine_last {T U} (l : list T) (m : list U) a b : length l = length m -> In (a, b) (combine (l ++ [a]) (m ++ [b])).
Proof.
  revert m. induction l as [|x l IH]; intros [|y m] E; try discriminate; [now left|]. right. apply IH. simpl in E. lia.
Qed.
Lemma last_range (L0 : list (list pauli)) l : ranges 0 (map lenN (L0 ++ [l])) = ranges 0 (map lenN L0) ++ [(lenN (concat L0), lenN (concat L0) + lenN l)].
Proof.
  assert (H : forall s, ranges s (map lenN (L0 ++ [l])) = ranges s (map lenN L0) ++ [(s + lenN (concat L0), s + lenN (concat L0) + lenN l)]).
  { induction L0 as [|k L0 IH]; intros s; [simpl; now rewrite N.add_0_r|]. cbn [app map ranges concat]. rewrite IH, lenN_app, !N.add_assoc. reflexivity. }
  exact (H 0).
Qed.
Lemma ob_mul_paulis_wrong L ps : L <> [] -> never_returns (ob_mul_paulis (ob_of_lists L) ps) \/ always_throws (ob_mul_paulis (ob_of_lists L) ps).
Proof.
  intros HL. unfold ob_mul_paulis. rewrite lenN_row, rows_of_lists. destruct (N.eqb_spec (lenN L + 1) (lenN ps)) as [E|]; [left|right; intros s; reflexivity].
  destruct (exists_last HL) as (L0 & l & ->). assert (Hps : ps <> []) by (intros ->; unfold lenN in E; simpl in E; lia).
  destruct (exists_last Hps) as (ps0 & q & ->). assert (Hps0 : ps0 <> []) by (intros ->; unfold lenN in E; rewrite app_length in E; simpl in E; lia).
  destruct (exists_last Hps0) as (ps1 & q' & ->).
  rewrite last_range. eapply launch_oob.
  - apply in_flat_map. exists ((lenN (concat L0), lenN (concat L0) + lenN l), q'). split.
    + assert (Hl : length (ranges 0 (map lenN L0)) = length ps1).
      { rewrite length_ranges, map_length. unfold lenN in E. rewrite !app_length in E. simpl in E. lia. }
      pose proof (combine_last (ranges 0 (map lenN L0)) ps1 (lenN (concat L0), lenN (concat L0) + lenN l) q' Hl) as H.
      set (X := ranges 0 (map lenN L0) ++ _) in *.
      assert (HX : length X = length (ps1 ++ [q'])) by (unfold X; rewrite !app_length; simpl; lia).
      clearbody X. clear - H HX. revert H HX. generalize (ps1 ++ [q']). intros m. revert X. induction m as [|b m IH]; intros [|a X] H HX; try discriminate; [contradiction|].
      simpl in H |- *. destruct H as [H|H]; [now left|]. right. apply IH; [assumption|simpl in HX; lia].
    + apply in_map_iff. exists (lenN l). split; [reflexivity|]. apply in_seqN. lia.
  - cbn [doomed]. left. unfold pvalid, this_at. cbn [fst snd]. cbn [ob_ops ob_of_lists].
    rewrite concat_app, lenN_app. cbn [concat]. rewrite app_nil_r. apply N.ltb_ge. simpl. lia.
Qed.
Lemma ob_mul_paulis_in_place_wrong L ps : L <> [] -> never_returns (ob_mul_paulis_in_place (ob_of_lists L) ps) \/ always_throws (ob_mul_paulis_in_place (ob_of_lists L) ps).
Proof.
  intros HL. unfold ob_mul_paulis_in_place. rewrite lenN_row, rows_of_lists. destruct (N.eqb_spec (lenN L + 1) (lenN ps)) as [E|]; [left|right; intros s; reflexivity].
  destruct (exists_last HL) as (L0 & l & ->). assert (Hps : ps <> []) by (intros ->; unfold lenN in E; simpl in E; lia).
  destruct (exists_last Hps) as (ps0 & q & ->). assert (Hps0 : ps0 <> []) by (intros ->; unfold lenN in E; rewrite app_length in E; simpl in E; lia).
  destruct (exists_last Hps0) as (ps1 & q' & ->).
  rewrite last_range. eapply launch_oob.
  - apply in_flat_map. exists ((lenN (concat L0), lenN (concat L0) + lenN l), q'). split.
    + assert (Hl : length (ranges 0 (map lenN L0)) = length ps1).
      { rewrite length_ranges, map_length. unfold lenN in E. rewrite !app_length in E. simpl in E. lia. }
      pose proof (combine_last (ranges 0 (map lenN L0)) ps1 (lenN (concat L0), lenN (concat L0) + lenN l) q' Hl) as H.
      set (X := ranges 0 (map lenN L0) ++ _) in *.
      assert (HX : length X = length (ps1 ++ [q'])) by (unfold X; rewrite !app_length; simpl; lia).
      clearbody X. clear - H HX. revert H HX. generalize (ps1 ++ [q']). intros m. revert X. induction m as [|b m IH]; intros [|a X] H HX; try discriminate; [contradiction|].
      simpl in H |- *. destruct H as [H|H]; [now left|]. right. apply IH; [assumption|simpl in HX; lia].
    + apply in_map_iff. exists (lenN l). split; [reflexivity|]. apply in_seqN. lia.
  - cbn [doomed]. left. unfold pvalid, out_at. cbn [fst snd]. cbn [ob_ops ob_of_lists].
    rewrite concat_app, lenN_app. cbn [concat]. rewrite app_nil_r. apply N.ltb_ge. simpl. lia.
Qed.

(** ** What the batch holds *)
Lemma nth_scan L : forall s b l, nth_error L b = Some l -> exists P R, L = P ++ l :: R /\ length P = b /\
  nth_error (scan s (map lenN L)) b = Some (s + lenN (concat P)) /\ nth_error (scan s (map lenN L)) (S b) = Some (s + lenN (concat P) + @lenN pauli l).
Proof.
  induction L as [|k L IH]; intros s b l E; [destruct b; discriminate|]. destruct b as [|b].
  - injection E as <-. exists [], L. split; [reflexivity|]. split; [reflexivity|]. cbn [map scan nth_error concat]. rewrite (scan_cons (s + lenN k)). simpl. unfold lenN. simpl. rewrite N.add_0_r. auto.
  - destruct (IH (s + lenN k) b l E) as (P & R & E1 & E2 & E3 & E4). exists (k :: P), R. split; [now rewrite E1|]. split; [simpl; lia|].
    cbn [map scan concat]. rewrite lenN_app. split.
    + cbn [nth_error]. rewrite E3. f_equal. lia.
    + change (nth_error (s :: scan (s + lenN k) (map lenN L)) (S (S b))) with (nth_error (scan (s + lenN k) (map lenN L)) (S b)). rewrite E4. f_equal. lia.
Qed.
Lemma slice_mid (P l R : list pauli) : slice (P ++ l ++ R) (lenN P) (lenN P + lenN l) = l.
Proof.
  unfold slice, lenN. replace (N.to_nat (N.of_nat (length P) + N.of_nat (length l) - N.of_nat (length P))) with (length l) by lia.
  rewrite Nnat.Nat2N.id. rewrite skipn_app, skipn_all, Nat.sub_diag. simpl. rewrite firstn_app, firstn_all, Nat.sub_diag. simpl. apply app_nil_r.
Qed.
Lemma get_operator_at_ok L b l : lenN L < two64 - 1 -> nth_error L b = Some l ->
  ob_get_operator_at (ob_of_lists L) (N.of_nat b) = Ok (Op l true false) /\ ob_view_operator_at (ob_of_lists L) (N.of_nat b) = Ok (Op l true true).
Proof.
  intros HL E. assert (Hb : (b < length L)%nat) by (apply nth_error_Some; congruence).
  destruct (nth_scan L 0 b l E) as (P & R & E1 & E2 & E3 & E4).
  unfold ob_get_operator_at, ob_view_operator_at. rewrite batch_size_lists by assumption.
  assert (Hg : (lenN L <=? N.of_nat b) = false) by (apply N.leb_gt; unfold lenN; lia). rewrite Hg.
  rewrite Nnat.Nat2N.id. replace (N.to_nat (N.of_nat b + 1)) with (S b) by lia.
  unfold ob_of_lists. cbn [ob_row ob_ops]. rewrite E3, E4, !N.add_0_l.
  assert (Es : slice (concat L) (lenN (concat P)) (lenN (concat P) + lenN l) = l) by (rewrite E1, concat_app; cbn [concat]; apply slice_mid).
  now rewrite Es.
Qed.
Lemma get_operator_at_throws L b : lenN L < two64 - 1 -> lenN L <= b ->
  ob_get_operator_at (ob_of_lists L) b = Throw /\ ob_view_operator_at (ob_of_lists L) b = Throw.
Proof. intros HL Hb. unfold ob_get_operator_at, ob_view_operator_at. rewrite batch_size_lists by assumption. apply N.leb_le in Hb. now rewrite Hb. Qed.
Lemma collectR_ok {A B} (f : A -> res B) g l : (forall a, In a l -> f a = Ok (g a)) -> collectR f l = Ok (map g l).
Proof. induction l as [|a l IH]; intros H; [reflexivity|]. cbn [collectR map]. rewrite (H a (or_introl eq_refl)). cbn [bindR]. rewrite IH by (intros; apply H; now right). reflexivity. Qed.
Lemma get_operators_ok L : lenN L < two64 - 1 -> ob_get_operators (ob_of_lists L) = Ok (map (fun l => Op l true false) L).
Proof.
  intros HL. unfold ob_get_operators.
  assert (E : exists rest, ob_row (ob_of_lists L) = 0 :: rest /\ lenN rest = lenN L).
  { unfold ob_of_lists. cbn [ob_row]. rewrite scan_cons. eexists. split; [reflexivity|].
    pose proof (lenN_scan 0 (map lenN L)) as H. rewrite scan_cons, lenN_cons, lenN_map in H. lia. }
  destruct E as (rest & E1 & E2). rewrite E1, E2.
  rewrite (collectR_ok _ (fun b => Op (nth (N.to_nat b) L []) true false)).
  - f_equal. rewrite <- (map_nth_seqN L []) at 2. now rewrite map_map.
  - intros b Hb. apply in_seqN in Hb. destruct (get_operator_at_ok L (N.to_nat b) (nth (N.to_nat b) L []) HL) as [H _].
    + apply nth_error_nth'. unfold lenN in Hb. lia.
    + now rewrite Nnat.N2Nat.id in H.
Qed.
Lemma holds_lists L : lenN L < two64 - 1 -> holds (ob_of_lists L) L.
Proof.
  intros HL. split; [now apply batch_size_lists|]. split; [|split].
  - intros b l E. exists (Op l true false). split; [now apply get_operator_at_ok|reflexivity].
  - intros b Hb. now apply get_operator_at_throws.
  - exists (map (fun l => Op l true false) L). split; [now apply get_operators_ok|]. rewrite map_map. apply map_id.
Qed.
Lemma ob_load_ok o L : lenN (ob_row o) = lenN L + 1 -> ob_load o L = Ok (ob_of_lists L).
Proof. intros E. unfold ob_load. now rewrite E, N.eqb_refl. Qed.
