(** Proofs about the loops of OperatorBatched over Pauli terms. *)
From Verif Require Import OperatorBatchedSpec.
From Coq Require Import ZifyBool ZifyN ZifyNat.

Lemma paddr_eqb_spec : forall a b : paddr, reflect (a = b) (paddr_eqb a b).
Proof.
  intros [a1 a2] [b1 b2]. unfold paddr_eqb. simpl. destruct (N.eqb_spec a1 b1), (N.eqb_spec a2 b2); simpl; constructor; congruence.
Qed.
Lemma lenN_app {T} (l m : list T) : lenN (l ++ m) = lenN l + lenN m.
Proof. unfold lenN. rewrite app_length. lia. Qed.
Lemma lenN_map {T U} (f : T -> U) l : lenN (map f l) = lenN l.
Proof. unfold lenN. now rewrite map_length. Qed.
Lemma lenN_cons {T} (a : T) l : lenN (a :: l) = lenN l + 1.
Proof. unfold lenN. simpl length. lia. Qed.
Lemma lenN_seqN n : lenN (seqN n) = n.
Proof. unfold lenN. rewrite length_seqN. lia. Qed.
Lemma map_nth_seqN {T} (l : list T) d : map (fun i => nth (N.to_nat i) l d) (seqN (lenN l)) = l.
Proof.
  unfold seqN, lenN. rewrite map_map, Nnat.Nat2N.id.
  rewrite (map_ext _ (fun i => nth i l d)) by (intros; now rewrite Nnat.Nat2N.id).
  induction l as [|a l IH]; [reflexivity|]. cbn [length seq map nth]. f_equal. rewrite <- seq_shift, map_map. exact IH.
Qed.

(** ** One loop: iteration i writes entry base + i of the output *)
Section Loop.
  Variables (la lb lr : N) (m0 : paddr -> pauli).
  Definition ro_at (a : paddr) : bool := ((fst a =? 0) && (snd a <? la)) || ((fst a =? 1) && (snd a <? lb)).
  Definition prog_ok (j : N) (p : pprog) (v : pauli) : Prop :=
    foot (fun a => ro_at a = true \/ a = out_at j) (fun a => a = out_at j) p /\ run1 paddr_eqb p m0 (out_at j) = v.
  Definition its_ok (base : N) (its : list pprog) (vals : list pauli) : Prop :=
    length its = length vals /\
    forall i, (i < length its)%nat -> prog_ok (base + N.of_nat i) (nth i its Ret) (nth i vals no_pauli).
  Lemma its_ok_nil base : its_ok base [] [].
  Proof. split; [reflexivity|]. simpl. lia. Qed.
  Lemma its_ok_app base l1 v1 l2 v2 : its_ok base l1 v1 -> its_ok (base + lenN v1) l2 v2 -> its_ok base (l1 ++ l2) (v1 ++ v2).
  Proof.
    intros [E1 H1] [E2 H2]. split; [rewrite !app_length; lia|]. intros i Hi. rewrite app_length in Hi.
    destruct (Nat.lt_ge_cases i (length l1)) as [Hlt|Hge].
    - rewrite !app_nth1 by lia. now apply H1.
    - rewrite !app_nth2 by lia. rewrite <- E1. replace (base + N.of_nat i) with (base + lenN v1 + N.of_nat (i - length l1)) by (unfold lenN; lia).
      apply H2. lia.
  Qed.
  Lemma its_ok_map base f vals k : k = lenN vals ->
    (forall i, i < k -> prog_ok (base + i) (f i) (nth (N.to_nat i) vals no_pauli)) -> its_ok base (map f (seqN k)) vals.
  Proof.
    intros -> H. split.
    - rewrite map_length, length_seqN. unfold lenN. lia.
    - intros i Hi. rewrite map_length, length_seqN in Hi.
      rewrite (nth_indep _ Ret (f 0)) by (rewrite map_length, length_seqN; lia).
      rewrite map_nth. replace (nth i (seqN (lenN vals)) 0) with (N.of_nat i).
      + specialize (H (N.of_nat i)). rewrite Nnat.Nat2N.id in H. apply H. lia.
      + unfold seqN. rewrite (nth_indep _ 0 (N.of_nat 0)) by (rewrite map_length, seq_length; lia). rewrite map_nth, seq_nth by lia. lia.
  Qed.
  Lemma its_ok_copy base src (l : list pauli) :
    (forall i, i < lenN l -> ro_at (src i) = true /\ m0 (src i) = nth (N.to_nat i) l no_pauli) ->
    its_ok base (copy_to src (fun i => out_at (base + i)) (lenN l)) l.
  Proof.
    intros H. apply its_ok_map; [reflexivity|]. intros i Hi. destruct (H i Hi) as [H1 H2]. split.
    - simpl. auto.
    - simpl. rewrite upd_same by apply paddr_eqb_spec. exact H2.
  Qed.

  Lemma launch_ok its vals row_ptr : lr = lenN vals -> its_ok 0 its vals ->
    always (launch la lb lr its m0 row_ptr) (OB vals row_ptr).
  Proof.
    intros Elr [El Hok].
    set (dom := fun a : paddr => (fst a =? 2) && (snd a <? lr)).
    assert (Hp : par_computes paddr_eqb (pvalid la lb lr) (lenN its) (fun g => nth (N.to_nat g) its Ret) m0
                   (fun a => if dom a then run1 paddr_eqb (nth (N.to_nat (snd a)) its Ret) m0 a else m0 a)).
    { apply (owned_par_computes pauli paddr paddr_eqb paddr_eqb_spec (pvalid la lb lr) (lenN its) (fun g => nth (N.to_nat g) its Ret) m0 ro_at dom snd).
      - intros [x y] Hd. unfold dom in Hd. simpl in Hd. apply andb_prop in Hd as [H1 H2]. apply N.eqb_eq in H1. subst x. unfold pvalid, ro_at, lenN in *. simpl. split; [exact H2|]. split; [lia|reflexivity].
      - intros [x y] Hr. unfold ro_at in Hr. unfold pvalid. simpl in *. apply orb_prop in Hr as [Hr|Hr]; apply andb_prop in Hr as [H1 H2]; apply N.eqb_eq in H1; subst x; exact H2.
      - intros i Hi. destruct (Hok (N.to_nat i)) as [Hf _]; [unfold lenN in Hi; lia|]. rewrite Nnat.N2Nat.id, N.add_0_l in Hf.
        assert (Hd : dom (out_at i) = true) by (unfold dom, out_at; simpl; unfold lenN in *; lia).
        eapply foot_mono; [| |exact Hf].
        + intros a [H| ->]; [now left|]. right. auto.
        + intros a ->. auto. }
    assert (Hres : forall m', (forall a, m' a = if dom a then run1 paddr_eqb (nth (N.to_nat (snd a)) its Ret) m0 a else m0 a) ->
                     map (fun i => m' (out_at i)) (seqN lr) = vals).
    { intros m' Hm. rewrite <- (map_nth_seqN vals no_pauli), <- Elr. apply map_ext_in. intros i Hi. apply in_seqN in Hi. rewrite Hm.
      assert (Hd : dom (out_at i) = true) by (unfold dom, out_at; simpl; lia). rewrite Hd. simpl snd.
      destruct (Hok (N.to_nat i)) as [_ Hv]; [unfold lenN in *; lia|]. rewrite Nnat.N2Nat.id, N.add_0_l in Hv. exact Hv. }
    destruct Hp as [H1 [sched [r H2]]]. split.
    - intros s. specialize (H1 s). unfold launch, run_loop. destruct (parallel_for _ _ _ _ _ s) as [m'| | |]; try contradiction; [|now left].
      right. now rewrite (Hres m' H1).
    - exists sched. specialize (H1 sched). unfold launch, run_loop. rewrite H2 in *. now rewrite (Hres r H1).
  Qed.

  (** an iteration that, whatever it reads, makes an access outside of memory *)
  Fixpoint doomed {V A} (valid : A -> bool) (p : prog V A) : Prop :=
    match p with
    | Ret => False
    | Rd a k => valid a = false \/ forall v, doomed valid (k v)
    | Wr a v q => valid a = false \/ doomed valid q
    end.
  Lemma exec_oob {V A} (eqb : A -> A -> bool) valid n t : t < n -> forall sched ths log m,
    doomed valid (ths t) -> forall r, Par.exec V A eqb valid n sched ths log m <> Finished r.
  Proof.
    intros Ht. induction sched as [|u sched IH]; intros ths log m Hd r; simpl.
    - destruct (forallb _ _) eqn:E; [|discriminate]. rewrite forallb_forall in E. specialize (E t (proj2 (in_seqN _ _) Ht)).
      destruct (ths t); [contradiction|discriminate|discriminate].
    - destruct (u <? n); [|now apply IH]. destruct (N.eq_dec u t) as [->|Hne].
      + assert (Hs : forall p, set_thread V A ths t p t = p) by (intros; unfold set_thread; now rewrite N.eqb_refl).
        destruct (ths t) as [|b k|b v q]; [contradiction| |]; simpl in Hd.
        * destruct Hd as [->|Hd]; [discriminate|]. destruct (negb (valid b)); [discriminate|]. destruct (existsb _ _); [discriminate|]. apply IH. now rewrite Hs.
        * destruct Hd as [->|Hd]; [discriminate|]. destruct (negb (valid b)); [discriminate|]. destruct (existsb _ _); [discriminate|]. apply IH. now rewrite Hs.
      + assert (Hs : forall p, set_thread V A ths u p t = ths t) by (intros; unfold set_thread; destruct (N.eqb_spec t u); congruence).
        destruct (ths u) as [|b k|b v q]; [now apply IH| |].
        * destruct (negb (valid b)); [discriminate|]. destruct (existsb _ _); [discriminate|]. apply IH. now rewrite Hs.
        * destruct (negb (valid b)); [discriminate|]. destruct (existsb _ _); [discriminate|]. apply IH. now rewrite Hs.
  Qed.
  Lemma launch_oob its row_ptr p : In p its -> doomed (pvalid la lb lr) p ->
    never_returns (launch la lb lr its m0 row_ptr).
  Proof.
    intros Hin Hd s. destruct (In_nth its p Ret Hin) as (g & Hg & E). unfold launch, run_loop, parallel_for.
    pose proof (exec_oob paddr_eqb (pvalid la lb lr) (lenN its) (N.of_nat g) ltac:(unfold lenN; lia) s (fun g => nth (N.to_nat g) its Ret) [] m0) as H.
    cbv beta in H. rewrite Nnat.Nat2N.id, E in H. specialize (H Hd). destruct (Par.exec _ _ _ _ _ _ _ _ _) as [r| | |]; auto. now elim (H r).
  Qed.
End Loop.

(** ** Row pointers *)
Fixpoint ranges (s : N) (sizes : list N) : list (N * N) :=
  match sizes with [] => [] | x :: r => (s, s + x) :: ranges (s + x) r end.
Lemma scan_cons s sizes : scan s sizes = s :: tl (scan s sizes).
Proof. destruct sizes; reflexivity. Qed.
Lemma ranges_scan sizes : forall s, combine (scan s sizes) (tl (scan s sizes)) = ranges s sizes.
Proof.
  induction sizes as [|x r IH]; intros s; [reflexivity|]. cbn [scan tl ranges]. rewrite (scan_cons (s + x) r) at 2. cbn [combine]. f_equal.
  apply IH.
Qed.
Lemma rows_of_lists L : rows (ob_of_lists L) = Ok (ranges 0 (map lenN L)).
Proof.
  unfold rows, ob_of_lists. cbn [ob_row]. rewrite (scan_cons 0). f_equal. rewrite <- ranges_scan. now rewrite <- scan_cons.
Qed.
Lemma lenN_scan s sizes : lenN (scan s sizes) = lenN sizes + 1.
Proof. revert s. induction sizes as [|x r IH]; intros s; [reflexivity|]. cbn [scan]. rewrite !lenN_cons, IH. lia. Qed.
Lemma last_scan sizes : forall s d, last (scan s sizes) d = s + fold_right N.add 0 sizes.
Proof.
  induction sizes as [|x r IH]; intros s d; [simpl; lia|]. cbn [scan]. rewrite (scan_cons (s + x) r). change (last (s :: s + x :: tl (scan (s + x) r)) d) with (last (s + x :: tl (scan (s + x) r)) d).
  rewrite <- scan_cons, IH. simpl. lia.
Qed.
Lemma lenN_concat {T} (L : list (list T)) : lenN (concat L) = fold_right N.add 0 (map lenN L).
Proof. induction L as [|l L IH]; [reflexivity|]. simpl. rewrite lenN_app, IH. reflexivity. Qed.
Lemma lenN_row L : lenN (ob_row (ob_of_lists L)) = lenN L + 1.
Proof. unfold ob_of_lists. cbn [ob_row]. now rewrite lenN_scan, lenN_map. Qed.
Lemma length_ranges s sizes : length (ranges s sizes) = length sizes.
Proof. revert s. induction sizes as [|x r IH]; intros s; [reflexivity|]. simpl. now rewrite IH. Qed.

Lemma nth_mid {T} (P l R : list T) i d : i < lenN l -> nth (N.to_nat (lenN P + i)) (P ++ l ++ R) d = nth (N.to_nat i) l d.
Proof.
  intros Hi. unfold lenN in *. rewrite app_nth2 by lia. replace (N.to_nat (N.of_nat (length P) + i) - length P)%nat with (N.to_nat i) by lia.
  rewrite app_nth1 by lia. reflexivity.
Qed.

(** ** Sum *)
Lemma add_its_ok A B junk L1 : forall L2 P1 P2 s, length L1 = length L2 -> A = P1 ++ concat L1 -> B = P2 ++ concat L2 ->
  its_ok (lenN A) (lenN B) (pmemory A B junk) s
    (flat_map (fun '((begin1, end1), (begin2, end2), begin_res) =>
           copy_to (fun i => this_at (begin1 + i)) (fun i => out_at (begin_res + i)) (end1 - begin1) ++
           copy_to (fun i => arg_at (begin2 + i)) (fun i => out_at (begin_res + (end1 - begin1) + i)) (end2 - begin2))
           (combine (combine (ranges (lenN P1) (map lenN L1)) (ranges (lenN P2) (map lenN L2))) (scan s (map (fun p => lenN (fst p) + lenN (snd p)) (combine L1 L2)))))
    (concat (each2 (@app pauli) L1 L2)).
Proof.
  induction L1 as [|l1 L1 IH]; intros [|l2 L2] P1 P2 s El EA EB; try discriminate; [apply its_ok_nil|].
  cbn [map ranges combine scan flat_map each2 concat fst snd].
  apply its_ok_app.
  - replace (lenN P1 + lenN l1 - lenN P1) with (lenN l1) by lia. replace (lenN P2 + lenN l2 - lenN P2) with (lenN l2) by lia.
    apply its_ok_app.
    + apply its_ok_copy. intros i Hi. cbn [concat] in EA. split.
      * unfold ro_at, this_at. simpl. rewrite EA, !lenN_app. apply orb_true_iff. left. apply N.ltb_lt. lia.
      * unfold pmemory, this_at. simpl. rewrite EA. now apply nth_mid.
    + apply its_ok_copy. intros i Hi. cbn [concat] in EB. split.
      * unfold ro_at, arg_at. simpl. rewrite EB, !lenN_app. apply N.ltb_lt. lia.
      * unfold pmemory, arg_at. simpl. rewrite EB. now apply nth_mid.
  - rewrite lenN_app.
    specialize (IH L2 (P1 ++ l1) (P2 ++ l2) (s + (lenN l1 + lenN l2))). rewrite !lenN_app in IH.
    apply IH; [simpl in El; lia| |]; cbn [concat] in *; rewrite <- app_assoc; assumption.
Qed.
Lemma sizes_add L1 : forall L2 s1 s2, map (fun '((begin1, end1), (begin2, end2)) => (end1 - begin1) + (end2 - begin2))
    (combine (ranges s1 (map lenN L1)) (ranges s2 (map lenN L2))) =
  map (fun p : list pauli * list pauli => lenN (fst p) + lenN (snd p)) (combine L1 L2).
Proof.
  induction L1 as [|l1 L1 IH]; intros [|l2 L2] s1 s2; try reflexivity. cbn [map ranges combine]. f_equal; [simpl; lia|]. apply IH.
Qed.
Lemma sizes_each2_app L1 L2 : map lenN (each2 (@app pauli) L1 L2) = map (fun p => lenN (fst p) + lenN (snd p)) (combine L1 L2).
Proof. unfold each2. rewrite map_map. apply map_ext. intros [a b]. apply lenN_app. Qed.
Lemma ob_add_correct L1 L2 junk : length L1 = length L2 ->
  always (ob_add (ob_of_lists L1) (ob_of_lists L2) junk) (ob_of_lists (each2 (@app pauli) L1 L2)).
Proof.
  intros El.
  assert (E : forall s, ob_add (ob_of_lists L1) (ob_of_lists L2) junk s =
     let row_ptr := scan 0 (map (fun p => lenN (fst p) + lenN (snd p)) (combine L1 L2)) in
     launch (lenN (concat L1)) (lenN (concat L2)) (last row_ptr 0)
      (flat_map (fun '((begin1, end1), (begin2, end2), begin_res) =>
           copy_to (fun i => this_at (begin1 + i)) (fun i => out_at (begin_res + i)) (end1 - begin1) ++
           copy_to (fun i => arg_at (begin2 + i)) (fun i => out_at (begin_res + (end1 - begin1) + i)) (end2 - begin2))
           (combine (combine (ranges 0 (map lenN L1)) (ranges 0 (map lenN L2))) row_ptr))
      (pmemory (concat L1) (concat L2) junk) row_ptr s).
  { intros s. unfold ob_add. rewrite !lenN_row. unfold lenN at 1 2. rewrite El, N.eqb_refl, !rows_of_lists, sizes_add. reflexivity. }
  cbv zeta in E.
  assert (G : always (fun s => launch (lenN (concat L1)) (lenN (concat L2)) (last (scan 0 (map (fun p => lenN (fst p) + lenN (snd p)) (combine L1 L2))) 0)
      (flat_map (fun '((begin1, end1), (begin2, end2), begin_res) =>
           copy_to (fun i => this_at (begin1 + i)) (fun i => out_at (begin_res + i)) (end1 - begin1) ++
           copy_to (fun i => arg_at (begin2 + i)) (fun i => out_at (begin_res + (end1 - begin1) + i)) (end2 - begin2))
           (combine (combine (ranges 0 (map lenN L1)) (ranges 0 (map lenN L2))) (scan 0 (map (fun p => lenN (fst p) + lenN (snd p)) (combine L1 L2)))))
      (pmemory (concat L1) (concat L2) junk) (scan 0 (map (fun p => lenN (fst p) + lenN (snd p)) (combine L1 L2))) s) (ob_of_lists (each2 (@app pauli) L1 L2))).
  { unfold ob_of_lists at 1. rewrite sizes_each2_app. apply launch_ok.
    - rewrite last_scan, lenN_concat, sizes_each2_app. lia.
    - apply (add_its_ok (concat L1) (concat L2) junk L1 L2 [] [] 0); auto. }
  destruct G as [G1 [s G2]]. split; [intros s'; rewrite E; apply G1|exists s; rewrite E; exact G2].
Qed.
