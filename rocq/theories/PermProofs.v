(** The Permutation gate: the swap schedule moves qubit i to dst[i]. *)
From Verif Require Export GatesProofs.
From Coq Require Import ZifyBool ZifyN ZifyNat Permutation FunctionalExtensionality.

Definition is_perm (dst : list N) : Prop := NoDup dst /\ Forall (fun q => q < N.of_nat (length dst)) dst.

Lemma dst_at_in dst i : i < N.of_nat (length dst) -> In (dst_at dst i) dst.
Proof. intros H. unfold dst_at. apply nth_In. lia. Qed.
Lemma dst_at_lt dst i : is_perm dst -> i < N.of_nat (length dst) -> dst_at dst i < N.of_nat (length dst).
Proof. intros [_ H] Hi. rewrite Forall_forall in H. now apply H, dst_at_in. Qed.
Lemma dst_at_inj dst i j : is_perm dst -> i < N.of_nat (length dst) -> j < N.of_nat (length dst) ->
  dst_at dst i = dst_at dst j -> i = j.
Proof.
  intros [H _] Hi Hj E. rewrite NoDup_nth in H. unfold dst_at in E.
  assert (N.to_nat i = N.to_nat j) by (apply (H _ _); [lia|lia|exact E]). lia.
Qed.

(** position maps *)
Definition sw (p q i : N) : N := if i =? p then q else if i =? q then p else i.
Lemma swap_bits_tb p q x i : N.testbit (swap_bits p q x) i = N.testbit x (sw p q i).
Proof.
  unfold swap_bits, sw. rewrite !set_bit_tb.
  destruct (N.eqb_spec i q), (N.eqb_spec i p); subst; reflexivity.
Qed.
Fixpoint sched_map (sched : list (N * N)) (i : N) : N :=
  match sched with [] => i | (p, q) :: r => sched_map r (sw p q i) end.
Lemma sched_map_app s1 s2 i : sched_map (s1 ++ s2) i = sched_map s2 (sched_map s1 i).
Proof. revert i. induction s1 as [|[p q] s1 IH]; intros i; simpl; [reflexivity|apply IH]. Qed.

Lemma memN_spec x l : memN x l = true <-> In x l.
Proof.
  unfold memN. rewrite existsb_exists. split.
  - intros (y & Hy & E). apply N.eqb_eq in E. now subst.
  - intros H. exists x. split; [assumption|apply N.eqb_refl].
Qed.
Lemma memN_false x l : memN x l = false <-> ~ In x l.
Proof. rewrite <- memN_spec. destruct (memN x l); split; congruence. Qed.

Section Perm.
  Variable dst : list N.
  Hypothesis HP : is_perm dst.
  Let k := N.of_nat (length dst).
  Let d := dst_at dst.

  (** between two cycles *)
  Definition closed_inv (seen : list N) (sched : list (N * N)) : Prop :=
    NoDup seen /\ Forall (fun j => j < k) seen /\
    (forall j, In j seen -> sched_map sched j = d j /\ In (d j) seen) /\
    (forall j, In j seen -> exists j', In j' seen /\ d j' = j) /\
    (forall j, ~ In j seen -> sched_map sched j = j) /\
    Forall (fun pq => fst pq < k /\ snd pq < k /\ fst pq <> snd pq) sched.
  (** inside the cycle that starts at i *)
  Definition cycle_inv (i pos : N) (seen : list N) (sched : list (N * N)) : Prop :=
    NoDup seen /\ Forall (fun j => j < k) seen /\ In i seen /\ In pos seen /\
    sched_map sched pos = i /\
    (forall j, In j seen -> j <> pos -> sched_map sched j = d j /\ In (d j) seen /\ d j <> i) /\
    (forall j, In j seen -> j <> i -> exists j', In j' seen /\ j' <> pos /\ d j' = j) /\
    (forall j, ~ In j seen -> sched_map sched j = j) /\
    Forall (fun pq => fst pq < k /\ snd pq < k /\ fst pq <> snd pq) sched.

  Lemma nodup_bound l : NoDup l -> Forall (fun j => j < k) l -> (length l <= length dst)%nat.
  Proof.
    intros Hn Hf. assert (incl l (seqN k)).
    { intros x Hx. apply in_seqN. rewrite Forall_forall in Hf. auto. }
    apply NoDup_incl_length in H; [|assumption]. rewrite length_seqN in H. unfold k in H. lia.
  Qed.

  Lemma cycle_step i pos seen sched : cycle_inv i pos seen sched -> ~ In (d pos) seen ->
    cycle_inv i (d pos) (d pos :: seen) (sched ++ [(d pos, i)]).
  Proof.
    intros (Hn & Hf & Hi & Hp & Hs & Hd & Hb & Hu & Hq) Hnew.
    assert (Hk : forall j, In j seen -> j < k) by (rewrite Forall_forall in Hf; auto).
    assert (Hnk : d pos < k) by (apply dst_at_lt; auto; now apply Hk).
    assert (Hni : d pos <> i) by (intros E; apply Hnew; now rewrite E).
    unfold cycle_inv. split; [now constructor|]. split; [now constructor|].
    split; [now right|]. split; [now left|].
    split.
    { rewrite sched_map_app. rewrite Hu by assumption. simpl. unfold sw. rewrite N.eqb_refl. reflexivity. }
    split.
    { intros j [<-|Hj] Hne; [congruence|]. rewrite sched_map_app. simpl.
      destruct (N.eq_dec j pos) as [->|Hjp].
      - rewrite Hs. unfold sw. replace (i =? d pos) with false by lia. rewrite N.eqb_refl. split; [reflexivity|]. split; [now left|assumption].
      - destruct (Hd j Hj Hjp) as (E1 & E2 & E3). rewrite E1. unfold sw.
        assert (d j <> d pos) by (intros E; apply dst_at_inj in E; auto).
        replace (d j =? d pos) with false by lia. replace (d j =? i) with false by lia.
        split; [reflexivity|]. split; [now right|assumption]. }
    split.
    { intros j [<-|Hj] Hne.
      - exists pos. split; [now right|]. split; [|reflexivity]. intros E. apply Hnew. now rewrite <- E.
      - destruct (Hb j Hj Hne) as (j' & H1 & H2 & H3). exists j'. split; [now right|]. split; [|assumption].
        intros ->. contradiction. }
    split.
    { intros j Hj. rewrite sched_map_app. rewrite Hu by (intros H; apply Hj; now right). simpl. unfold sw.
      assert (j <> d pos) by (intros ->; apply Hj; now left). assert (j <> i) by (intros ->; apply Hj; now right).
      replace (j =? d pos) with false by lia. replace (j =? i) with false by lia. reflexivity. }
    apply Forall_app. split; [assumption|]. constructor; [|constructor]. simpl. auto.
  Qed.
  Lemma cycle_end i pos seen sched : cycle_inv i pos seen sched -> In (d pos) seen -> closed_inv seen sched.
  Proof.
    intros (Hn & Hf & Hi & Hp & Hs & Hd & Hb & Hu & Hq) Hin.
    assert (Hk : forall j, In j seen -> j < k) by (rewrite Forall_forall in Hf; auto).
    assert (E : d pos = i).
    { destruct (N.eq_dec (d pos) i) as [|Hne]; [assumption|]. exfalso.
      destruct (Hb _ Hin Hne) as (j' & H1 & H2 & H3). apply dst_at_inj in H3; auto. }
    split; [assumption|]. split; [assumption|]. split.
    { intros j Hj. destruct (N.eq_dec j pos) as [->|Hne].
      - rewrite Hs, E. auto.
      - destruct (Hd j Hj Hne) as (E1 & E2 & _). auto. }
    split.
    { intros j Hj. destruct (N.eq_dec j i) as [->|Hne]; [now exists pos|].
      destruct (Hb j Hj Hne) as (j' & H1 & _ & H3). eauto. }
    auto.
  Qed.
  Lemma perm_cycle_closed fuel : forall i pos seen sched,
    cycle_inv i pos seen sched -> (length dst < fuel + length seen)%nat ->
    let '(seen', sched') := perm_cycle fuel dst i pos seen sched in
    closed_inv seen' sched' /\ incl seen seen'.
  Proof.
    induction fuel as [|f IH]; intros i pos seen sched H Hl.
    - exfalso. destruct H as (Hn & Hf & _). pose proof (nodup_bound seen Hn Hf). lia.
    - simpl. destruct (memN (dst_at dst pos) seen) eqn:E.
      + apply memN_spec in E. split; [eapply cycle_end; eassumption|apply incl_refl].
      + apply memN_false in E. pose proof (cycle_step i pos seen sched H E) as H'.
        specialize (IH i (dst_at dst pos) (dst_at dst pos :: seen) (sched ++ [(dst_at dst pos, i)]) H'). simpl in IH.
        destruct (perm_cycle f dst i (dst_at dst pos) (dst_at dst pos :: seen) (sched ++ [(dst_at dst pos, i)])) as [s' sc'].
        destruct IH as [I1 I2]; [lia|]. split; [assumption|]. intros x Hx. apply I2. now right.
  Qed.
  Lemma cycle_start i seen sched : closed_inv seen sched -> i < k -> ~ In i seen -> cycle_inv i i (i :: seen) sched.
  Proof.
    intros (Hn & Hf & Hd & Hb & Hu & Hq) Hi Hni. unfold cycle_inv.
    split; [now constructor|]. split; [now constructor|]. split; [now left|]. split; [now left|].
    split; [auto|]. split.
    { intros j [<-|Hj] Hne; [congruence|]. destruct (Hd j Hj) as [E1 E2]. split; [assumption|]. split; [now right|].
      intros E. apply Hni. now rewrite <- E. }
    split.
    { intros j [<-|Hj] Hne; [congruence|]. destruct (Hb j Hj) as (j' & H1 & H2). exists j'. split; [now right|].
      split; [|assumption]. intros ->. contradiction. }
    split; [|assumption]. intros j Hj. apply Hu. intros H; apply Hj; now right.
  Qed.
  Lemma perm_cycles_closed is : forall seen sched, closed_inv seen sched -> Forall (fun i => i < k) is ->
    exists seen', closed_inv seen' (perm_cycles dst is seen sched) /\ incl seen seen' /\ incl is seen'.
  Proof.
    induction is as [|i is IH]; intros seen sched H Hf.
    - exists seen. simpl. split; [exact H|]. split; [apply incl_refl|intros x []].
    - inversion Hf as [|? ? Hi Hf']; subst. simpl. destruct (memN i seen) eqn:E.
      + apply memN_spec in E. destruct (IH seen sched H Hf') as (s' & H1 & H2 & H3). exists s'.
        split; [assumption|]. split; [assumption|]. intros x [<-|Hx]; auto.
      + apply memN_false in E. pose proof (cycle_start i seen sched H Hi E) as Hc.
        pose proof (perm_cycle_closed (S (length dst)) i i (i :: seen) sched Hc ltac:(simpl; lia)) as Hp.
        change (perm_cycle (S (length dst)) dst i i (i :: seen) sched) with
          (if memN (dst_at dst i) (i :: seen) then (i :: seen, sched)
           else perm_cycle (length dst) dst i (dst_at dst i) (dst_at dst i :: i :: seen) (sched ++ [(dst_at dst i, i)])) in Hp.
        destruct (if memN (dst_at dst i) (i :: seen) then _ else _) as [s1 sc1].
        destruct Hp as [Hp1 Hp2]. destruct (IH s1 sc1 Hp1 Hf') as (s' & H1 & H2 & H3). exists s'.
        split; [assumption|]. split.
        * intros x Hx. apply H2, Hp2. now right.
        * intros x [<-|Hx]; [apply H2, Hp2; now left|auto].
  Qed.
  Lemma perm_schedule_correct :
    (forall j, j < k -> sched_map (perm_schedule dst) j = d j) /\
    (forall j, k <= j -> sched_map (perm_schedule dst) j = j) /\
    Forall (fun pq => fst pq < k /\ snd pq < k /\ fst pq <> snd pq) (perm_schedule dst).
  Proof.
    destruct (perm_cycles_closed (seqN k) [] []) as (s' & (Hn & Hf & Hd & Hb & Hu & Hq) & _ & Hi).
    - unfold closed_inv. split; [constructor|]. split; [constructor|]. split; [intros j []|]. split; [intros j []|].
      split; [reflexivity|constructor].
    - rewrite Forall_forall. intros x Hx. now apply in_seqN in Hx.
    - fold (perm_schedule dst) in *. unfold perm_schedule. fold k. split; [|split].
      + intros j Hj. apply Hd, Hi. now apply in_seqN.
      + intros j Hj. apply Hu. intros H. rewrite Forall_forall in Hf. specialize (Hf j H). simpl in Hf. lia.
      + assumption.
  Qed.
End Perm.

(** ** The loops *)
Fixpoint pull (sched : list (N * N)) (a : N) : N :=
  match sched with [] => a | (p, q) :: r => swap_bits p q (pull r a) end.
Lemma pull_tb sched : forall a i, N.testbit (pull sched a) i = N.testbit a (sched_map sched i).
Proof.
  induction sched as [|[p q] r IH]; intros a i; simpl; [reflexivity|]. rewrite swap_bits_tb. apply IH.
Qed.
Lemma pull_shiftr n sched a : Forall (fun pq => fst pq < n /\ snd pq < n /\ fst pq <> snd pq) sched ->
  N.shiftr (pull sched a) n = N.shiftr a n.
Proof.
  intros H. apply N.bits_inj. intros i. rewrite !shiftr_tb, pull_tb. f_equal. set (j := i + n).
  assert (Hj : n <= j) by (unfold j; lia). clearbody j.
  induction H as [|[p q] r (Hp & Hq & _) H IH]; simpl in *; [reflexivity|].
  unfold sw at 1. replace (j =? p) with false by lia. replace (j =? q) with false by lia. exact IH.
Qed.
Lemma permutation_gate_computes n B sched : n <= 64 -> B * 2 ^ n <= two64 ->
  Forall (fun pq => fst pq < n /\ snd pq < n /\ fst pq <> snd pq) sched -> forall m,
  kcomputes_list N.eqb (fun a => a <? B * 2 ^ n) (permutation_gate (B * 2 ^ n) sched) m
    (fun a => if a <? B * 2 ^ n then m (pull sched a) else m a).
Proof.
  intros Hn HB H. induction H as [|[p q] r (Hp & Hq & Hpq) H IH]; intros m; simpl in *.
  - intros a. now destruct (a <? B * 2 ^ n).
  - eexists. split; [apply (permutation_step_computes n B Hn HB p q m Hp Hq Hpq)|].
    match goal with |- kcomputes_list _ _ _ ?m1 ?m' => specialize (IH m1) end.
    assert (E : forall ks (m0 m1 m2 : N -> C), (forall a, m1 a = m2 a) ->
        kcomputes_list N.eqb (fun a => a <? B * 2 ^ n) ks m0 m1 -> kcomputes_list N.eqb (fun a => a <? B * 2 ^ n) ks m0 m2).
    { clear. intros ks m0 m1 m2 E. assert (m1 = m2) by (apply functional_extensionality; auto). now subst. }
    eapply E; [|exact IH]. intros a. simpl.
    destruct (N.ltb_spec a (B * 2 ^ n)) as [Ha|Ha].
    + assert (Hlt : pull r a < B * 2 ^ n).
      { apply shiftr_lt. rewrite pull_shiftr by assumption. now apply shiftr_lt. }
      apply N.ltb_lt in Hlt. rewrite Hlt. reflexivity.
    + reflexivity.
Qed.

(** ** or-ing selected bits together *)
Definition or_bits (l : list (N * N)) (src acc : N) : N :=
  fold_left (fun acc sd => N.lor acc (shl64 (N.land (N.shiftr src (fst sd)) 1) (snd sd))) l acc.
Lemma one_bit x q i : N.testbit (N.land (N.shiftr x q) 1) i = (i =? 0) && N.testbit x q.
Proof.
  rewrite N.land_spec, shiftr_tb, one_tb. destruct (N.eqb_spec i 0) as [->|]; [|apply andb_false_r].
  rewrite N.add_0_l. apply andb_true_r.
Qed.
Lemma or_bits_tb l src : Forall (fun sd => snd sd < 64) l -> forall acc i,
  N.testbit (or_bits l src acc) i = N.testbit acc i || existsb (fun sd => (i =? snd sd) && N.testbit src (fst sd)) l.
Proof.
  induction 1 as [|[s d] l Hd H IH]; intros acc i; simpl; [now rewrite orb_false_r|].
  simpl in Hd. unfold or_bits in *. simpl. rewrite IH, N.lor_spec, shl64_tb, one_bit, <- orb_assoc. f_equal. f_equal.
  destruct (N.eqb_spec i d) as [->|Hne].
  - rewrite N.leb_refl, N.sub_diag. simpl. destruct (d <? 64) eqn:E; [reflexivity|lia].
  - simpl. destruct (N.leb_spec d i); simpl; [|apply andb_false_r].
    replace (i - d =? 0) with false by lia. apply andb_false_r.
Qed.
Lemma in_combine_seqN (l : list N) q d : In (q, d) (combine (seqN (N.of_nat (length l))) l) <->
  q < N.of_nat (length l) /\ d = nth (N.to_nat q) l 0.
Proof.
  split.
  - intros H. apply (In_nth _ _ (0, 0)) in H. destruct H as (k & Hk & E).
    rewrite combine_length, length_seqN in Hk. rewrite combine_nth in E by (rewrite length_seqN; lia).
    injection E as E1 E2. rewrite nth_seqN in E1 by lia. subst q. rewrite Nat2N.id. split; [lia|congruence].
  - intros [Hq ->]. replace (q, nth (N.to_nat q) l 0) with (nth (N.to_nat q) (combine (seqN (N.of_nat (length l))) l) (0, 0)).
    + apply nth_In. rewrite combine_length, length_seqN. lia.
    + rewrite combine_nth by (rewrite length_seqN; lia). f_equal. rewrite nth_seqN by lia. lia.
Qed.
Lemma nth_error_seqN n k : nth_error (seqN n) k = if N.of_nat k <? n then Some (N.of_nat k) else None.
Proof.
  destruct (N.ltb_spec (N.of_nat k) n).
  - rewrite nth_error_nth' with (d := 0) by (rewrite length_seqN; lia). now rewrite nth_seqN by lia.
  - apply nth_error_None. rewrite length_seqN. lia.
Qed.
Lemma gather_seqN k x : gather (seqN k) x = x mod 2 ^ k.
Proof.
  apply bits_eq_N. intros i. rewrite gather_tb, nth_error_seqN.
  destruct (N.ltb_spec (N.of_nat i) k).
  - now rewrite N.mod_pow2_bits_low by assumption.
  - now rewrite N.mod_pow2_bits_high by assumption.
Qed.

Section PermMatrix.
  Variable dst : list N.
  Hypothesis HP : is_perm dst.
  Hypothesis Hlen : (length dst < 64)%nat.
  Let k := N.of_nat (length dst).
  Lemma perm_dst_index_tb src q : q < k -> N.testbit (perm_dst_index dst src) (dst_at dst q) = N.testbit src q.
  Proof.
    intros Hq. unfold perm_dst_index. fold (or_bits (combine (seqN (N.of_nat (length dst))) dst) src 0).
    rewrite or_bits_tb.
    - rewrite N.bits_0. simpl. apply eq_iff_eq_true. rewrite existsb_exists. split.
      + intros ([s d] & Hin & E). apply in_combine_seqN in Hin. destruct Hin as [Hs ->].
        apply andb_true_iff in E. destruct E as [E1 E2]. simpl in *. apply N.eqb_eq in E1.
        assert (q = s) by (apply (dst_at_inj dst); auto). now subst.
      + intros H. exists (q, dst_at dst q). split; [apply in_combine_seqN; auto|]. simpl. now rewrite N.eqb_refl, H.
    - rewrite Forall_forall. intros [s d] H. apply in_combine_seqN in H. destruct H as [Hs ->]. simpl.
      pose proof (dst_at_lt dst s HP Hs). unfold dst_at in *. lia.
  Qed.
  Lemma perm_dst_index_lt src : perm_dst_index dst src < 2 ^ k.
  Proof.
    apply lt_pow2_testbit. intros i Hi. unfold perm_dst_index.
    fold (or_bits (combine (seqN (N.of_nat (length dst))) dst) src 0). rewrite or_bits_tb.
    - rewrite N.bits_0. simpl. destruct (existsb _ _) eqn:E; [|reflexivity]. exfalso.
      apply existsb_exists in E. destruct E as ([s d] & Hin & E). apply in_combine_seqN in Hin. destruct Hin as [Hs ->].
      apply andb_true_iff in E. simpl in E. pose proof (dst_at_lt dst s HP Hs). unfold dst_at in *. fold k in H. lia.
    - rewrite Forall_forall. intros [s d] H. apply in_combine_seqN in H. destruct H as [Hs ->]. simpl.
      pose proof (dst_at_lt dst s HP Hs). unfold dst_at in *. lia.
  Qed.
  Lemma dst_at_surj j : j < k -> exists i, i < k /\ dst_at dst i = j.
  Proof.
    intros Hj. assert (Hin : In j dst).
    { destruct HP as [Hn Hf]. assert (incl dst (seqN k)).
      { intros x Hx. apply in_seqN. rewrite Forall_forall in Hf. now apply Hf. }
      assert (Hi : incl (seqN k) dst).
      { apply NoDup_length_incl; [assumption| |assumption]. rewrite length_seqN. unfold k. lia. }
      apply Hi. now apply in_seqN. }
    apply (In_nth _ _ 0) in Hin. destruct Hin as (i & Hi & E). exists (N.of_nat i). unfold dst_at. rewrite Nat2N.id.
    split; [unfold k; lia|assumption].
  Qed.
  Lemma perm_related y x : y < 2 ^ k ->
    forallb (fun id => Bool.eqb (N.testbit y (snd id)) (N.testbit x (fst id))) (combine (seqN k) dst) =
    (y =? perm_dst_index dst x).
  Proof.
    intros Hy. apply eq_iff_eq_true. rewrite forallb_forall, N.eqb_eq. split.
    - intros H. apply N.bits_inj. intros j. destruct (N.lt_ge_cases j k) as [Hj|Hj].
      + destruct (dst_at_surj j Hj) as (i & Hi & <-). rewrite perm_dst_index_tb by assumption.
        specialize (H (i, dst_at dst i)). simpl in H. apply Bool.eqb_prop, H. apply in_combine_seqN. auto.
      + rewrite (testbit_high y k j) by assumption.
        rewrite (testbit_high _ k j (perm_dst_index_lt x)) by assumption. reflexivity.
    - intros -> [s d] H. apply in_combine_seqN in H. destruct H as [Hs ->]. simpl.
      change (nth (N.to_nat s) dst 0) with (dst_at dst s). rewrite perm_dst_index_tb by assumption.
      apply Bool.eqb_reflx.
  Qed.
  Lemma perm_matrix_fold l : forall M i j,
    fold_left (fun M src => fun i j => if (i =? perm_dst_index dst src) && (j =? src) then C1 else M i j) l M i j =
    if memN j l && (i =? perm_dst_index dst j) then C1 else M i j.
  Proof.
    induction l as [|s l IH]; intros M i j; [reflexivity|]. cbn [fold_left]. rewrite IH.
    unfold memN. simpl existsb. destruct (existsb (N.eqb j) l) eqn:El.
    - rewrite orb_true_r. simpl. destruct (i =? perm_dst_index dst j) eqn:Ei; [reflexivity|].
      destruct (N.eqb_spec j s) as [->|]; [now rewrite Ei|]. now rewrite andb_false_r.
    - rewrite orb_false_r. simpl. destruct (N.eqb_spec j s) as [->|]; simpl.
      + now rewrite andb_true_r.
      + now rewrite andb_false_r.
  Qed.
  Lemma perm_matrix_textbook : mat_eq (2 ^ k) (perm_matrix dst) (permutation_textbook dst).
  Proof.
    intros i j Hi Hj. unfold perm_matrix, permutation_textbook. rewrite perm_matrix_fold.
    fold k. rewrite perm_related by assumption. rewrite shl64_one by (unfold k; lia).
    replace (memN j (seqN (2 ^ k))) with true; [reflexivity|]. symmetry. apply memN_spec. now apply in_seqN.
  Qed.
  Lemma apply_permutation (m : state) a :
    apply_mat (seqN k) [] (permutation_textbook dst) m a = m (pull (perm_schedule dst) a).
  Proof.
    destruct (perm_schedule_correct dst HP) as (Hs & Hu & _).
    unfold apply_mat. simpl ctrl_ok. cbv iota. rewrite length_seqN, N2Nat.id.
    set (b := pull (perm_schedule dst) a).
    rewrite (Csum_single _ _ (gather (seqN k) b)).
    - unfold permutation_textbook. fold k. rewrite perm_related by (rewrite gather_seqN; apply N.mod_lt; pose proof (pow2_pos k); lia).
      replace (gather (seqN k) a =? _) with true.
      + rewrite Cmul_1_l. f_equal. apply N.bits_inj. intros i. destruct (N.lt_ge_cases i k) as [Hi|Hi].
        * rewrite (scatter_in _ _ _ (N.to_nat i)); [|apply NoDup_seqN|].
          -- rewrite N2Nat.id, gather_seqN. now rewrite N.mod_pow2_bits_low by assumption.
          -- rewrite nth_error_seqN, N2Nat.id. apply N.ltb_lt in Hi. now rewrite Hi.
        * rewrite scatter_out by (rewrite in_seqN; lia). unfold b. rewrite pull_tb.
          now rewrite Hu by assumption.
      + symmetry. apply N.eqb_eq. apply N.bits_inj. intros j. destruct (N.lt_ge_cases j k) as [Hj|Hj].
        * destruct (dst_at_surj j Hj) as (i & Hi & <-). rewrite perm_dst_index_tb by assumption.
          rewrite !gather_seqN. rewrite !N.mod_pow2_bits_low by assumption. unfold b. rewrite pull_tb.
          now rewrite Hs by assumption.
        * rewrite gather_seqN, N.mod_pow2_bits_high by assumption.
          now rewrite (testbit_high _ k j (perm_dst_index_lt _)).
    - rewrite gather_seqN. apply N.mod_lt. pose proof (pow2_pos k); lia.
    - intros j Hj Hne. unfold permutation_textbook. fold k.
      rewrite perm_related by (rewrite gather_seqN; apply N.mod_lt; pose proof (pow2_pos k); lia).
      replace (gather (seqN k) a =? perm_dst_index dst j) with false; [ring|]. symmetry. apply N.eqb_neq. intros E.
      apply Hne. apply N.bits_inj. intros i. destruct (N.lt_ge_cases i k) as [Hi|Hi].
      + rewrite <- (perm_dst_index_tb j i Hi), <- E. rewrite !gather_seqN.
        rewrite !N.mod_pow2_bits_low by (auto; apply dst_at_lt; auto). unfold b. rewrite pull_tb.
        now rewrite Hs by assumption.
      + rewrite (testbit_high j k i) by assumption. rewrite gather_seqN. now rewrite N.mod_pow2_bits_high.
  Qed.
End PermMatrix.
