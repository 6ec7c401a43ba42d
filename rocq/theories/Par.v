(** Parallel loops.

    Kokkos::parallel_for(n, body) runs the n iterations in an unspecified order and possibly at the same
    time.  An iteration is modelled as a program that issues individual reads and writes; a schedule is an
    arbitrary list of iteration numbers saying whose next access happens.  Two accesses to the same address
    by different iterations, at least one of them a write, are a data race (undefined behaviour in C++); an
    access outside the valid addresses is undefined behaviour as well.  Both are outcomes of the machine. *)
From Verif Require Export Prelude.
From Coq Require Import Permutation.

Section Par.
  Variables (V A : Type) (eqb : A -> A -> bool).
  Hypothesis eqb_spec : forall a b, reflect (a = b) (eqb a b).

  (** One iteration of a kernel body (a KOKKOS_LAMBDA). *)
  Inductive prog : Type :=
  | Ret
  | Rd (a : A) (k : V -> prog)
  | Wr (a : A) (v : V) (p : prog).

  Definition mem := A -> V.
  Definition upd (m : mem) (a : A) (v : V) : mem := fun b => if eqb b a then v else m b.

  (** Running one iteration alone. *)
  Fixpoint run1 (p : prog) (m : mem) : mem :=
    match p with
    | Ret => m
    | Rd a k => run1 (k (m a)) m
    | Wr a v q => run1 q (upd m a v)
    end.

  (** Running the iterations one after the other in the order of the list. *)
  Fixpoint seq_list (body : N -> prog) (l : list N) (m : mem) : mem :=
    match l with [] => m | i :: r => seq_list body r (run1 (body i) m) end.
  Definition seq_for (n : N) (body : N -> prog) (m : mem) : mem := seq_list body (seqN n) m.

  (** The interleaving machine. *)
  Inductive outcome : Type :=
  | Finished (m : mem)
  | Unfinished
  | OutOfBounds
  | DataRace.

  Definition access : Type := N * A * bool.  (* iteration, address, is it a write *)
  Definition conflicts (t : N) (a : A) (w : bool) (e : access) : bool :=
    let '(t', a', w') := e in negb (t =? t') && eqb a a' && (w || w').

  Definition is_ret (p : prog) : bool := match p with Ret => true | _ => false end.
  Definition set_thread (ths : N -> prog) (t : N) (p : prog) : N -> prog :=
    fun i => if i =? t then p else ths i.

  Section Exec.
    Variable valid : A -> bool.
    Variable n : N.
    Fixpoint exec (sched : list N) (ths : N -> prog) (log : list access) (m : mem) : outcome :=
      match sched with
      | [] => if forallb (fun i => is_ret (ths i)) (seqN n) then Finished m else Unfinished
      | t :: rest =>
        if t <? n then
          match ths t with
          | Ret => exec rest ths log m
          | Rd a k =>
            if negb (valid a) then OutOfBounds
            else if existsb (conflicts t a false) log then DataRace
            else exec rest (set_thread ths t (k (m a))) ((t, a, false) :: log) m
          | Wr a v q =>
            if negb (valid a) then OutOfBounds
            else if existsb (conflicts t a true) log then DataRace
            else exec rest (set_thread ths t q) ((t, a, true) :: log) (upd m a v)
          end
        else exec rest ths log m
      end.
  End Exec.

  (** [parallel_for valid n body m sched]: the loop run under one schedule. *)
  Definition parallel_for (valid : A -> bool) (n : N) (body : N -> prog) (m : mem) (sched : list N) : outcome :=
    exec valid n sched body [] m.

  (** The loop is safe and deterministic: no schedule runs into undefined behaviour, every schedule that
      completes ends in [m'], and some schedule completes. *)
  Definition par_computes (valid : A -> bool) (n : N) (body : N -> prog) (m m' : mem) : Prop :=
    (forall sched, match parallel_for valid n body m sched with
                   | Finished r => forall a, r a = m' a
                   | Unfinished => True
                   | OutOfBounds => False
                   | DataRace => False
                   end) /\
    (exists sched r, parallel_for valid n body m sched = Finished r).

  (** ** Footprints *)
  Fixpoint foot (R W : A -> Prop) (p : prog) : Prop :=
    match p with
    | Ret => True
    | Rd a k => R a /\ forall v, foot R W (k v)
    | Wr a v q => W a /\ foot R W q
    end.

  Lemma upd_same m a v : upd m a v a = v.
  Proof. unfold upd. destruct (eqb_spec a a); congruence. Qed.
  Lemma upd_other m a v b : b <> a -> upd m a v b = m b.
  Proof. unfold upd. intros. destruct (eqb_spec b a); congruence. Qed.

  Lemma foot_mono (R W R' W' : A -> Prop) p : (forall a, R a -> R' a) -> (forall a, W a -> W' a) -> foot R W p -> foot R' W' p.
  Proof.
    intros HR HW. induction p as [|a k IH|a v q IH]; simpl; intuition.
  Qed.

  Lemma run1_frame (R W : A -> Prop) p : forall m, foot R W p -> forall a, ~ W a -> run1 p m a = m a.
  Proof.
    induction p as [|b k IH|b v q IH]; intros m Hf a Ha; simpl in *.
    - reflexivity.
    - destruct Hf as [_ Hf]. apply IH; auto.
    - destruct Hf as [Hb Hf]. rewrite IH by auto. apply upd_other. intros ->. contradiction.
  Qed.

  Lemma run1_local (X : A -> Prop) p : forall m1 m2, foot X X p -> (forall a, X a -> m1 a = m2 a) ->
    forall a, X a -> run1 p m1 a = run1 p m2 a.
  Proof.
    induction p as [|b k IH|b v q IH]; intros m1 m2 Hf Hm a Ha; simpl in *.
    - auto.
    - destruct Hf as [Hb Hf]. rewrite (Hm b Hb). apply IH; auto.
    - destruct Hf as [Hb Hf]. apply IH; auto. intros c Hc. unfold upd. destruct (eqb_spec c b); auto.
  Qed.
  Lemma run1_ext p : forall m1 m2, (forall a, m1 a = m2 a) -> forall a, run1 p m1 a = run1 p m2 a.
  Proof.
    induction p as [|b k IH|b v q IH]; intros m1 m2 Hm a; simpl.
    - auto.
    - rewrite (Hm b). apply IH; auto.
    - apply IH. intros c. unfold upd. destruct (eqb_spec c b); auto.
  Qed.

  (** A family of iterations whose write sets are disjoint from everything the others touch. *)
  Record independent (valid : A -> bool) (n : N) (body : N -> prog) (R W : N -> A -> Prop) : Prop := {
    ind_foot : forall i, i < n -> foot (R i) (W i) (body i);
    ind_valid : forall i a, i < n -> R i a \/ W i a -> valid a = true;
    ind_disj : forall i j a, i < n -> j < n -> i <> j -> W i a -> ~ (R j a \/ W j a)
  }.

  Section Independent.
    Variables (valid : A -> bool) (n : N) (body : N -> prog) (R W : N -> A -> Prop) (m0 : mem).
    Hypothesis Hind : independent valid n body R W.

    Let X i a := R i a \/ W i a.

    Lemma foot_X i p : foot (R i) (W i) p -> foot (X i) (X i) p.
    Proof. apply foot_mono; unfold X; auto. Qed.

    Definition inv (ths : N -> prog) (log : list access) (m : mem) : Prop :=
      (forall i, i < n -> foot (R i) (W i) (ths i)) /\
      (forall i a, i < n -> X i a -> run1 (ths i) m a = run1 (body i) m0 a) /\
      (forall a, (forall i, i < n -> ~ W i a) -> m a = m0 a) /\
      (forall t a w, In (t, a, w) log -> t < n /\ (if w : bool then W t a else R t a)).

    Lemma inv_init : inv body [] m0.
    Proof.
      split; [|split; [|split]].
      - apply ind_foot with (1 := Hind).
      - reflexivity.
      - reflexivity.
      - intros ? ? ? [].
    Qed.

    Lemma no_conflict ths log m t a (w : bool) : inv ths log m -> t < n -> (if w then W t a else R t a) ->
      existsb (conflicts t a w) log = false.
    Proof.
      intros (_ & _ & _ & Hlog) Ht Ha. apply not_true_is_false. intros Hex.
      apply existsb_exists in Hex. destruct Hex as ([[t' a'] w'] & Hin & Hc).
      unfold conflicts in Hc. apply andb_true_iff in Hc. destruct Hc as [Hc Hw].
      apply andb_true_iff in Hc. destruct Hc as [Ht' Haa].
      destruct (eqb_spec a a'); [subst a'|discriminate].
      apply negb_true_iff, N.eqb_neq in Ht'.
      apply Hlog in Hin. destruct Hin as [Hn' Ha'].
      destruct w; simpl in Hw.
      - eapply (ind_disj _ _ _ _ _ Hind t t' a); eauto. destruct w'; auto.
      - subst w'. eapply (ind_disj _ _ _ _ _ Hind t' t a); eauto.
    Qed.

    Lemma exec_inv sched : forall ths log m, inv ths log m ->
      match exec valid n sched ths log m with
      | Finished r => (forall i a, i < n -> W i a -> r a = run1 (body i) m0 a) /\
                      (forall a, (forall i, i < n -> ~ W i a) -> r a = m0 a)
      | Unfinished => True
      | OutOfBounds => False
      | DataRace => False
      end.
    Proof.
      induction sched as [|t rest IH]; intros ths log m Hinv; simpl.
      - destruct (forallb (fun i => is_ret (ths i)) (seqN n)) eqn:E; [|trivial].
        rewrite forallb_forall in E. destruct Hinv as (_ & Hrun & Hun & _).
        split; [|assumption]. intros i a Hi Ha.
        rewrite <- Hrun by (unfold X; auto). specialize (E i (proj2 (in_seqN i n) Hi)).
        destruct (ths i); try discriminate. reflexivity.
      - destruct (N.ltb_spec t n) as [Ht|]; [|apply IH; assumption].
        pose proof Hinv as (Hfoot & Hrun & Hun & Hlog).
        pose proof (Hfoot t Ht) as Hft.
        destruct (ths t) as [|a k|a v q] eqn:Eth; [apply IH; assumption| |].
        + simpl in Hft. destruct Hft as [HRa Hk].
          rewrite (ind_valid _ _ _ _ _ Hind t a Ht) by auto. simpl.
          rewrite (no_conflict ths log m t a false Hinv Ht HRa). apply IH.
          split; [|split; [|split]].
          * intros i Hi. unfold set_thread. destruct (N.eqb_spec i t); [subst; auto|auto].
          * intros i b Hi Hb. unfold set_thread. destruct (N.eqb_spec i t) as [->|]; [|auto].
            rewrite <- Hrun by assumption. rewrite Eth. reflexivity.
          * assumption.
          * intros t' a' w' [Heq|Hin]; [injection Heq as <- <- <-; auto|eauto].
        + simpl in Hft. destruct Hft as [HWa Hq].
          rewrite (ind_valid _ _ _ _ _ Hind t a Ht) by auto. simpl.
          rewrite (no_conflict ths log m t a true Hinv Ht HWa). apply IH.
          split; [|split; [|split]].
          * intros i Hi. unfold set_thread. destruct (N.eqb_spec i t); [subst; auto|auto].
          * intros i b Hi Hb. unfold set_thread. destruct (N.eqb_spec i t) as [->|Hne].
            -- rewrite <- Hrun by assumption. rewrite Eth. reflexivity.
            -- rewrite <- Hrun by assumption.
               apply run1_local with (X := X i); auto.
               { apply foot_X; auto. }
               intros c Hc. apply upd_other. intros ->.
               eapply (ind_disj _ _ _ _ _ Hind t i a); eauto.
          * intros b Hb. rewrite upd_other; [auto|]. intros ->. eapply Hb; eauto.
          * intros t' a' w' [Heq|Hin]; [injection Heq as <- <- <-; auto|eauto].
    Qed.

    (** Sequential execution has the same characterisation. *)
    Lemma seq_list_spec l : forall m, NoDup l -> (forall i, In i l -> i < n) ->
      (forall i a, In i l -> X i a -> m a = m0 a) ->
      (forall i a, In i l -> W i a -> seq_list body l m a = run1 (body i) m0 a) /\
      (forall a, (forall i, In i l -> ~ W i a) -> seq_list body l m a = m a).
    Proof.
      induction l as [|j l IH]; intros m Hnd Hl Hm; simpl.
      - split; [intros ? ? []|reflexivity].
      - inversion Hnd as [|? ? Hj Hnd']; subst.
        assert (Hjn : j < n) by (apply Hl; now left).
        destruct (IH (run1 (body j) m)) as [IH1 IH2]; auto.
        { intros; apply Hl; now right. }
        { intros i a Hi Ha. rewrite (run1_frame (R j) (W j)).
          - apply (Hm i); [now right|assumption].
          - apply (ind_foot _ _ _ _ _ Hind); assumption.
          - intros HW. eapply (ind_disj _ _ _ _ _ Hind j i a); eauto; [apply Hl; now right|].
            intros ->; contradiction. }
        split.
        + intros i a [->|Hi] Ha; [|now apply IH1].
          rewrite IH2.
          * apply run1_local with (X := X i); [apply foot_X, (ind_foot _ _ _ _ _ Hind); assumption| |unfold X; auto].
            intros b Hb. apply (Hm i); [now left|assumption].
          * intros k Hk HW. eapply (ind_disj _ _ _ _ _ Hind i k a); eauto; [apply Hl; now right|].
            intros ->; contradiction.
        + intros a Ha. rewrite IH2 by (intros; apply Ha; now right).
          apply (run1_frame (R j) (W j)); [apply (ind_foot _ _ _ _ _ Hind); assumption|apply Ha; now left].
    Qed.

    Lemma seq_for_spec :
      (forall i a, i < n -> W i a -> seq_for n body m0 a = run1 (body i) m0 a) /\
      (forall a, (forall i, i < n -> ~ W i a) -> seq_for n body m0 a = m0 a).
    Proof.
      destruct (seq_list_spec (seqN n) m0) as [H1 H2].
      - apply NoDup_seqN.
      - intros i; apply in_seqN.
      - reflexivity.
      - split; intros.
        + apply H1; [now apply in_seqN|assumption].
        + apply H2. intros i Hi. apply in_seqN in Hi. auto.
    Qed.
  End Independent.

  Lemma exec_ext valid n sched : forall ths1 ths2 log m, (forall i, ths1 i = ths2 i) ->
    exec valid n sched ths1 log m = exec valid n sched ths2 log m.
  Proof.
    induction sched as [|u rest IH]; intros ths1 ths2 log m Hx; simpl.
    - replace (forallb (fun i => is_ret (ths1 i)) (seqN n)) with (forallb (fun i => is_ret (ths2 i)) (seqN n)); [reflexivity|].
      induction (seqN n); simpl; [reflexivity|]. rewrite Hx, IHl. reflexivity.
    - destruct (u <? n); [|now apply IH]. rewrite Hx.
      destruct (ths2 u) as [|b k'|b v q]; [now apply IH| |].
      + destruct (negb (valid b)); [reflexivity|]. destruct (existsb _ log); [reflexivity|].
        apply IH. intros i. unfold set_thread. destruct (i =? u); auto.
      + destruct (negb (valid b)); [reflexivity|]. destruct (existsb _ log); [reflexivity|].
        apply IH. intros i. unfold set_thread. destruct (i =? u); auto.
  Qed.

  (** Number of accesses of one iteration (a schedule that gives each iteration that many turns ends). *)
  Lemma exec_complete valid n body R W m0 : independent valid n body R W ->
    exists sched r, exec valid n sched body [] m0 = Finished r.
  Proof.
    intros Hind.
    (* finish the threads of [l] one by one *)
    assert (Hone : forall p ths log m t, t < n -> ths t = p -> inv n body R W m0 ths log m ->
              exists s log' m', (forall rest, exec valid n (s ++ rest) ths log m
                                          = exec valid n rest (set_thread ths t Ret) log' m') /\
                                inv n body R W m0 (set_thread ths t Ret) log' m').
    { induction p as [|a k IH|a v q IH]; intros ths log m t Ht Ep Hinv.
      - exists [t], log, m. split.
        + intros rest. simpl. destruct (N.ltb_spec t n); [|lia]. rewrite Ep.
          assert (Hx : forall i, set_thread ths t Ret i = ths i).
          { intros i. unfold set_thread. destruct (N.eqb_spec i t); congruence. }
          symmetry. now apply exec_ext.
        + destruct Hinv as (H1 & H2 & H3 & H4). split; [|split; [|split]]; auto.
          * intros i Hi. unfold set_thread. destruct (i =? t); simpl; auto.
          * intros i b Hi Hb. rewrite <- H2 by assumption. unfold set_thread.
            destruct (N.eqb_spec i t) as [->|]; [now rewrite Ep|reflexivity].
      - pose proof Hinv as (Hfoot & Hrun & Hun & Hlog). pose proof (Hfoot t Ht) as Hft. rewrite Ep in Hft.
        destruct Hft as [HRa Hk].
        destruct (IH (m a) (set_thread ths t (k (m a))) ((t, a, false) :: log) m t Ht) as (s & log' & m' & Hs & Hi').
        { unfold set_thread. now rewrite N.eqb_refl. }
        { split; [|split; [|split]].
          * intros i Hi. unfold set_thread. destruct (N.eqb_spec i t); [subst; auto|auto].
          * intros i b Hi Hb. unfold set_thread. destruct (N.eqb_spec i t) as [->|]; [|auto].
            rewrite <- Hrun by assumption. rewrite Ep. reflexivity.
          * assumption.
          * intros t' a' w' [Heq|Hin]; [injection Heq as <- <- <-; auto|eauto]. }
        exists (t :: s), log', m'.
        assert (Hx : forall p, forall i, set_thread (set_thread ths t p) t Ret i = set_thread ths t Ret i).
        { intros p i. unfold set_thread. destruct (i =? t); reflexivity. }
        split.
        + intros rest. simpl. destruct (N.ltb_spec t n); [|lia]. rewrite Ep.
          rewrite (ind_valid _ _ _ _ _ Hind t a Ht) by auto. simpl.
          rewrite (no_conflict valid n body R W m0 Hind ths log m t a false Hinv Ht HRa). rewrite Hs.
          apply exec_ext. apply Hx.
        + destruct Hi' as (H1 & H2 & H3 & H4). split; [|split; [|split]]; auto.
          * intros i Hi. rewrite <- (Hx (k (m a))). auto.
          * intros i b Hi Hb. rewrite <- (Hx (k (m a))). auto.
      - pose proof Hinv as (Hfoot & Hrun & Hun & Hlog). pose proof (Hfoot t Ht) as Hft. rewrite Ep in Hft.
        destruct Hft as [HWa Hq].
        destruct (IH (set_thread ths t q) ((t, a, true) :: log) (upd m a v) t Ht) as (s & log' & m' & Hs & Hi').
        { unfold set_thread. now rewrite N.eqb_refl. }
        { split; [|split; [|split]].
          * intros i Hi. unfold set_thread. destruct (N.eqb_spec i t); [subst; auto|auto].
          * intros i b Hi Hb. unfold set_thread. destruct (N.eqb_spec i t) as [->|Hne].
            -- rewrite <- Hrun by assumption. rewrite Ep. reflexivity.
            -- rewrite <- Hrun by assumption.
               apply run1_local with (X := fun a => R i a \/ W i a); auto.
               { eapply foot_mono; [| |apply Hfoot; assumption]; auto. }
               intros c Hc. apply upd_other. intros ->.
               eapply (ind_disj _ _ _ _ _ Hind t i a); eauto.
          * intros b Hb. rewrite upd_other; [auto|]. intros ->. eapply Hb; eauto.
          * intros t' a' w' [Heq|Hin]; [injection Heq as <- <- <-; auto|eauto]. }
        exists (t :: s), log', m'.
        assert (Hx : forall p, forall i, set_thread (set_thread ths t p) t Ret i = set_thread ths t Ret i).
        { intros p i. unfold set_thread. destruct (i =? t); reflexivity. }
        split.
        + intros rest. simpl. destruct (N.ltb_spec t n); [|lia]. rewrite Ep.
          rewrite (ind_valid _ _ _ _ _ Hind t a Ht) by auto. simpl.
          rewrite (no_conflict valid n body R W m0 Hind ths log m t a true Hinv Ht HWa). rewrite Hs.
          apply exec_ext. apply Hx.
        + destruct Hi' as (H1 & H2 & H3 & H4). split; [|split; [|split]]; auto.
          * intros i Hi. rewrite <- (Hx q). auto.
          * intros i b Hi Hb. rewrite <- (Hx q). auto. }
    assert (Hall : forall l ths log m, (forall i, In i l -> i < n) -> inv n body R W m0 ths log m ->
              (forall i, i < n -> ~ In i l -> ths i = Ret) ->
              exists sched r, exec valid n sched ths log m = Finished r).
    { induction l as [|t l IH]; intros ths log m Hl Hinv Hdone.
      - exists [], m. simpl. replace (forallb _ _) with true; [reflexivity|].
        symmetry. apply forallb_forall. intros i Hi. apply in_seqN in Hi. rewrite Hdone by auto. reflexivity.
      - destruct (Hone (ths t) ths log m t) as (s & log' & m' & Hs & Hi'); auto.
        { apply Hl; now left. }
        destruct (IH (set_thread ths t Ret) log' m') as (s' & r & Hr); auto.
        { intros; apply Hl; now right. }
        { intros i Hi Hni. unfold set_thread. destruct (N.eqb_spec i t); [reflexivity|].
          apply Hdone; [assumption|]. intros [->|]; congruence. }
        exists (s ++ s'), r. rewrite Hs. assumption. }
    apply (Hall (seqN n)).
    - intros i; apply in_seqN.
    - now apply inv_init with (valid := valid).
    - intros i Hi Hni. exfalso. apply Hni. now apply in_seqN.
  Qed.

  (** Main theorem: independent iterations have one result, that of the sequential loop. *)
  Theorem independent_par_computes valid n body R W m0 : independent valid n body R W ->
    (forall a, (exists i, i < n /\ W i a) \/ (forall i, i < n -> ~ W i a)) ->
    par_computes valid n body m0 (seq_for n body m0).
  Proof.
    intros Hind Hdec. split.
    - intros sched. unfold parallel_for.
      pose proof (exec_inv valid n body R W m0 Hind sched body [] m0
                    (inv_init valid n body R W m0 Hind)) as H.
      destruct (exec valid n sched body [] m0); auto.
      destruct H as [H1 H2]. destruct (seq_for_spec valid n body R W m0 Hind) as [S1 S2].
      intros a. destruct (Hdec a) as [(i & Hi & Ha)|Hn].
      + rewrite (H1 i a Hi Ha), (S1 i a Hi Ha). reflexivity.
      + rewrite (H2 a Hn), (S2 a Hn). reflexivity.
    - unfold parallel_for. eapply exec_complete; eassumption.
  Qed.

  (** Iterations that own disjoint parts of memory and otherwise only read a read-only part. *)
  Theorem owned_par_computes (valid : A -> bool) (n : N) (body : N -> prog) (m : mem)
      (ro dom : A -> bool) (owner : A -> N) :
    (forall a, dom a = true -> valid a = true /\ owner a < n /\ ro a = false) ->
    (forall a, ro a = true -> valid a = true) ->
    (forall i, i < n -> foot (fun a => ro a = true \/ (dom a = true /\ owner a = i))
                             (fun a => dom a = true /\ owner a = i) (body i)) ->
    par_computes valid n body m (fun a => if dom a then run1 (body (owner a)) m a else m a).
  Proof.
    intros Hdom Hro Hfoot.
    set (R := fun (i : N) (a : A) => ro a = true \/ (dom a = true /\ owner a = i)).
    set (W := fun (i : N) (a : A) => dom a = true /\ owner a = i).
    assert (Hind : independent valid n body R W).
    { constructor.
      - exact Hfoot.
      - intros i a _ [[H|[H _]]|[H _]]; auto; now apply Hdom.
      - intros i j a _ _ Hne [Hd Ho] [[Hr|[_ Ho']]|[_ Ho']]; [|congruence|congruence].
        apply Hdom in Hd. destruct Hd as (_ & _ & Hd). congruence. }
    pose proof (independent_par_computes valid n body R W m Hind) as [H1 H2].
    { intros a. destruct (dom a) eqn:E.
      - left. exists (owner a). split; [now apply Hdom|]. split; auto.
      - right. intros i _ [H _]. congruence. }
    split; [|exact H2]. intros sched. specialize (H1 sched).
    destruct (parallel_for valid n body m sched); auto. intros a. rewrite H1.
    destruct (seq_for_spec valid n body R W m Hind) as [S1 S2].
    destruct (dom a) eqn:E.
    - apply S1; [now apply Hdom|]. split; auto.
    - apply S2. intros i _ [H _]. congruence.
  Qed.

  Lemma par_computes_ext valid n body m m1 m2 : (forall a, m1 a = m2 a) ->
    par_computes valid n body m m1 -> par_computes valid n body m m2.
  Proof.
    intros E [H1 H2]. split; [|assumption]. intros sched. specialize (H1 sched).
    destruct (parallel_for valid n body m sched); auto. intros a. rewrite <- E. auto.
  Qed.
End Par.

Arguments Ret {V A}.
Arguments Rd {V A}.
Arguments Wr {V A}.
Arguments Finished {V A}.
Arguments Unfinished {V A}.
Arguments OutOfBounds {V A}.
Arguments DataRace {V A}.
Arguments run1 {V A} eqb p m _.
Arguments upd {V A} eqb m a v _.
Arguments seq_for {V A} eqb n body m _.
Arguments seq_list {V A} eqb body l m _.
Arguments foot {V A} R W p.
Arguments parallel_for {V A} eqb valid n body m sched.
Arguments par_computes {V A} eqb valid n body m m'.
Arguments independent {V A} valid n body R W.

(** ** Reductions: Kokkos::parallel_reduce joins partial results of disjoint groups of iterations in an
    unspecified grouping and order, starting each partial result from the identity. *)
Section Reduce.
  Variables (V : Type) (zero : V) (op : V -> V -> V).
  Hypothesis op_comm : forall a b, op a b = op b a.
  Hypothesis op_assoc : forall a b c, op a (op b c) = op (op a b) c.
  Hypothesis op_zero : forall a, op zero a = a.

  (** [reduces f l v]: [v] is a possible result of combining [f i] for the iterations in [l]. *)
  Inductive reduces (f : N -> V) : list N -> V -> Prop :=
  | red_id : reduces f [] zero
  | red_one i : reduces f [i] (f i)
  | red_join l1 l2 l v1 v2 : reduces f l1 v1 -> reduces f l2 v2 -> Permutation l (l1 ++ l2) ->
                             reduces f l (op v1 v2).

  Definition reduce_list (f : N -> V) (l : list N) : V := fold_right (fun i acc => op (f i) acc) zero l.

  Lemma reduce_list_app f l1 l2 : reduce_list f (l1 ++ l2) = op (reduce_list f l1) (reduce_list f l2).
  Proof.
    induction l1 as [|i l1 IH]; simpl; [now rewrite op_zero|]. fold (reduce_list f (l1 ++ l2)).
    rewrite IH, op_assoc. reflexivity.
  Qed.
  Lemma reduce_list_perm f l1 l2 : Permutation l1 l2 -> reduce_list f l1 = reduce_list f l2.
  Proof.
    induction 1; simpl; auto.
    - now rewrite IHPermutation.
    - rewrite !op_assoc. f_equal. apply op_comm.
    - congruence.
  Qed.
  Theorem reduces_unique f l v : reduces f l v -> v = reduce_list f l.
  Proof.
    induction 1; simpl.
    - reflexivity.
    - now rewrite op_comm, op_zero.
    - rewrite (reduce_list_perm f l (l1 ++ l2)) by assumption. rewrite reduce_list_app. congruence.
  Qed.
  Theorem reduces_exists f l : reduces f l (reduce_list f l).
  Proof.
    induction l as [|i l IH]; simpl; [constructor|].
    apply red_join with (l1 := [i]) (l2 := l); [constructor|assumption|reflexivity].
  Qed.
End Reduce.
Arguments reduces {V} zero op f _ _.
Arguments reduce_list {V} zero op f l.
