(** Parallel loops whose iterations also use Kokkos::atomic_add.

    As in Par.v an iteration issues single accesses and a schedule decides whose access comes next.  Besides reads
    and writes there are atomic additions.  Two accesses to the same address by different iterations race unless
    both are reads or both are atomic additions. *)
From Verif Require Export Prelude Cplx.

Section Atomic.
  Context {A : Type} (eqb : A -> A -> bool).
  Hypothesis eqb_spec : forall a b, reflect (a = b) (eqb a b).

  Inductive aprog : Type :=
  | ARet
  | ARd (a : A) (k : C -> aprog)
  | AWr (a : A) (v : C) (p : aprog)
  | AAdd (a : A) (v : C) (p : aprog).
  Definition amem := A -> C.
  Definition aupd (m : amem) (a : A) (v : C) : amem := fun b => if eqb b a then v else m b.

  Inductive akind : Type := KRead | KWrite | KAdd.
  Definition compatible (x y : akind) : bool :=
    match x, y with KRead, KRead => true | KAdd, KAdd => true | _, _ => false end.
  Definition aaccess : Type := (N * A * akind)%type.
  Definition aconflicts (t : N) (a : A) (x : akind) (e : aaccess) : bool :=
    let '(t', a', y) := e in negb (t =? t') && eqb a a' && negb (compatible x y).

  Inductive aoutcome : Type :=
  | AFinished (m : amem)
  | AUnfinished
  | AOutOfBounds
  | ADataRace.
  Definition ais_ret (p : aprog) : bool := match p with ARet => true | _ => false end.
  Definition aset (ths : N -> aprog) (t : N) (p : aprog) : N -> aprog := fun i => if i =? t then p else ths i.

  Section Exec.
    Variable valid : A -> bool.
    Variable n : N.
    Fixpoint aexec (sched : list N) (ths : N -> aprog) (log : list aaccess) (m : amem) : aoutcome :=
      match sched with
      | [] => if forallb (fun i => ais_ret (ths i)) (seqN n) then AFinished m else AUnfinished
      | t :: rest =>
        if t <? n then
          match ths t with
          | ARet => aexec rest ths log m
          | ARd a k =>
            if negb (valid a) then AOutOfBounds
            else if existsb (aconflicts t a KRead) log then ADataRace
            else aexec rest (aset ths t (k (m a))) ((t, a, KRead) :: log) m
          | AWr a v q =>
            if negb (valid a) then AOutOfBounds
            else if existsb (aconflicts t a KWrite) log then ADataRace
            else aexec rest (aset ths t q) ((t, a, KWrite) :: log) (aupd m a v)
          | AAdd a v q =>
            if negb (valid a) then AOutOfBounds
            else if existsb (aconflicts t a KAdd) log then ADataRace
            else aexec rest (aset ths t q) ((t, a, KAdd) :: log) (aupd m a (m a + v)%C)
          end
        else aexec rest ths log m
      end.
  End Exec.
  Definition aparallel_for (valid : A -> bool) (n : N) (body : N -> aprog) (m : amem) (sched : list N) : aoutcome :=
    aexec valid n sched body [] m.
  (** safe and deterministic, as par_computes *)
  Definition apar_computes (valid : A -> bool) (n : N) (body : N -> aprog) (m m' : amem) : Prop :=
    (forall sched, match aparallel_for valid n body m sched with
                   | AFinished r => forall a, r a = m' a
                   | AUnfinished => True
                   | AOutOfBounds => False
                   | ADataRace => False
                   end) /\
    (exists sched r, aparallel_for valid n body m sched = AFinished r).

  (** ** A sufficient condition: every cell is read-only, or private to one iteration, or only added to *)
  Inductive cell : Type := ReadOnly | Shared | Own (t : N).
  Fixpoint arun (p : aprog) (m : amem) : amem :=
    match p with
    | ARet => m
    | ARd a k => arun (k (m a)) m
    | AWr a v q => arun q (aupd m a v)
    | AAdd a v q => arun q (aupd m a (m a + v)%C)
    end.
  (** what the rest of an iteration still adds atomically to a cell *)
  Fixpoint apend (p : aprog) (m : amem) (a : A) : C :=
    match p with
    | ARet => C0
    | ARd b k => apend (k (m b)) m a
    | AWr b v q => apend q (aupd m b v) a
    | AAdd b v q => ((if eqb a b then v else C0) + apend q (aupd m b (m b + v)%C) a)%C
    end.

  Section Proof.
    Variables (valid : A -> bool) (n : N) (body : N -> aprog) (m0 : amem) (cls : A -> cell).
    Fixpoint afoot (t : N) (p : aprog) : Prop :=
      match p with
      | ARet => True
      | ARd a k => valid a = true /\ (cls a = ReadOnly \/ cls a = Own t) /\ forall v, afoot t (k v)
      | AWr a v q => valid a = true /\ cls a = Own t /\ afoot t q
      | AAdd a v q => valid a = true /\ (cls a = Shared \/ cls a = Own t) /\ afoot t q
      end.
    Hypothesis Hfoot : forall t, t < n -> afoot t (body t).

    Definition afinal (a : A) : C :=
      match cls a with
      | ReadOnly => m0 a
      | Own t => if t <? n then arun (body t) m0 a else m0 a
      | Shared => (m0 a + Csum n (fun t => apend (body t) m0 a))%C
      end.

    Lemma aupd_same m a v : aupd m a v a = v.
    Proof. unfold aupd. destruct (eqb_spec a a); congruence. Qed.
    Lemma aupd_other m a v b : b <> a -> aupd m a v b = m b.
    Proof. unfold aupd. intros. destruct (eqb_spec b a); congruence. Qed.

    Definition agree (t : N) (m1 m2 : amem) : Prop := forall a, cls a = ReadOnly \/ cls a = Own t -> m1 a = m2 a.
    Lemma agree_upd t m1 m2 a v1 v2 : agree t m1 m2 -> (cls a = Own t -> v1 = v2) -> cls a <> ReadOnly -> agree t (aupd m1 a v1) (aupd m2 a v2).
    Proof.
      intros H Hv Hr b Hb. unfold aupd. destruct (eqb_spec b a) as [->|]; [|now apply H]. destruct Hb as [Hb|Hb]; [contradiction|auto].
    Qed.
    Lemma agree_foreign t m a v : cls a <> ReadOnly -> cls a <> Own t -> agree t (aupd m a v) m.
    Proof. intros H1 H2 b Hb. apply aupd_other. intros ->. tauto. Qed.
    Lemma local t p : forall m1 m2, afoot t p -> agree t m1 m2 ->
      (forall a, apend p m1 a = apend p m2 a) /\ (forall a, cls a = Own t -> arun p m1 a = arun p m2 a).
    Proof.
      induction p as [|b k IH|b v q IH|b v q IH]; intros m1 m2 Hf Ha; simpl in Hf |- *.
      - split; [reflexivity|]. intros a E. apply Ha. now right.
      - destruct Hf as (_ & Hb & Hf). rewrite (Ha b Hb). now apply IH.
      - destruct Hf as (_ & Hb & Hf). apply IH; [assumption|]. apply agree_upd; auto. congruence.
      - destruct Hf as (_ & Hb & Hf).
        assert (Ha' : agree t (aupd m1 b (m1 b + v)%C) (aupd m2 b (m2 b + v)%C)).
        { apply agree_upd; [assumption| |destruct Hb; congruence]. intros E. f_equal. apply Ha. now right. }
        destruct (IH _ _ Hf Ha') as [H1 H2]. split; [|assumption]. intros a. now rewrite H1.
    Qed.

    Definition log_ok (e : aaccess) : Prop :=
      let '(t, a, x) := e in
      match x with
      | KRead => cls a = ReadOnly \/ cls a = Own t
      | KWrite => cls a = Own t
      | KAdd => cls a = Shared \/ cls a = Own t
      end.
    Record ainv (ths : N -> aprog) (log : list aaccess) (m : amem) : Prop := {
      ai_foot : forall t, t < n -> afoot t (ths t);
      ai_log : Forall log_ok log;
      ai_ro : forall a, cls a = ReadOnly -> m a = m0 a;
      ai_own : forall a t, cls a = Own t -> if t <? n then arun (ths t) m a = arun (body t) m0 a else m a = m0 a;
      ai_shared : forall a, cls a = Shared -> (m a + Csum n (fun t => apend (ths t) m a) = m0 a + Csum n (fun t => apend (body t) m0 a))%C
    }.
    Lemma ainv_init : ainv body [] m0.
    Proof. constructor; auto. intros a t _. destruct (t <? n); reflexivity. Qed.

    Lemma no_aconflict ths log m t a x : ainv ths log m -> log_ok (t, a, x) -> existsb (aconflicts t a x) log = false.
    Proof.
      intros I Hx. destruct (existsb (aconflicts t a x) log) eqn:E; [|reflexivity]. exfalso.
      apply existsb_exists in E as [[[t' a'] y] [Hin E]]. pose proof (ai_log _ _ _ I) as HL. rewrite Forall_forall in HL.
      specialize (HL _ Hin). unfold aconflicts in E. apply andb_prop in E as [E E3]. apply andb_prop in E as [E1 E2].
      destruct (eqb_spec a a') as [<-|]; [|discriminate]. apply negb_true_iff, N.eqb_neq in E1. simpl in Hx, HL.
      destruct x, y; simpl in E3; try discriminate; intuition congruence.
    Qed.
    Lemma Csum_change f g t : t < n -> (forall i, i < n -> i <> t -> f i = g i) -> (Csum n f + g t = Csum n g + f t)%C.
    Proof.
      intros Ht H.
      assert (E : (Csum n f = Csum n g + Csum n (fun i => if N.eqb i t then f t - g t else C0))%C).
      { rewrite <- Csum_add. apply Csum_ext. intros i Hi. destruct (N.eqb_spec i t) as [->|Hne]; [ring|]. rewrite (H i Hi Hne). ring. }
      rewrite E, (Csum_single n (fun i => if N.eqb i t then f t - g t else C0)%C t Ht).
      - rewrite N.eqb_refl. ring.
      - intros i Hi Hne. apply N.eqb_neq in Hne. now rewrite Hne.
    Qed.

    (** one access preserves the invariant *)
    Lemma step_rd ths log m t a k : ainv ths log m -> t < n -> ths t = ARd a k ->
      ainv (aset ths t (k (m a))) ((t, a, KRead) :: log) m.
    Proof.
      intros I Ht E. pose proof (ai_foot _ _ _ I t Ht) as F. rewrite E in F. destruct F as (Hv & Hc & Hf).
      constructor.
      - intros u Hu. unfold aset. destruct (N.eqb_spec u t) as [->|]; [apply Hf|now apply (ai_foot _ _ _ I)].
      - constructor; [exact Hc|apply (ai_log _ _ _ I)].
      - apply (ai_ro _ _ _ I).
      - intros b u Hb. pose proof (ai_own _ _ _ I b u Hb) as H. destruct (u <? n); [|assumption]. unfold aset. destruct (N.eqb_spec u t) as [->|]; [|assumption].
        rewrite E in H. exact H.
      - intros b Hb. rewrite <- (ai_shared _ _ _ I b Hb). f_equal. apply Csum_ext. intros u Hu. unfold aset. destruct (N.eqb_spec u t) as [->|]; [|reflexivity].
        now rewrite E.
    Qed.
    Lemma foreign_same ths log m t a v : ainv ths log m -> cls a = Shared \/ cls a = Own t ->
      forall u, u < n -> u <> t -> (forall b, apend (ths u) (aupd m a v) b = apend (ths u) m b) /\
        (forall b, cls b = Own u -> arun (ths u) (aupd m a v) b = arun (ths u) m b).
    Proof.
      intros I Hc u Hu Hne. apply (local u); [now apply (ai_foot _ _ _ I)|]. apply agree_foreign; destruct Hc as [Hc|Hc]; rewrite Hc; congruence.
    Qed.
    Lemma step_wr ths log m t a v q : ainv ths log m -> t < n -> ths t = AWr a v q ->
      ainv (aset ths t q) ((t, a, KWrite) :: log) (aupd m a v).
    Proof.
      intros I Ht E. pose proof (ai_foot _ _ _ I t Ht) as F. rewrite E in F. destruct F as (Hv & Hc & Hf).
      pose proof (foreign_same ths log m t a v I (or_intror Hc)) as FS.
      constructor.
      - intros u Hu. unfold aset. destruct (N.eqb_spec u t) as [->|]; [apply Hf|now apply (ai_foot _ _ _ I)].
      - constructor; [exact Hc|apply (ai_log _ _ _ I)].
      - intros b Hb. rewrite aupd_other by congruence. now apply (ai_ro _ _ _ I).
      - intros b u Hb. pose proof (ai_own _ _ _ I b u Hb) as H. destruct (N.ltb_spec u n) as [Hu|Hu].
        + unfold aset. destruct (N.eqb_spec u t) as [->|Hne].
          * rewrite E in H. exact H.
          * rewrite (proj2 (FS u Hu Hne) b Hb). exact H.
        + rewrite aupd_other; [assumption|]. intros ->. assert (u = t) by congruence. lia.
      - intros b Hb. rewrite <- (ai_shared _ _ _ I b Hb). rewrite aupd_other by congruence. f_equal. apply Csum_ext. intros u Hu.
        unfold aset. destruct (N.eqb_spec u t) as [->|Hne]; [now rewrite E|]. apply (FS u Hu Hne).
    Qed.
    Lemma step_add ths log m t a v q : ainv ths log m -> t < n -> ths t = AAdd a v q ->
      ainv (aset ths t q) ((t, a, KAdd) :: log) (aupd m a (m a + v)%C).
    Proof.
      intros I Ht E. pose proof (ai_foot _ _ _ I t Ht) as F. rewrite E in F. destruct F as (Hv & Hc & Hf).
      pose proof (foreign_same ths log m t a (m a + v)%C I Hc) as FS.
      constructor.
      - intros u Hu. unfold aset. destruct (N.eqb_spec u t) as [->|]; [apply Hf|now apply (ai_foot _ _ _ I)].
      - constructor; [exact Hc|apply (ai_log _ _ _ I)].
      - intros b Hb. rewrite aupd_other by (destruct Hc; congruence). now apply (ai_ro _ _ _ I).
      - intros b u Hb. pose proof (ai_own _ _ _ I b u Hb) as H. destruct (N.ltb_spec u n) as [Hu|Hu].
        + unfold aset. destruct (N.eqb_spec u t) as [->|Hne].
          * rewrite E in H. exact H.
          * rewrite (proj2 (FS u Hu Hne) b Hb). exact H.
        + rewrite aupd_other; [assumption|]. intros ->. destruct Hc as [Hc|Hc]; [congruence|]. assert (u = t) by congruence. lia.
      - intros b Hb. rewrite <- (ai_shared _ _ _ I b Hb).
        set (f := fun u => apend (aset ths t q u) (aupd m a (m a + v)%C) b).
        set (g := fun u => apend (ths u) m b).
        assert (Hfg : (Csum n f + g t = Csum n g + f t)%C).
        { apply Csum_change; [assumption|]. intros u Hu Hne. unfold f, g, aset. apply N.eqb_neq in Hne as Hne'. rewrite Hne'. now apply (FS u Hu Hne). }
        assert (Hft : f t = apend q (aupd m a (m a + v)%C) b) by (unfold f, aset; now rewrite N.eqb_refl).
        assert (Hgt : (g t = (if eqb b a then v else C0) + f t)%C) by (rewrite Hft; unfold g; rewrite E; reflexivity).
        assert (Hs : (Csum n g = Csum n f + (if eqb b a then v else C0))%C).
        { rewrite Hgt in Hfg. transitivity (Csum n g + f t - f t)%C; [ring|]. rewrite <- Hfg. ring. }
        rewrite Hs. unfold aupd. destruct (eqb_spec b a) as [->|]; ring.
    Qed.

    Lemma afinal_of ths log m : ainv ths log m -> (forall t, t < n -> ths t = ARet) -> forall a, m a = afinal a.
    Proof.
      intros I HR a. unfold afinal. destruct (cls a) as [| |t] eqn:Hc.
      - now apply (ai_ro _ _ _ I).
      - rewrite <- (ai_shared _ _ _ I a Hc). rewrite (Csum_ext n _ (fun _ => C0)); [|intros t Ht; now rewrite HR].
        rewrite Csum_zero by reflexivity. ring.
      - pose proof (ai_own _ _ _ I a t Hc) as H. destruct (N.ltb_spec t n) as [Ht|]; [|assumption]. now rewrite HR in H.
    Qed.
    Lemma aexec_inv sched : forall ths log m, ainv ths log m ->
      match aexec valid n sched ths log m with
      | AFinished r => forall a, r a = afinal a
      | AUnfinished => True
      | _ => False
      end.
    Proof.
      induction sched as [|t sched IH]; intros ths log m I; simpl.
      - destruct (forallb _ _) eqn:E; [|exact Logic.I]. rewrite forallb_forall in E.
        apply (afinal_of ths log m I). intros t Ht. specialize (E t (proj2 (in_seqN _ _) Ht)). destruct (ths t); try discriminate. reflexivity.
      - destruct (N.ltb_spec t n) as [Ht|]; [|now apply IH]. pose proof (ai_foot _ _ _ I t Ht) as F. destruct (ths t) as [|a k|a v q|a v q] eqn:E.
        + now apply IH.
        + destruct F as (Hv & Hc & Hf). rewrite Hv. simpl negb. cbv iota. rewrite (no_aconflict ths log m t a KRead I Hc). now apply IH, step_rd.
        + destruct F as (Hv & Hc & Hf). rewrite Hv. simpl negb. cbv iota. rewrite (no_aconflict ths log m t a KWrite I Hc). now apply IH, step_wr.
        + destruct F as (Hv & Hc & Hf). rewrite Hv. simpl negb. cbv iota. rewrite (no_aconflict ths log m t a KAdd I Hc). now apply IH, step_add.
    Qed.

    (** completion *)
    Lemma one_thread t : t < n -> forall p ths log m, ainv ths log m -> ths t = p ->
      exists s ths' log' m', ainv ths' log' m' /\ ths' t = ARet /\ (forall u, u <> t -> ths' u = ths u) /\
        forall rest, aexec valid n (s ++ rest) ths log m = aexec valid n rest ths' log' m'.
    Proof.
      intros Ht p. induction p as [|a k IH|a v q IH|a v q IH]; intros ths log m I E.
      - exists [], ths, log, m. auto.
      - pose proof (ai_foot _ _ _ I t Ht) as F. rewrite E in F. destruct F as (Hv & Hc & Hf).
        destruct (IH (m a) (aset ths t (k (m a))) ((t, a, KRead) :: log) m) as (s & ths' & log' & m' & H1 & H2 & H3 & H4).
        { now apply step_rd. } { unfold aset. now rewrite N.eqb_refl. }
        exists (t :: s), ths', log', m'. split; [assumption|]. split; [assumption|]. split.
        + intros u Hu. rewrite H3 by assumption. unfold aset. apply N.eqb_neq in Hu. now rewrite Hu.
        + intros rest. simpl. apply N.ltb_lt in Ht. rewrite Ht, E, Hv. simpl negb. cbv iota. rewrite (no_aconflict ths log m t a KRead I Hc). apply H4.
      - pose proof (ai_foot _ _ _ I t Ht) as F. rewrite E in F. destruct F as (Hv & Hc & Hf).
        destruct (IH (aset ths t q) ((t, a, KWrite) :: log) (aupd m a v)) as (s & ths' & log' & m' & H1 & H2 & H3 & H4).
        { now apply step_wr. } { unfold aset. now rewrite N.eqb_refl. }
        exists (t :: s), ths', log', m'. split; [assumption|]. split; [assumption|]. split.
        + intros u Hu. rewrite H3 by assumption. unfold aset. apply N.eqb_neq in Hu. now rewrite Hu.
        + intros rest. simpl. apply N.ltb_lt in Ht. rewrite Ht, E, Hv. simpl negb. cbv iota. rewrite (no_aconflict ths log m t a KWrite I Hc). apply H4.
      - pose proof (ai_foot _ _ _ I t Ht) as F. rewrite E in F. destruct F as (Hv & Hc & Hf).
        destruct (IH (aset ths t q) ((t, a, KAdd) :: log) (aupd m a (m a + v)%C)) as (s & ths' & log' & m' & H1 & H2 & H3 & H4).
        { now apply step_add. } { unfold aset. now rewrite N.eqb_refl. }
        exists (t :: s), ths', log', m'. split; [assumption|]. split; [assumption|]. split.
        + intros u Hu. rewrite H3 by assumption. unfold aset. apply N.eqb_neq in Hu. now rewrite Hu.
        + intros rest. simpl. apply N.ltb_lt in Ht. rewrite Ht, E, Hv. simpl negb. cbv iota. rewrite (no_aconflict ths log m t a KAdd I Hc). apply H4.
    Qed.
    Lemma all_threads l : (forall t, In t l -> t < n) -> forall ths log m, ainv ths log m ->
      exists s ths' log' m', ainv ths' log' m' /\ (forall t, In t l -> ths' t = ARet) /\ (forall t, ths t = ARet -> ths' t = ARet) /\
        forall rest, aexec valid n (s ++ rest) ths log m = aexec valid n rest ths' log' m'.
    Proof.
      induction l as [|t l IH]; intros Hl ths log m I.
      - exists [], ths, log, m. firstorder.
      - destruct (one_thread t (Hl t (or_introl eq_refl)) (ths t) ths log m I eq_refl) as (s1 & ths1 & log1 & m1 & I1 & R1 & O1 & E1).
        destruct (IH (fun u Hu => Hl u (or_intror Hu)) ths1 log1 m1 I1) as (s2 & ths2 & log2 & m2 & I2 & R2 & O2 & E2).
        exists (s1 ++ s2), ths2, log2, m2. split; [assumption|]. split; [|split].
        + intros u [<-|Hu]; [now apply O2|now apply R2].
        + intros u Hu. apply O2. destruct (N.eq_dec u t) as [->|]; [assumption|]. now rewrite O1.
        + intros rest. rewrite <- app_assoc, E1. apply E2.
    Qed.
    Theorem atomic_par_computes : apar_computes valid n body m0 afinal.
    Proof.
      split.
      - intros sched. pose proof (aexec_inv sched body [] m0 ainv_init) as H. unfold aparallel_for. destruct (aexec _ _ _ _ _ _); auto.
      - destruct (all_threads (seqN n) (fun t Ht => proj1 (in_seqN _ _) Ht) body [] m0 ainv_init) as (s & ths & log & m & I & R & _ & E).
        exists s, m. unfold aparallel_for. rewrite <- (app_nil_r s), E. simpl.
        rewrite (proj2 (forallb_forall _ _)); [reflexivity|]. intros t Ht. now rewrite R.
    Qed.
  End Proof.

  Lemma apar_computes_ext valid n body m m1 m2 : (forall a, m1 a = m2 a) ->
    apar_computes valid n body m m1 -> apar_computes valid n body m m2.
  Proof.
    intros E [H1 H2]. split; [|assumption]. intros sched. specialize (H1 sched).
    destruct (aparallel_for valid n body m sched); auto. intros a. rewrite <- E. auto.
  Qed.
End Atomic.
Arguments aprog A : clear implicits.
Arguments aoutcome A : clear implicits.
