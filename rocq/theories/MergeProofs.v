(** get_expanded_matrix: the matrix on the larger operand list acts like the original one. *)
From Verif Require Export Merge GatesProofs9.
From Coq Require Import ZifyBool ZifyN ZifyNat Permutation Sorting.Sorted.

(** ** Sequences of writes *)
Definition hits (r s : N) (w : N * N * C) : bool := (r =? fst (fst w)) && (s =? snd (fst w)).
Lemma fold_none l : forall (M : matrix) r s, (forall w, In w l -> hits r s w = false) -> fold_left em_write l M r s = M r s.
Proof.
  induction l as [|w l IH]; intros M r s H; simpl; [reflexivity|].
  rewrite IH by (intros; apply H; now right). unfold em_write. specialize (H w (or_introl eq_refl)). unfold hits in H. now rewrite H.
Qed.
Lemma fold_all l v : forall (M : matrix) r s, (forall w, In w l -> hits r s w = true -> snd w = v) ->
  (M r s = v \/ exists w, In w l /\ hits r s w = true) -> fold_left em_write l M r s = v.
Proof.
  induction l as [|w l IH]; intros M r s H Hex; simpl.
  - destruct Hex as [|[w [[] _]]]; assumption.
  - apply IH.
    + intros; apply H; [now right|assumption].
    + unfold em_write. destruct (hits r s w) eqn:E.
      * left. unfold hits in E. rewrite E. apply H; [now left|exact E].
      * unfold hits in E. rewrite E. destruct Hex as [Hm|[w' [Hin Hh]]]; [now left|]. destruct Hin as [->|Hin].
        -- unfold hits in Hh. congruence.
        -- right. exists w'. auto.
Qed.
Lemma seqN_split i d : i < d -> seqN d = seqN i ++ i :: map (fun k => i + 1 + k) (seqN (d - i - 1)).
Proof.
  intros H. unfold seqN. replace (N.to_nat d) with (N.to_nat i + S (N.to_nat (d - i - 1)))%nat by lia.
  rewrite seq_app, map_app. f_equal. cbn [seq map plus]. f_equal; [lia|]. rewrite map_map.
  assert (G : forall k s, map N.of_nat (seq (s + S (N.to_nat i)) k) = map (fun x => i + 1 + N.of_nat x) (seq s k)).
  { induction k as [|k IH]; intros s; simpl; [reflexivity|]. f_equal; [lia|]. exact (IH (S s)). }
  exact (G _ 0%nat).
Qed.
Lemma flat_map_app' {T U} (f : T -> list U) l1 l2 : flat_map f (l1 ++ l2) = flat_map f l1 ++ flat_map f l2.
Proof. induction l1; simpl; [reflexivity|]. now rewrite IHl1, app_assoc. Qed.

(** ** Moving bits through a sub-list of operands *)
Section Sub.
  Variables (ops ts : list N).
  Hypothesis Hops : incr ops.
  Hypothesis Hts : NoDup ts.
  Hypothesis Hsub : incl ts ops.
  Definition opos (q : N) : N := lower_bound ops q.
  Lemma opos_nth q : In q ops -> nth_error ops (N.to_nat (opos q)) = Some q.
  Proof. now apply lower_bound_nth. Qed.
  Lemma opos_lt q : In q ops -> opos q < N.of_nat (length ops).
  Proof. intros H. apply opos_nth in H. assert (nth_error ops (N.to_nat (opos q)) <> None) by congruence. apply nth_error_Some in H0. lia. Qed.
  Lemma opos_inj p q : In p ops -> In q ops -> opos p = opos q -> p = q.
  Proof. intros Hp Hq E. apply opos_nth in Hp, Hq. rewrite E in Hp. congruence. Qed.
  Lemma gather_opos x q : In q ops -> N.testbit (gather ops x) (opos q) = N.testbit x q.
  Proof. intros H. rewrite <- (N2Nat.id (opos q)), gather_tb, opos_nth by assumption. reflexivity. Qed.
  Lemma scatter_opos j x q : In q ops -> N.testbit (scatter ops j x) q = N.testbit j (opos q).
  Proof. intros H. rewrite (scatter_in ops j x (N.to_nat (opos q))); [now rewrite N2Nat.id|now apply incr_NoDup|now apply opos_nth]. Qed.
  Lemma opos_surj p : p < N.of_nat (length ops) -> exists q, In q ops /\ opos q = p.
  Proof.
    intros H. destruct (nth_error ops (N.to_nat p)) as [q|] eqn:E; [|apply nth_error_None in E; lia].
    exists q. pose proof (nth_error_In _ _ E) as Hin. split; [assumption|]. pose proof (opos_nth q Hin) as E'.
    assert (N.to_nat (opos q) = N.to_nat p); [|lia]. eapply NoDup_nth_error; [eapply incr_NoDup, Hops| |congruence].
    apply nth_error_Some. congruence.
  Qed.
  Lemma opos_NoDup : NoDup (map opos ts).
  Proof. apply NoDup_map_inj; [|assumption]. intros p q Hp Hq. apply opos_inj; auto. Qed.
  Lemma gather_gather x : gather (map opos ts) (gather ops x) = gather ts x.
  Proof.
    clear Hts. induction ts as [|t r IH]; simpl; [reflexivity|]. rewrite gather_opos by (apply Hsub; now left).
    rewrite IH; [reflexivity|]. intros y Hy. apply Hsub. now right.
  Qed.
  Lemma scatter_scatter_ops j x : scatter ops (scatter (map opos ts) j (gather ops x)) x = scatter ts j x.
  Proof.
    apply N.bits_inj. intros i. destruct (in_dec_N i ops) as [Hi|Hi].
    - rewrite scatter_opos by assumption. destruct (in_dec_N i ts) as [Ht|Ht].
      + apply In_nth_error in Ht. destruct Ht as [k Hk]. rewrite (scatter_in ts j x k) by assumption.
        apply (scatter_in _ _ _ k); [apply opos_NoDup|]. now apply map_nth_error.
      + rewrite (scatter_out ts) by assumption. rewrite scatter_out; [now apply gather_opos|].
        intros H. apply in_map_iff in H. destruct H as (q & E & Hq). apply opos_inj in E; auto. now subst.
    - rewrite scatter_out by assumption. rewrite scatter_out; [reflexivity|]. auto.
  Qed.
  Lemma ctrl_ok_gather cs x : (forall p, In p cs -> In (fst p) ops) ->
    ctrl_ok (map (fun p => (opos (fst p), snd p)) cs) (gather ops x) = ctrl_ok cs x.
  Proof.
    intros H. unfold ctrl_ok. induction cs as [|[q v] cs IH]; simpl; [reflexivity|].
    rewrite gather_opos by (apply (H (q, v)); now left). f_equal. apply IH. intros; apply H; now right.
  Qed.
End Sub.

(** The matrix that applies [M] to the positions [ts] under controls at positions [cs]. *)
Definition embed (ts : list N) (cs : list (N * bool)) (M : matrix) : matrix :=
  fun r s => if ctrl_ok cs r
             then (if scatter ts 0 r =? scatter ts 0 s then M (gather ts r) (gather ts s) else C0)
             else (if r =? s then C1 else C0).
Lemma scatter_zero_eq ts r s : NoDup ts -> scatter ts 0 r = scatter ts 0 s <-> s = scatter ts (gather ts s) r.
Proof.
  intros Hnd. split.
  - intros E. rewrite <- (scatter_gather ts s Hnd) at 1. rewrite <- (scatter_scatter ts _ 0 s Hnd), <- E. now apply scatter_scatter.
  - intros E. rewrite E. symmetry. now apply scatter_scatter.
Qed.
Lemma apply_embed ops ts cs M psi x : incr ops -> NoDup ts -> incl ts ops -> (forall p, In p cs -> In (fst p) ops) ->
  apply_mat ops [] (embed (map (opos ops) ts) (map (fun p => (opos ops (fst p), snd p)) cs) M) psi x = apply_mat ts cs M psi x.
Proof.
  intros Hops Hts Hsub Hcs. unfold apply_mat at 1. cbn [ctrl_ok forallb]. unfold embed.
  pose proof (opos_NoDup ops ts Hops Hts Hsub) as Hnd. pose proof (incr_NoDup _ Hops) as Hond.
  set (ts' := map (opos ops) ts) in *. set (y := gather ops x). set (k := 2 ^ N.of_nat (length ops)).
  assert (Hlt : Forall (fun q => q < N.of_nat (length ops)) ts').
  { apply Forall_forall. intros p Hp. unfold ts' in Hp. apply in_map_iff in Hp. destruct Hp as (q & <- & Hq). apply opos_lt; auto. }
  assert (Hy : y < k) by apply gather_lt.
  unfold y at 1. rewrite ctrl_ok_gather by assumption. unfold apply_mat. destruct (ctrl_ok cs x) eqn:Ec.
  - set (d := 2 ^ N.of_nat (length ts)).
    transitivity (Csum k (fun s => Csum d (fun j => if s =? scatter ts' j y then (M (gather ts' y) j * psi (scatter ops s x))%C else C0))).
    { apply Csum_ext. intros s Hs.
      destruct (N.eqb_spec (scatter ts' 0 y) (scatter ts' 0 s)) as [E|E].
      - apply scatter_zero_eq in E; [|assumption]. rewrite (Csum_single d _ (gather ts' s)).
        + rewrite <- E, N.eqb_refl. reflexivity.
        + unfold d. replace (length ts) with (length ts') by (unfold ts'; now rewrite map_length). apply gather_lt.
        + intros i Hi Hne. destruct (N.eqb_spec s (scatter ts' i y)) as [E'|]; [|reflexivity]. exfalso. apply Hne. rewrite E'.
          symmetry. apply gather_scatter; [assumption|]. unfold ts'. now rewrite map_length.
      - rewrite Csum_zero; [ring|]. intros i Hi. destruct (N.eqb_spec s (scatter ts' i y)) as [E'|]; [|reflexivity]. exfalso. apply E.
        apply scatter_zero_eq; [assumption|]. rewrite E' at 1. f_equal. rewrite E'. symmetry. apply gather_scatter; [assumption|].
        unfold ts'. now rewrite map_length. }
    rewrite Csum_swap. apply Csum_ext. intros j Hj. rewrite (Csum_single k _ (scatter ts' j y)).
    + rewrite N.eqb_refl. unfold ts', y. rewrite gather_gather, scatter_scatter_ops by assumption. reflexivity.
    + apply scatter_lt; assumption.
    + intros i _ Hne. destruct (N.eqb_spec i (scatter ts' j y)); [congruence|reflexivity].
  - rewrite (Csum_single k _ y).
    + rewrite N.eqb_refl. unfold y. rewrite scatter_gather by assumption. ring.
    + assumption.
    + intros i _ Hne. destruct (N.eqb_spec y i); [congruence|ring].
Qed.
