(** Pauli operators from one id per qubit. *)
From Verif Require Import Pauli PauliText PauliTextSpec OperatorProofs.
From Verif Require Export PauliTextProofs.
From Coq Require Import Lia ZifyBool ZifyN ZifyNat.
Open Scope N_scope.

(** ** One id per qubit *)
Lemma ids_lists ids coef : pauli_from_ids ids coef = pauli_from_lists (seqN (N.of_nat (List.length ids))) ids coef.
Proof. unfold pauli_from_ids, pauli_from_lists. unfold seqN. rewrite map_length, seq_length, Nat2N.id, Nat.eqb_refl. reflexivity. Qed.
Lemma combine_seqN_in (ids : list N) q id : In (q, id) (combine (seqN (N.of_nat (List.length ids))) ids) <-> nth_error ids (N.to_nat q) = Some id.
Proof.
  unfold seqN. rewrite Nat2N.id. assert (G : forall k, In (q, id) (combine (map N.of_nat (seq k (List.length ids))) ids) <->
    (k <= N.to_nat q)%nat /\ nth_error ids (N.to_nat q - k) = Some id).
  { induction ids as [|x ids IH]; intros k; cbn [List.length seq map combine].
    - split; [intros []|]. intros [_ H]. now destruct (N.to_nat q - k)%nat.
    - cbn [In]. rewrite IH. split.
      + intros [H|[H1 H2]]; [injection H as <- <-|].
        * split; [lia|]. now replace (N.to_nat (N.of_nat k) - k)%nat with 0%nat by lia.
        * split; [lia|]. now replace (N.to_nat q - k)%nat with (S (N.to_nat q - S k)) by lia.
      + intros [H1 H2]. destruct (Nat.eq_dec (N.to_nat q) k) as [E|E].
        * left. replace (N.to_nat q - k)%nat with 0%nat in H2 by lia. injection H2 as ->. f_equal. lia.
        * right. split; [lia|]. now replace (N.to_nat q - k)%nat with (S (N.to_nat q - S k)) in H2 by lia. }
  rewrite G, Nat.sub_0_r. split; [tauto|]. intros H. split; [lia|exact H].
Qed.
Definition legal_ids (ids : list N) : Prop := Forall (fun id => id < 4) ids /\ forall q, 64 <= q -> nth (N.to_nat q) ids 0 = 0.
Lemma combine_fst_nodup (l : list N) : NoDup l -> forall m : list N, NoDup (map fst (nontrivial (combine l m))).
Proof.
  induction 1 as [|x l Hx _ IH]; intros [|y m]; cbn [combine nontrivial filter map]; try constructor. specialize (IH m). unfold nontrivial in IH.
  destruct (negb _); [|exact IH]. cbn [map fst]. constructor; [|exact IH]. intros Hin. apply in_map_iff in Hin. destruct Hin as ([a b] & <- & Hin).
  apply filter_In in Hin. destruct Hin as [Hin _]. apply in_combine_l in Hin. now apply Hx.
Qed.
Lemma legal_ids_factors ids : legal_ids ids <-> legal_factors (combine (seqN (N.of_nat (List.length ids))) ids).
Proof.
  unfold legal_ids, legal_factors. rewrite !Forall_forall. split.
  - intros [H1 H2]. split; [|split].
    + intros [q id] H. cbn. apply in_combine_r in H. now apply H1.
    + intros [q id] H. apply filter_In in H. destruct H as [H Hn]. cbn in *. apply combine_seqN_in in H. destruct (N.lt_ge_cases q 64) as [|Hq]; [assumption|].
      specialize (H2 q Hq). apply nth_error_nth with (d := 0) in H. lia.
    + apply combine_fst_nodup. unfold seqN. apply FinFun.Injective_map_NoDup; [intros a b; lia|apply seq_NoDup].
  - intros (H1 & H2 & _). split.
    + intros id Hid. apply In_nth_error in Hid. destruct Hid as [k Hk]. specialize (H1 (N.of_nat k, id)). cbn in H1. apply H1. apply combine_seqN_in. now rewrite Nat2N.id.
    + intros q Hq. destruct (nth_error ids (N.to_nat q)) as [id|] eqn:E; [|now apply nth_overflow, nth_error_None].
      rewrite (nth_error_nth _ _ _ E). destruct (N.eqb_spec id 0) as [|Hn]; [assumption|]. exfalso. specialize (H2 (q, id)). cbn in H2.
      enough (q < 64) by lia. apply H2. apply filter_In. split; [now apply combine_seqN_in|]. cbn. lia.
Qed.
Lemma ids_accepts ids coef : legal_ids ids ->
  exists p, pauli_from_ids ids coef = Ok p /\ p_coef p = coef /\ p_bf p < two64 /\ p_pf p < two64 /\
    forall q, pauli_id_of (p_bf p) (p_pf p) q = nth (N.to_nat q) ids 0.
Proof.
  intros H. rewrite ids_lists. pose proof H as [H4 _]. apply legal_ids_factors in H.
  destruct (lists_accepts (seqN (N.of_nat (List.length ids))) ids coef) as (p & E & Hc & H1 & H2 & Hp); [unfold seqN; now rewrite map_length, seq_length, Nat2N.id|exact H|].
  exists p. repeat (split; [assumption|]). intros q. destruct (nth_error ids (N.to_nat q)) as [id|] eqn:En.
  - rewrite (nth_error_nth _ _ _ En). apply Hp. destruct (N.eqb_spec id 0) as [->|Hn].
    + right. split; [reflexivity|]. intros Hin. apply in_map_iff in Hin. destruct Hin as ([a b] & <- & Hin). apply filter_In in Hin. destruct Hin as [Hin Hb].
      apply combine_seqN_in in Hin. cbn in *. rewrite En in Hin. injection Hin as <-. discriminate.
    + left. apply filter_In. split; [now apply combine_seqN_in|]. cbn. lia.
  - rewrite (nth_overflow ids 0) by now apply nth_error_None. apply Hp. right. split; [reflexivity|]. intros Hin. apply in_map_iff in Hin. destruct Hin as ([a b] & <- & Hin).
    apply filter_In in Hin. destruct Hin as [Hin _]. apply combine_seqN_in in Hin. cbn [fst] in En. rewrite Hin in En. discriminate.
Qed.
Lemma ids_rejects ids coef : ~ legal_ids ids -> pauli_from_ids ids coef = Throw.
Proof. intros H. rewrite ids_lists. apply lists_rejects. intros [_ H']. apply H. now apply legal_ids_factors. Qed.
