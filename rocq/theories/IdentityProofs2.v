From Verif Require Export IdentityProofs.
From Verif Require Import Spec GatesProofs GatesProofs2 GatesProofs5 GatesProofs8 GatesProofs9.
Require Import Lia.
Local Open Scope N_scope.

Lemma in_values cs vs q : In q (map fst (with_values cs vs)) -> In q cs.
Proof. unfold with_values. intros H. apply in_map_iff in H. destruct H as ([a b] & <- & H). now apply in_combine_l in H. Qed.

(** * Sequences of gates *)
Section Sequence.
  Variables (vf : bool) (t : N) (cs vs : list N) (n B L : N).
  Let one k := Call1 k t cs vs.
  Hypothesis Hops : Forall (fun q => q < n) (t :: cs).
  Hypothesis Hs : sizes_ok n B L.
  Hypothesis Hwf : wf_ops n [t] (with_values cs vs).
  Definition seq_act (l : list std1) (psi : state) : state := fold_left (fun f k => apply_mat [t] (with_values cs vs) (std1_textbook k) f) l psi.
  Lemma seq_act_local l : forall psi phi, (forall a, a < B * 2 ^ n -> psi a = phi a) -> forall a, a < B * 2 ^ n -> seq_act l psi a = seq_act l phi a.
  Proof.
    induction l as [|k l IH]; intros psi phi H a Ha; [now apply H|]. cbn [seq_act fold_left]. apply IH; [|assumption]. intros b Hb.
    apply (apply_mat_local_flat _ _ _ _ _ n B); auto; [apply (wf_NoDup n _ _ Hwf)|constructor; [now inversion Hops|constructor]].
  Qed.
  Lemma seq_act_mul l : forall A psi x, fold_left (fun f k => apply_mat [t] (with_values cs vs) (std1_textbook k) f) l (apply_mat [t] (with_values cs vs) A psi) x =
    apply_mat [t] (with_values cs vs) (fold_left (fun A k => mat_mul 2 (std1_textbook k) A) l A) psi x.
  Proof.
    induction l as [|k l IH]; intros A psi x; [reflexivity|]. cbn [fold_left]. rewrite <- IH.
    assert (E : forall l f g, (forall x, f x = g x) -> forall x, fold_left (fun f k => apply_mat [t] (with_values cs vs) (std1_textbook k) f) l f x = fold_left (fun f k => apply_mat [t] (with_values cs vs) (std1_textbook k) f) l g x).
    { clear. induction l as [|k l IH]; intros f g H x; [apply H|]. cbn [fold_left]. apply IH. intros y. now apply apply_mat_ext. }
    apply E. intros y. now rewrite (apply_mat_mul n).
  Qed.
  Lemma seq_act_product l psi x : seq_act l psi x = apply_mat [t] (with_values cs vs) (product l) psi x.
  Proof.
    destruct l as [|k l]; [cbn; symmetry; apply apply_mat_id; apply (wf_NoDup n _ _ Hwf)|]. unfold seq_act, product. cbn [fold_left]. apply seq_act_mul.
  Qed.
  Lemma alike_act l l' psi x : alike l l' -> seq_act l psi x = seq_act l' psi x.
  Proof. intros H. rewrite !seq_act_product. apply apply_mat_ext_mat. now apply products. Qed.
  Lemma operands1 k g : make vf (one k) = Ok g -> forall psi, updating n B L g psi (apply_mat [t] (with_values cs vs) (std1_textbook k) psi).
  Proof.
    intros E psi. apply (updating_call vf (one k)); auto; [exact I|]. unfold call_operands. cbn [one call_targets call_controls app].
    destruct Hwf as [_ F]. exact F.
  Qed.
  Lemma in_turn_act gs : forall l psi r, Forall2 (fun k g => make vf (one k) = Ok g) l gs -> in_turn n B L gs psi r -> forall a, a < B * 2 ^ n -> r a = seq_act l psi a.
  Proof.
    induction gs as [|g gs IH]; intros l psi r F H a Ha; inversion F; subst; inversion H; subst; [reflexivity|].
    match goal with X : in_turn _ _ _ gs ?phi r |- _ => rewrite (IH _ phi r ltac:(eassumption) X a Ha) end. cbn [seq_act fold_left].
    apply seq_act_local; [|assumption]. intros b Hb. match goal with X : make vf _ = Ok g, Y : result _ _ _ g psi _ |- _ => exact (updating_result _ _ _ _ _ _ _ _ (operands1 _ _ X psi) Y Hb) end.
  Qed.
  Lemma in_turn_exists gs : forall l psi, Forall2 (fun k g => make vf (one k) = Ok g) l gs -> exists r, in_turn n B L gs psi r.
  Proof.
    induction gs as [|g gs IH]; intros l psi F; inversion F; subst; [exists psi; constructor|].
    match goal with X : make vf _ = Ok g |- _ => destruct (updating_exists _ _ _ _ _ _ (operands1 _ _ X psi)) as (phi & Hphi) end.
    match goal with X : Forall2 _ _ gs |- _ => destruct (IH _ phi X) as (r & Hr) end. exists r. econstructor; eassumption.
  Qed.
End Sequence.
Lemma alike_nonempty l l' : alike l l' -> exists k r, l = k :: r.
Proof. intros H. destruct H; eauto. Qed.
Lemma identities l l' vf t cs vs gs gs' n B L psi : alike l l' ->
  Forall2 (fun k g => make vf (Call1 k t cs vs) = Ok g) l gs -> Forall2 (fun k g => make vf (Call1 k t cs vs) = Ok g) l' gs' ->
  Forall (fun q => q < n) (t :: cs) -> sizes_ok n B L ->
  (exists r, in_turn n B L gs psi r) /\ (exists r, in_turn n B L gs' psi r) /\
  forall r r', in_turn n B L gs psi r -> in_turn n B L gs' psi r' -> forall a, a < B * 2 ^ n -> r a = r' a.
Proof.
  intros HA F F' Ho Hs.
  assert (Hwf : wf_ops n [t] (with_values cs vs)).
  { destruct (alike_nonempty l l' HA) as (k & r & ->). inversion F as [|? g ? gr Hg]; subst. apply (call_wf_ops vf (Call1 k t cs vs) g n I Hg).
    unfold call_operands. cbn [call_targets call_controls app]. apply Forall_forall. intros q Hq. rewrite Forall_forall in Ho. apply Ho.
    destruct Hq as [<-|Hq]; [now left|right]. now apply in_values in Hq. }
  split; [eapply in_turn_exists; eassumption|]. split; [eapply in_turn_exists; eassumption|].
  intros r r' H H' a Ha. rewrite (in_turn_act vf t cs vs n B L Ho Hs Hwf gs l psi r F H a Ha), (in_turn_act vf t cs vs n B L Ho Hs Hwf gs' l' psi r' F' H' a Ha).
  apply (alike_act t cs vs n Hwf). exact HA.
Qed.
