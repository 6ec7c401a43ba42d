From Verif Require Export IdentityProofs3.
From Verif Require Import Spec GatesProofs GatesProofs2 GatesProofs5 GatesProofs8 GatesProofs9.
Require Import Lia.
Local Open Scope N_scope.

Lemma turn_app n B L a b psi r : in_turn n B L (a ++ b) psi r <-> exists phi, in_turn n B L a psi phi /\ in_turn n B L b phi r.
Proof.
  revert psi. induction a as [|g a IH]; intros psi; cbn [app]; split.
  - intros H. exists psi. split; [constructor|exact H].
  - intros (phi & H1 & H2). inversion H1; subst. exact H2.
  - intros H. inversion H as [|? ? ? chi ? R H1]; subst. apply IH in H1. destruct H1 as (phi & K1 & K2). exists phi. split; [econstructor; eassumption|exact K2].
  - intros (phi & H1 & H2). inversion H1 as [|? ? ? chi ? R K]; subst. econstructor; [exact R|]. apply IH. eauto.
Qed.
Section Within.
  Variables (vf : bool) (n B L : N).
  Hypothesis Hs : sizes_ok n B L.
  Definition fits_here (g : egate) : Prop := exists k, call_typed k /\ make vf k = Ok g /\ Forall (fun q => q < n) (call_operands k).
  Lemma step_local g psi phi r r' : fits_here g -> (forall a, a < B * 2 ^ n -> psi a = phi a) -> result n B L g psi r -> result n B L g phi r' ->
    forall a, a < B * 2 ^ n -> r a = r' a.
  Proof.
    intros (k & T & E & HF) H R R' a Ha. pose proof (call_wf_ops vf k g n T E HF) as Hwf.
    pose proof (fun p => updating_call vf k g n B L p T E HF Hs) as U.
    rewrite (updating_result _ _ _ _ _ _ _ _ (U psi) R Ha), (updating_result _ _ _ _ _ _ _ _ (U phi) R' Ha).
    apply (apply_mat_local_flat _ _ _ _ _ n B a); [exact (wf_NoDup _ _ _ Hwf)|exact (wf_lt _ _ _ Hwf)|exact H|exact Ha].
  Qed.
  Lemma turn_local gs : Forall fits_here gs -> forall psi phi r r', (forall a, a < B * 2 ^ n -> psi a = phi a) -> in_turn n B L gs psi r -> in_turn n B L gs phi r' ->
    forall a, a < B * 2 ^ n -> r a = r' a.
  Proof.
    induction 1 as [|g gs Hg F IH]; intros psi phi r r' H R R' a Ha; inversion R as [|? ? ? p1 ? S R1]; subst; inversion R' as [|? ? ? p2 ? S' R1']; subst; [now apply H|].
    apply (IH p1 p2 r r'); try assumption. exact (step_local g psi phi p1 p2 Hg H S S').
  Qed.
  Lemma turn_there gs : Forall fits_here gs -> forall psi, exists r, in_turn n B L gs psi r.
  Proof.
    induction 1 as [|g gs (k & T & E & HF) F IH]; intros psi; [exists psi; constructor|].
    destruct (updating_exists _ _ _ _ _ _ (updating_call vf k g n B L psi T E HF Hs)) as (p & Hp). destruct (IH p) as (r & Hr). exists r. econstructor; eassumption.
  Qed.
  Lemma replace_within gs gs' pre post psi : Forall fits_here pre -> Forall fits_here post -> Forall fits_here gs' ->
    (forall phi, (exists r, in_turn n B L gs phi r) /\ forall r r', in_turn n B L gs phi r -> in_turn n B L gs' phi r' -> forall a, a < B * 2 ^ n -> r a = r' a) ->
    (exists r, in_turn n B L (pre ++ gs ++ post) psi r) /\ (exists r, in_turn n B L (pre ++ gs' ++ post) psi r) /\
    forall r r', in_turn n B L (pre ++ gs ++ post) psi r -> in_turn n B L (pre ++ gs' ++ post) psi r' -> forall a, a < B * 2 ^ n -> r a = r' a.
  Proof.
    intros F1 F2 F3 H. split; [|split].
    - destruct (turn_there pre F1 psi) as (p & Hp). destruct (proj1 (H p)) as (q & Hq). destruct (turn_there post F2 q) as (r & Hr).
      exists r. apply turn_app. exists p. split; [exact Hp|]. apply turn_app. eauto.
    - destruct (turn_there pre F1 psi) as (p & Hp). destruct (turn_there gs' F3 p) as (q & Hq). destruct (turn_there post F2 q) as (r & Hr).
      exists r. apply turn_app. exists p. split; [exact Hp|]. apply turn_app. eauto.
    - intros r r' R R' a Ha. apply turn_app in R, R'. destruct R as (p & P & R), R' as (p' & P' & R'). apply turn_app in R, R'. destruct R as (q & Q & R), R' as (q' & Q' & R').
      apply (turn_local post F2 q q' r r'); try assumption.
      intros b Hb. destruct (turn_there gs' F3 p) as (s & Hsx). transitivity (s b); [now apply (proj2 (H p) q s)|].
      apply (turn_local gs' F3 p p' s q'); try assumption. apply (turn_local pre F1 psi psi p p'); try assumption. reflexivity.
  Qed.
End Within.
Lemma identities_within l l' vf t cs vs gs gs' pre post n B L psi : alike l l' ->
  Forall2 (fun k g => make vf (Call1 k t cs vs) = Ok g) l gs -> Forall2 (fun k g => make vf (Call1 k t cs vs) = Ok g) l' gs' ->
  Forall (fun q => q < n) (t :: cs) -> sizes_ok n B L ->
  Forall (fun g => exists k, call_typed k /\ make vf k = Ok g /\ Forall (fun q => q < n) (call_operands k)) (pre ++ post) ->
  (exists r, in_turn n B L (pre ++ gs ++ post) psi r) /\ (exists r, in_turn n B L (pre ++ gs' ++ post) psi r) /\
  forall r r', in_turn n B L (pre ++ gs ++ post) psi r -> in_turn n B L (pre ++ gs' ++ post) psi r' -> forall a, a < B * 2 ^ n -> r a = r' a.
Proof.
  intros Ha F F' HF Hs HP. apply Forall_app in HP. destruct HP as [H1 H2].
  apply (replace_within vf n B L Hs gs gs' pre post psi); try assumption.
  - clear - F' HF. induction F' as [|k g l gs E F IH]; constructor; [|exact IH]. exists (Call1 k t cs vs). split; [exact I|]. split; [exact E|].
    exact (operands_from [t] cs vs n HF).
  - intros phi. destruct (identities l l' vf t cs vs gs gs' n B L phi Ha F F' HF Hs) as (A & _ & C). split; [exact A|exact C].
Qed.
