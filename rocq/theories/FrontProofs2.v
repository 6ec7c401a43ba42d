(** Parameters that are missing, and parameters a circuit does not have. *)
From Coq Require Import FunctionalExtensionality.
From Verif Require Import FrontSpec.
From Verif Require Export FrontProofs.
Open Scope N_scope.
Open Scope host_scope.

Lemma item_agree n L (ps ps' : params) i : (forall g k, i = IParam g k -> ps k = ps' k) -> item_update n L ps i = item_update n L ps' i.
Proof. destruct i as [g|g k]; intros H; [reflexivity|]. cbn [item_update]. now rewrite (H g k eq_refl). Qed.
Lemma items_agree n L (ps ps' : params) l : (forall g k, In (IParam g k) l -> ps k = ps' k) ->
  forall fs mask, run_items n L ps l fs mask = run_items n L ps' l fs mask.
Proof.
  induction l as [|i l IH]; intros H fs mask; [reflexivity|]. destruct fs as [|f fs]; [reflexivity|].
  assert (E : run_items n L ps l = run_items n L ps' l).
  { apply functional_extensionality. intros fs'. apply functional_extensionality. intros m. apply IH. intros g k Hk. apply (H g k). now right. }
  cbn [run_items]. rewrite E. unfold guarded_update. rewrite (item_agree n L ps ps' i); [reflexivity|].
  intros g k ->. apply (H g k). now left.
Qed.
Lemma b_items_agree n B L (ps ps' : bparams) l : (forall g k, In (IParam g k) l -> ps k = ps' k) ->
  forall fs mask, b_run_items n B L ps l fs mask = b_run_items n B L ps' l fs mask.
Proof.
  induction l as [|i l IH]; intros H fs mask; [reflexivity|]. destruct fs as [|f fs]; [reflexivity|].
  assert (E : b_run_items n B L ps l = b_run_items n B L ps' l).
  { apply functional_extensionality. intros fs'. apply functional_extensionality. intros m. apply IH. intros g k Hk. apply (H g k). now right. }
  cbn [b_run_items]. rewrite E.
  assert (F : b_guarded_update n B L ps i mask = b_guarded_update n B L ps' i mask /\ forall f, b_conditional n B L ps i f = b_conditional n B L ps' i f).
  { destruct i as [g|g k]; [split; reflexivity|]. unfold b_guarded_update, b_conditional. cbn [b_item_update].
    rewrite (H g k) by now left. split; reflexivity. }
  destruct F as [-> F]. destruct f as [f|]; [now rewrite F|reflexivity].
Qed.
Lemma in_keys c k : In k (keys c) <-> exists g, In (IParam g k) (c_gates c).
Proof.
  unfold keys. rewrite in_flat_map. split.
  - intros ([g|g k'] & Hin & H); [destruct H|]. destruct H as [->|[]]. now exists g.
  - intros [g Hin]. exists (IParam g k). split; [exact Hin|now left].
Qed.
Lemma forallb_agree {T} (f g : T -> bool) l : (forall x, In x l -> f x = g x) -> forallb f l = forallb g l.
Proof. induction l as [|a l IH]; intros H; [reflexivity|]. cbn. rewrite (H a) by now left. f_equal. apply IH. intros x Hx. apply H. now right. Qed.
Lemma update_agree n L (ps ps' : params) c : (forall k, In k (keys c) -> ps k = ps' k) -> circuit_update n L ps c = circuit_update n L ps' c.
Proof.
  intros H. unfold circuit_update. rewrite (items_agree n L ps ps'); [|intros g k Hk; apply H; apply in_keys; eauto].
  rewrite (forallb_agree _ (fun k => match ps' k with Some _ => true | None => false end) (keys c)); [reflexivity|].
  intros k Hk. now rewrite (H k Hk).
Qed.
Lemma b_update_agree n B L (ps ps' : bparams) c : (forall k, In k (keys c) -> ps k = ps' k) -> b_circuit_update n B L ps c = b_circuit_update n B L ps' c.
Proof.
  intros H. unfold b_circuit_update. rewrite (b_items_agree n B L ps ps'); [|intros g k Hk; apply H; apply in_keys; eauto].
  rewrite (forallb_agree _ (fun k => match ps' k with Some vs => N.of_nat (length vs) =? B | None => false end) (keys c)); [reflexivity|].
  intros k Hk. now rewrite (H k Hk).
Qed.

Section Calls.
  Variables (engine : N -> nat -> R) (n B L : N).
  Lemma circuit_extra c reg seed l ps l' ps' : has_entries l ps -> has_entries l' ps' -> (forall k, In k (keys c) -> ps k = ps' k) ->
    same_calls (py_circuit engine n L c reg (SingleDict l) seed []) (py_circuit engine n L c reg (SingleDict l') seed []).
  Proof.
    intros Hl Hl' H. destruct (circuit_parameters engine n L c reg seed l ps Hl) as (_ & H1 & H2).
    destruct (circuit_parameters engine n L c reg seed l' ps' Hl') as (_ & H1' & H2').
    destruct reg.
    - eapply same_trans; [now apply H1|]. eapply same_trans; [|apply same_sym; now apply H1'].
      unfold circuit_call_default, circuit_update_plain. rewrite (update_agree n L ps ps' c H). apply same_refl.
    - eapply same_trans; [now apply H2|]. eapply same_trans; [|apply same_sym; now apply H2'].
      unfold circuit_call. rewrite (update_agree n L ps ps' c H). apply same_refl.
    - unfold py_circuit. eapply same_trans; [apply lift_same; reflexivity|]. eapply same_trans; [apply lift_same; reflexivity|].
      apply same_sym. eapply same_trans; [apply lift_same; reflexivity|]. eapply same_trans; [apply lift_same; reflexivity|]. apply same_refl.
  Qed.
  Lemma b_circuit_extra c reg seed l ps l' ps' : has_entries l ps -> has_entries l' ps' -> (forall k, In k (keys c) -> ps k = ps' k) ->
    same_calls (py_b_circuit engine n B L c reg (BatchedDict l) seed []) (py_b_circuit engine n B L c reg (BatchedDict l') seed []).
  Proof.
    intros Hl Hl' H. destruct (b_circuit_parameters engine n B L c reg seed l ps Hl) as (_ & H1 & H2).
    destruct (b_circuit_parameters engine n B L c reg seed l' ps' Hl') as (_ & H1' & H2').
    destruct reg.
    - eapply same_trans; [now apply H1|]. eapply same_trans; [|apply same_sym; now apply H1'].
      unfold b_circuit_call_default. rewrite (b_update_agree n B L ps ps' c H). apply same_refl.
    - unfold py_b_circuit. eapply same_trans; [apply lift_same; reflexivity|]. eapply same_trans; [apply lift_same; reflexivity|].
      apply same_sym. eapply same_trans; [apply lift_same; reflexivity|]. eapply same_trans; [apply lift_same; reflexivity|]. apply same_refl.
    - eapply same_trans; [now apply H2|]. eapply same_trans; [|apply same_sym; now apply H2'].
      unfold b_circuit_call. rewrite (b_update_agree n B L ps ps' c H). apply same_refl.
  Qed.

  Lemma same_runs {W T} (p q : host W T) w Q : same_calls p q -> runs q w Q -> runs p w Q.
  Proof. intros H [H1 [o H2]]. split; [intros o' Ho; apply H1; now apply H|exists o; now apply H]. Qed.
  Lemma seeded_runs seed p w Q : (forall s, resolved seed s -> runs p (with_rand (engine s) w) Q) -> runs (seeded engine seed p) w Q.
  Proof.
    intros H. split; [intros o (s & Hs & Ho); now apply (H s Hs)|].
    assert (exists s, resolved seed s) as [s Hs] by (destruct seed as [s|]; [now exists s|exists 0; reflexivity]).
    destruct (proj2 (H s Hs)) as [o Ho]. exists o, s. now split.
  Qed.
  Lemma update_missing ps c w : (exists k, In k (keys c) /\ ps k = None) -> runs (circuit_update n L ps c) w (fun o => o = HThrown w).
  Proof.
    intros (k & Hin & E). unfold circuit_update. destruct (_ <=? n).
    - apply (runs_bind_done _ _ _ (fun _ w' => w' = w)); [now apply runs_ret|]. intros t w' ->.
      assert (F : forallb (fun k => match ps k with Some _ => true | None => false end) (keys c) = false).
      { destruct (forallb _ _) eqn:F; [|reflexivity]. rewrite forallb_forall in F. specialize (F k Hin). cbv beta in F. now rewrite E in F. }
      rewrite F. split; [intros o (o1 & -> & ->); reflexivity|eexists; eexists; split; reflexivity].
    - split; [intros o (o1 & -> & ->); reflexivity|eexists; eexists; split; reflexivity].
  Qed.
  Lemma circuit_missing c reg seed l ps w : has_entries l ps -> (exists k, In k (keys c) /\ ps k = None) ->
    runs (py_circuit engine n L c reg (SingleDict l) seed []) w
      (fun o => exists w', o = HThrown w' /\ w_amp w' = w_amp w /\ (reg <> NoRegister -> w_reg w' = w_reg w)).
  Proof.
    intros Hl Hk. destruct (circuit_parameters engine n L c reg seed l ps Hl) as (_ & H1 & H2). destruct reg.
    - eapply same_runs; [now apply H1|]. apply seeded_runs. intros s _. unfold circuit_update_plain. destruct (has_classical_instructions c).
      + apply runs_throw. eexists. split; [reflexivity|]. now split.
      + apply (runs_bind_done _ _ _ (fun _ w' => w' = set_reg [] (with_rand (engine s) w))); [now apply runs_modify|]. intros [] w' ->.
        eapply runs_weaken; [now apply update_missing|]. intros o ->. eexists. split; [reflexivity|]. now split.
    - eapply same_runs; [now apply H2|]. apply seeded_runs. intros s _. eapply runs_weaken; [now apply update_missing|].
      intros o ->. eexists. split; [reflexivity|]. now split.
    - eapply runs_weaken; [apply (circuit_rejects engine n L c BatchRegister); now right; right; left|]. intros o ->. eexists. split; [reflexivity|]. now split.
  Qed.
End Calls.
