(** The derivative of the vector with respect to one parameter, and of the expectation value. *)
From Verif Require Export GradientProofs.
From Coq Require Import FunctionalExtensionality.

Definition plain_layer (l : layer) : Prop := match l with Fixed _ => True | Turn k _ => plain_turn k end.
(** what a layer adds to the derivative, given the vector after it: - i s / 2 P psi *)
Definition extra (key : string) (l : layer) (psi : state) : state := fun x =>
  match l with
  | Turn k key' => if String.eqb key' key then (Cscale (- turn_scale k / 2) Ci * gen k psi x)%C else C0
  | Fixed _ => C0
  end.
(** the layers, last first *)
Fixpoint rpsi (val : string -> R) (psi0 : state) (rl : list layer) : state :=
  match rl with [] => psi0 | l :: r => layer_act val l (rpsi val psi0 r) end.
Fixpoint rdel (val : string -> R) (key : string) (psi0 : state) (rl : list layer) : state :=
  match rl with
  | [] => fun _ => C0
  | l :: r => fun x => (layer_act val l (rdel val key psi0 r) x + extra key l (rpsi val psi0 (l :: r)) x)%C
  end.
Lemma evolve_rpsi val psi0 ls : evolve val ls psi0 = rpsi val psi0 (rev ls).
Proof.
  unfold evolve. rewrite <- (rev_involutive ls) at 1. induction (rev ls) as [|l r IH]; [reflexivity|]. cbn [rev rpsi]. rewrite fold_left_app. cbn [fold_left]. now rewrite IH.
Qed.
Lemma with_value_same val key : with_value val key (val key) = val.
Proof. apply functional_extensionality. intros k. unfold with_value. destruct (String.eqb_spec k key); congruence. Qed.

Lemma layer_act_lin val l (a b : C) psi phi x : layer_act val l (fun y => (a * psi y + b * phi y)%C) x = (a * layer_act val l psi x + b * layer_act val l phi x)%C.
Proof.
  assert (H : forall k, call_act k (fun y => (a * psi y + b * phi y)%C) x = (a * call_act k psi x + b * call_act k phi x)%C).
  { intros k. unfold call_act, apply_mat. destruct (ctrl_ok _ x); [|reflexivity]. rewrite <- !Csum_mul_l, <- Csum_add. apply Csum_ext. intros; ring. }
  destruct l; apply H.
Qed.
Lemma gen_ext k psi phi x : (forall y, psi y = phi y) -> gen k psi x = gen k phi x.
Proof. intros H. rewrite !gen_eq. now rewrite H. Qed.
Lemma vd_rpsi val key psi0 rl : Forall plain_layer rl ->
  vderivative (fun t => rpsi (with_value val key t) psi0 rl) (val key) (rdel val key psi0 rl).
Proof.
  induction rl as [|l r IH]; intros HF; [intros x; apply (cd_const (psi0 x))|]. inversion HF as [|? ? Hl Hr]; subst. specialize (IH Hr).
  destruct l as [k|k key']; intros x; cbn [rpsi rdel extra].
  - eapply cd_eq; [apply vd_apply_mat; exact IH|]. change (apply_mat _ _ _ ?p x) with (call_act k p x). cbn [layer_act]. ring.
  - cbn [plain_layer] in Hl. destruct (String.eqb_spec key' key) as [->|Hne].
    + cbn [layer_act]. set (s := turn_scale k).
      eapply cd_ext.
      { intros t. symmetry. unfold with_value at 1. rewrite String.eqb_refl. apply (turn_eq k t _ x Hl). }
      assert (Hlin : derivable_pt_lim (fun t => (s * t / 2)%R) (val key) (s / 2)%R).
      { eapply dl_ext; [|eapply dl_eq; [apply (derivable_pt_lim_scal id (s / 2)%R); apply derivable_pt_lim_id|ring]]. intros t. unfold mult_real_fct, id. field. }
      assert (Hc : cderivative (fun t => RtoC (cos (s * t / 2))) (val key) (RtoC (- sin (s * val key / 2) * (s / 2)))).
      { apply cd_real. apply (derivable_pt_lim_comp (fun t => (s * t / 2)%R) cos); [exact Hlin|apply derivable_pt_lim_cos]. }
      assert (Hs : cderivative (fun t => RtoC (sin (s * t / 2))) (val key) (RtoC (cos (s * val key / 2) * (s / 2)))).
      { apply cd_real. apply (derivable_pt_lim_comp (fun t => (s * t / 2)%R) sin); [exact Hlin|apply derivable_pt_lim_sin]. }
      eapply cd_eq.
      { eapply (cd_ext (fun t => (RtoC (cos (s * t / 2)) * rpsi (with_value val key t) psi0 r x + - Ci * (RtoC (sin (s * t / 2)) * gen k (rpsi (with_value val key t) psi0 r) x))%C)).
        - intros t. fold s. ring.
        - apply cd_add; [apply cd_mul; [exact Hc|apply IH]|]. apply cd_cmul, cd_mul; [exact Hs|]. apply (vd_pauli (generator k)). exact IH. }
      cbn beta. rewrite !with_value_same. fold (gen k). rewrite turn_eq by assumption. fold s.
      set (psi := rpsi val psi0 r). set (del := rdel val key psi0 r).
      assert (Hg : gen k (call_act (pcall_at k (val key)) psi) x = (RtoC (cos (s * val key / 2)) * gen k psi x - Ci * RtoC (sin (s * val key / 2)) * psi x)%C).
      { rewrite (gen_ext k _ (fun y => (RtoC (cos (s * val key / 2)) * psi y + (- Ci * RtoC (sin (s * val key / 2))) * gen k psi y)%C)).
        - rewrite gen_lin, gen_square. ring.
        - intros y. rewrite turn_eq by assumption. fold s. ring. }
      rewrite Hg. generalize (cos (s * val key / 2)), (sin (s * val key / 2)), (psi x), (gen k psi x), (del x), (gen k del x).
      intros co si [] [] [] []. unfold Cscale. c_eq; simpl; field.
    + cbn [layer_act]. eapply cd_ext; [|eapply cd_eq; [apply vd_apply_mat; exact IH|]].
      * intros t. cbn beta. unfold with_value at 2. destruct (String.eqb_spec key' key); [contradiction|]. reflexivity.
      * change (apply_mat _ _ _ ?p x) with (call_act (pcall_at k (val key')) p x). ring.
Qed.

(** ** The expectation value *)
Lemma inner_conj n a b : inner n a b = Cconj (inner n b a).
Proof. unfold inner. rewrite Csum_conj. apply Csum_ext. intros x _. rewrite Cconj_mul, Cconj_invol. ring. Qed.
Lemma energy_derivative n o val ls key : Forall plain_layer ls -> self_adjoint n (op_act o) ->
  derivable_pt_lim (fun v => energy n o (with_value val key v) ls) (val key)
    (2 * Re (inner n (op_act o (evolve val ls (basis 0))) (rdel val key (basis 0) (rev ls))))%R.
Proof.
  intros HF Hsa. set (P := fun v => rpsi (with_value val key v) (basis 0) (rev ls)). set (d := rdel val key (basis 0) (rev ls)).
  assert (HP : vderivative P (val key) d) by (apply vd_rpsi; apply Forall_rev; exact HF).
  destruct (cd_inner n P (fun v => op_act o (P v)) (val key) d (op_act o d) HP (vd_op o P (val key) d HP)) as [H _].
  eapply dl_ext; [|eapply dl_eq; [exact H|]].
  - intros v. unfold energy. rewrite evolve_rpsi. reflexivity.
  - rewrite evolve_rpsi. assert (E : P (val key) = rpsi val (basis 0) (rev ls)) by (unfold P; now rewrite with_value_same). rewrite E.
    rewrite (Hsa _ d). rewrite (inner_conj n d). cbn [fst Cadd Cconj]. unfold Re. ring.
Qed.
