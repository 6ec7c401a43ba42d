(** Flags, pure states and quantities that unitary gates preserve. *)
From Verif Require Export DensityProofs5 GatesProofs9.
From Coq Require Import ZifyBool ZifyN ZifyNat Permutation FunctionalExtensionality.

(** ** The hermitian flag *)
Lemma real_conj z : is_real z = true -> Cconj z = z.
Proof. unfold is_real. destruct (Req_EM_T (snd z) 0) as [E|]; [|discriminate]. intros _. unfold Cconj. destruct z as [a b]. cbn [fst snd] in *. rewrite E, Ropp_0. reflexivity. Qed.
Lemma hermitian_at d A i j : hermitian d A -> i < d -> j < d -> Cconj (A j i) = A i j.
Proof. intros H Hi Hj. exact (H i j Hi Hj). Qed.
Lemma hermitian_trace d A : hermitian d A -> Cconj (trace d A) = trace d A.
Proof. intros H. unfold trace. rewrite Csum_conj. apply Csum_ext. intros i Hi. now apply (hermitian_at d). Qed.
Lemma Cinv_conj z : Cconj z = z -> Cconj (Cinv z) = Cinv z.
Proof. intros H. unfold Cinv. rewrite H. unfold Cscale, Cconj in *. destruct z as [a b]. cbn [fst snd] in *. injection H as H. f_equal. rewrite <- H at 2. ring. Qed.
Lemma flag_op_sound n o A A' h : honest n o A -> (h = true -> hermitian (2 ^ n) A) -> matrix_op n o A = Some A' ->
  flag_op o h = true -> hermitian (2 ^ n) A'.
Proof.
  intros Ho Hh E Hf. destruct o; cbn [matrix_op flag_op honest] in *;
  try (match type of E with (if ?b then _ else _) = _ => destruct b eqn:Eb; [|discriminate] end); injection E as <-.
  - intros i j Hi Hj. unfold mat_adj. rewrite andb_comm. destruct (_ && _); [apply Cconj_1|apply Cconj_0].
  - intros i j Hi Hj. apply Cconj_0.
  - intros i j Hi Hj. unfold mat_adj. rewrite andb_comm. destruct (_ && _); [apply Cconj_1|apply Cconj_0].
  - apply andb_prop in Hf as [Hf Hr]. apply andb_prop in Hf as [Hf Hc]. apply N.eqb_eq in Hc as <-. apply real_conj in Hr.
    intros i j Hi Hj. unfold mat_adj. rewrite (andb_comm (j =? r)). destruct ((i =? r) && (j =? r)); [exact Hr|]. now apply (hermitian_at (2 ^ n)); [apply Hh| |].
  - specialize (Hh Hf). intros i j Hi Hj. unfold mat_adj.
    destruct (N.eqb_spec r c) as [<-|Hne].
    + rewrite (andb_comm (j =? r)). destruct ((i =? r) && (j =? r)).
      * destruct v as [a b]. unfold Cconj. cbn [fst snd]. specialize (Ho eq_refl). cbn [snd] in Ho. rewrite Ho, Ropp_0. reflexivity.
      * now apply (hermitian_at (2 ^ n)).
    + destruct (N.eqb_spec i r), (N.eqb_spec j c), (N.eqb_spec i c), (N.eqb_spec j r); cbn [andb]; try congruence; try apply Cconj_invol; try reflexivity;
      now apply (hermitian_at (2 ^ n)).
  - now apply Ho.
  - now apply Ho.
  - intros i j Hi Hj. unfold mat_adj, pure. rewrite Cconj_mul, Cconj_invol. ring.
  - specialize (Hh Hf). intros i j Hi Hj. unfold mat_adj. rewrite Cconj_mul, Cinv_conj by now apply hermitian_trace.
    f_equal. now apply (hermitian_at (2 ^ n)).
  - apply andb_prop in Hf as [Hf Hr]. apply andb_prop in Hf as [Hf Hc]. specialize (Hh Hf). apply real_conj in Hr.
    intros i j Hi Hj. unfold mat_adj. rewrite Cconj_add, Cconj_mul, Hr, (hermitian_at _ _ _ _ Hh Hi Hj). f_equal. f_equal.
    destruct same; [now apply (hermitian_at (2 ^ n))|]. specialize (Ho Hc). exact (hermitian_at _ _ _ _ Ho Hi Hj).
  - apply andb_prop in Hf as [Hf Hr]. specialize (Hh Hf). apply real_conj in Hr.
    intros i j Hi Hj. unfold mat_adj. rewrite Cconj_mul, Hr. f_equal. now apply (hermitian_at (2 ^ n)).
  - exact Ho.
  - apply sandwich_hermitian. now apply Hh.
Qed.
Lemma flags_sound n l : forall A h A' h' b, all_honest n l A -> (h = true -> hermitian (2 ^ n) A) -> matrix_ops n l A h = (A', h', b) ->
  h' = true -> hermitian (2 ^ n) A'.
Proof.
  induction l as [|o l IH]; intros A h A' h' b Ha Hh E; cbn [matrix_ops all_honest] in *.
  - now injection E as <- <- <-.
  - destruct Ha as [Ho Hl]. destruct (matrix_op n o A) as [A1|] eqn:E1.
    + eapply IH; [apply Hl; reflexivity| |exact E]. now apply (flag_op_sound n o A A1 h).
    + injection E as <- <- <-. exact Hh.
Qed.
(** a pair on the diagonal *)
Lemma pair_flag_wrong : exists (n : N) (l : list dop) A',
  dops_ok n l (fun _ _ => C0) /\ matrix_ops n l (fun _ _ => C0) false = (A', true, false) /\ ~ hermitian (2 ^ n) A'.
Proof.
  exists 1, [DZero; DSetPair 0 0 Ci]. eexists. split; [|split].
  - cbn. repeat split; intros; exact I.
  - reflexivity.
  - intros H. specialize (H 0 0 ltac:(reflexivity) ltac:(reflexivity)). cbn in H. unfold mat_adj, Cconj, Ci in H. cbn in H. injection H as H. lra.
Qed.

(** ** Pure states *)
Lemma pure_diag psi x : fst (pure psi x x) = Cnorm2 (psi x).
Proof. unfold pure, Cmul, Cconj, Cnorm2. cbn [fst snd]. ring. Qed.
Lemma diag_prob_ext n P M M' : mat_eq (2 ^ n) M M' -> diag_prob n P M = diag_prob n P M'.
Proof.
  intros E. unfold diag_prob. apply Rsuml_ext. intros x Hx. apply filter_In in Hx as [Hx _]. apply in_seqN in Hx. now rewrite E.
Qed.
Lemma diag_prob_pure n P psi : diag_prob n P (pure psi) = prob n P psi.
Proof. apply Rsuml_ext. intros x _. apply pure_diag. Qed.
Section Pure.
  Context (n : N) (psi : state) (w : dmw) (Hw : mat_eq (2 ^ n) (rho w) (pure psi)) (Hh : d_herm w = true).
  Lemma pure_probability P : diag_prob n P (rho w) = prob n P psi.
  Proof using Hw. rewrite (diag_prob_ext n P _ _ Hw). apply diag_prob_pure. Qed.
  Lemma pure_trace : trace (2 ^ n) (rho w) = RtoC (sqnorm n psi).
  Proof using Hw.
    rewrite (trace_ext _ _ _ Hw). unfold trace, sqnorm. rewrite RtoC_Rsuml. apply Csum_ext. intros i _. rewrite RtoC_norm2. reflexivity.
  Qed.
  Lemma pure_entropy : yields (dm_get_entropy n) w
    (Rsuml (fun x => if Rlt_dec 0 (Cnorm2 (psi x)) then (- Cnorm2 (psi x) * log2 (Cnorm2 (psi x)))%R else 0%R) (seqN (2 ^ n))).
  Proof using Hw Hh.
    erewrite Rsuml_ext_seqN; [now apply dm_entropy_ok|]. intros x Hx. cbv beta. now rewrite (Hw x x Hx Hx), pure_diag.
  Qed.
  Lemma pure_purity : yields (get_purity n) w (sqnorm n psi * sqnorm n psi)%R.
  Proof using Hw Hh.
    replace (sqnorm n psi * sqnorm n psi)%R with (Rsuml (fun a => Cnorm2 (rho w (fst a) (snd a))) (list_prod (seqN (2 ^ n)) (seqN (2 ^ n))));
      [now apply purity_ok|].
    apply RtoC_inj. rewrite RtoC_Rsuml, Csuml_list_prod, RtoC_mul. unfold sqnorm. rewrite RtoC_Rsuml.
    fold (Csum (2 ^ n) (fun x => RtoC (Cnorm2 (psi x)))). rewrite <- Csum_mul_r. apply Csum_ext. intros i Hi. rewrite <- Csum_mul_l.
    apply Csum_ext. intros j Hj. cbn [fst snd]. rewrite (Hw i j Hi Hj). unfold pure. Csolve.
  Qed.
  Lemma pure_sampling count rounds : dm_sampling n w count rounds = Ok (sampling n psi count rounds).
  Proof using Hw Hh.
    unfold dm_sampling, sampling. rewrite Hh. cbn [negb].
    replace (fun _ : N => d_choose n (d_raw w)) with (fun _ : N => choose n psi); [reflexivity|].
    extensionality k. extensionality r. unfold d_choose, choose. symmetry. apply (bsearch_ext_le _ _ _ _ _ _ (2 ^ n)); [|lia|lia].
    intros i Hi. unfold stacked_prob. rewrite <- (N2Nat.id i) in Hi. revert Hi. generalize (N.to_nat i) as j. clear i.
    induction j as [|j IH]; intros Hj; [reflexivity|]. cbn [d_stacked stacked]. rewrite IH by lia. f_equal.
    rewrite <- pure_diag. f_equal. apply Hw; lia.
  Qed.
End Pure.
Lemma pure_hermitian d psi : hermitian d (pure psi).
Proof. intros i j _ _. unfold mat_adj, pure. rewrite Cconj_mul, Cconj_invol. ring. Qed.
Lemma pure_psd n psi : psd n (pure psi).
Proof.
  intros phi. assert (E : inner n phi (mat_vec (2 ^ n) (pure psi) phi) = RtoC (Cnorm2 (inner n psi phi))).
  { rewrite RtoC_norm2, <- (inner_conj n phi psi). unfold inner at 1. unfold mat_vec, pure.
    transitivity (Csum (2 ^ n) (fun i => (Cconj (phi i) * psi i * inner n psi phi)%C)).
    - apply Csum_ext. intros i _. unfold inner. rewrite <- !Csum_mul_l. apply Csum_ext. intros; ring.
    - rewrite Csum_mul_r. unfold inner. ring. }
  rewrite E. split; [|reflexivity]. apply Cnorm2_nonneg.
Qed.
Lemma sandwich_pure n k psi : wf_ops n (call_targets k) (call_controls k) ->
  mat_eq (2 ^ n) (sandwich (2 ^ n) (full_matrix k) (pure psi)) (pure (apply_mat (call_targets k) (call_controls k) (call_matrix k) psi)).
Proof.
  intros Hw i j Hi Hj. unfold pure at 2. rewrite !(apply_mat_full n) by assumption.
  unfold sandwich. unfold mat_mul at 1. rewrite Csum_conj, <- Csum_mul_l. apply Csum_ext. intros b Hb.
  unfold mat_mul, mat_adj, pure. rewrite <- !Csum_mul_r. apply Csum_ext. intros a Ha. rewrite Cconj_mul. unfold full_matrix, full_of. ring.
Qed.
