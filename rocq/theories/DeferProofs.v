(** A gate conditioned on a measured bit against a gate controlled by the qubit. *)
From Verif Require Export DeferSpec OrderProofs.
From Verif Require Import ChannelProofs5.
From Coq Require Import ZifyBool ZifyN ZifyNat Lra FunctionalExtensionality Permutation.

Lemma scatter_in_ext ts i : forall j x y, In i ts \/ N.testbit x i = N.testbit y i -> N.testbit (scatter ts j x) i = N.testbit (scatter ts j y) i.
Proof.
  induction ts as [|t ts IH]; intros j x y H; cbn [scatter]; [now destruct H as [[]|]|]. apply IH. rewrite !set_bit_tb. destruct (N.eqb_spec i t); [now right|]. destruct H as [[H|H]|H]; [congruence|now left|now right].
Qed.
Section Control.
  Variables (ts : list N) (cs : list (N * bool)) (M : matrix) (q : N).
  Hypothesis Hq : ~ In q ts.
  Hypothesis Hqc : ~ In q (map fst cs).
  Lemma shows_scatter b j x : shows_bit q b (scatter ts j x) = shows_bit q b x.
  Proof. unfold shows_bit. now rewrite scatter_out. Qed.
  Lemma mat_projected b k psi : apply_mat ts cs M (fun x => if shows_bit q b x then Cscale k (psi x) else C0) =
    (fun x => if shows_bit q b x then Cscale k (apply_mat ts cs M psi x) else C0).
  Proof.
    apply functional_extensionality. intros x. unfold apply_mat. destruct (ctrl_ok cs x); [|reflexivity].
    destruct (shows_bit q b x) eqn:E.
    - rewrite Cscale_mul. unfold Csum. rewrite <- Csuml_mul_l. apply Csuml_ext. intros j _. rewrite shows_scatter, E, Cscale_mul. ring.
    - apply Csum_zero. intros j _. rewrite shows_scatter, E. ring.
  Qed.
  Lemma flip_flip x : N.lxor (N.lxor x (2 ^ q)) (2 ^ q) = x.
  Proof. rewrite N.lxor_assoc, N.lxor_nilpotent. apply N.lxor_0_r. Qed.
  Lemma flip_testbit i x : i <> q -> N.testbit (N.lxor x (2 ^ q)) i = N.testbit x i.
  Proof. intros H. rewrite N.lxor_spec, N.pow2_bits_false by congruence. apply xorb_false_r. Qed.
  Lemma mat_flipped psi : apply_mat ts cs M (flipped q psi) = flipped q (apply_mat ts cs M psi).
  Proof.
    apply functional_extensionality. intros x. unfold flipped, apply_mat.
    assert (Ec : ctrl_ok cs (N.lxor x (2 ^ q)) = ctrl_ok cs x).
    { unfold ctrl_ok. clear - Hqc. induction cs as [|[c b] l IH]; [reflexivity|]. cbn [forallb map fst snd] in *. rewrite IH by (intros X; apply Hqc; now right).
      rewrite flip_testbit; [reflexivity|]. intros ->. apply Hqc. now left. }
    rewrite Ec. destruct (ctrl_ok cs x); [|reflexivity]. unfold Csum. apply Csuml_ext. intros j _.
    assert (Eg : gather ts (N.lxor x (2 ^ q)) = gather ts x) by (apply gather_inj_ext; intros i Hi; apply flip_testbit; intros ->; contradiction). rewrite Eg. f_equal. f_equal.
    apply N.bits_inj. intros i. rewrite N.lxor_spec. destruct (in_dec N.eq_dec i ts) as [Hi|Hi].
    - rewrite (scatter_in_ext ts i j x (N.lxor x (2 ^ q)) (or_introl Hi)). rewrite N.pow2_bits_false by (intros ->; contradiction). now rewrite xorb_false_r.
    - rewrite !scatter_out by assumption. now rewrite N.lxor_spec.
  Qed.
End Control.

(** ** Probabilities *)
Lemma prob_projected n P psi : prob n P psi = sqnorm n (fun x => if P x then psi x else C0).
Proof.
  unfold prob, sqnorm, Rsuml. induction (seqN (2 ^ n)) as [|x l IH]; [reflexivity|]. cbn [filter fold_right]. rewrite <- IH. destruct (P x); [reflexivity|].
  unfold Cnorm2, C0, Re, Im. cbn [fst snd]. ring.
Qed.
Lemma prob_agree n P psi phi : (forall x, P x = true -> psi x = phi x) -> prob n P psi = prob n P phi.
Proof. intros H. rewrite !prob_projected. apply sqnorm_ext. intros x _. destruct (P x) eqn:E; [now apply H|reflexivity]. Qed.
Lemma prob_both n q v psi : (bit_prob n q v psi + bit_prob n q (negb v) psi)%R = sqnorm n psi.
Proof.
  unfold bit_prob, prob, sqnorm, Rsuml. induction (seqN (2 ^ n)) as [|x l IH]; [cbn; ring|]. cbn [filter fold_right]. rewrite <- IH. unfold shows_bit.
  destruct (N.testbit x q), v; cbn [Bool.eqb negb fold_right]; ring.
Qed.

Section Deferred.
  Variables (n q : N) (v : bool) (k k' : call).
  Hypothesis Hk : one_more_control q v k k'.
  Let U := apply_mat (call_targets k) (call_controls k) (call_matrix k).
  Let U' := apply_mat (call_targets k') (call_controls k') (call_matrix k').
  Lemma not_target : ~ In q (call_targets k).
  Proof. destruct Hk as [H _]. intros X. apply H. apply in_or_app. now left. Qed.
  Lemma not_control : ~ In q (map fst (call_controls k)).
  Proof. destruct Hk as [H _]. intros X. apply H. apply in_or_app. now right. Qed.
  Lemma controlled_at psi x : U' psi x = if shows_bit q v x then U psi x else psi x.
  Proof.
    destruct Hk as (_ & Et & Ec & Em). unfold U', U, apply_mat. rewrite Et.
    assert (E : ctrl_ok (call_controls k') x = shows_bit q v x && ctrl_ok (call_controls k) x).
    { change (shows_bit q v x && ctrl_ok (call_controls k) x) with (ctrl_ok ((q, v) :: call_controls k) x). unfold ctrl_ok. apply eq_iff_eq_true. rewrite !forallb_forall.
      split; intros H y Hy; apply H; [now apply (Permutation_in y (Permutation_sym Ec))|now apply (Permutation_in y Ec)]. }
    rewrite E. destruct (shows_bit q v x); cbn [andb]; [|reflexivity]. destruct (ctrl_ok (call_controls k) x); [|reflexivity].
    unfold Csum. apply Csuml_ext. intros j _. now rewrite Em.
  Qed.
  Hypothesis Hkeep : forall psi, sqnorm n (U psi) = sqnorm n psi.
  Lemma projected_part b psi : (fun x => if shows_bit q b x then U psi x else C0) = U (fun x => if shows_bit q b x then psi x else C0).
  Proof.
    pose proof (mat_projected (call_targets k) (call_controls k) (call_matrix k) q not_target b 1 psi) as H. fold U in H.
    assert (E : forall z, Cscale 1 z = z) by (intros [a b']; unfold Cscale; cbn [fst snd]; f_equal; ring).
    transitivity (fun x => if shows_bit q b x then Cscale 1 (U psi x) else C0).
    - apply functional_extensionality. intros x. now rewrite E.
    - rewrite <- H. f_equal. apply functional_extensionality. intros x. now rewrite E.
  Qed.
  Lemma controlled_prob b psi : bit_prob n q b (U' psi) = bit_prob n q b psi.
  Proof.
    unfold bit_prob. destruct (Bool.bool_dec b v) as [->|Hb].
    - rewrite (prob_agree n (shows_bit q v) (U' psi) (U psi)) by (intros x Hx; now rewrite controlled_at, Hx).
      rewrite prob_projected, projected_part, Hkeep. symmetry. apply prob_projected.
    - apply prob_agree. intros x Hx. rewrite controlled_at. assert (E : shows_bit q v x = false); [|now rewrite E].
      unfold shows_bit in *. destruct (N.testbit x q), b, v; cbn in *; congruence.
  Qed.
  Lemma controlled_keeps psi : sqnorm n (U' psi) = sqnorm n psi.
  Proof. rewrite <- !(prob_both n q v). now rewrite !controlled_prob. Qed.
  Lemma controlled_shown psi u : shown n q (U' psi) u = shown n q psi u.
  Proof. unfold shown. now rewrite controlled_prob. Qed.
  Lemma controlled_projected b psi : projected n q b (U' psi) = if Bool.eqb b v then U (projected n q b psi) else projected n q b psi.
  Proof.
    unfold projected. rewrite controlled_prob. destruct (Bool.bool_dec b v) as [->|Hb].
    - rewrite Bool.eqb_reflx. unfold U. rewrite mat_projected by apply not_target. apply functional_extensionality. intros x. rewrite controlled_at. now destruct (shows_bit q v x).
    - rewrite (proj2 (Bool.eqb_false_iff b v)) by assumption. apply functional_extensionality. intros x. rewrite controlled_at. unfold shows_bit. destruct (N.testbit x q), b, v; cbn in *; congruence.
  Qed.
  Lemma controlled_measured reset b psi : measured n q reset b (U' psi) = if Bool.eqb b v then U (measured n q reset b psi) else measured n q reset b psi.
  Proof.
    unfold measured. rewrite controlled_projected. destruct (reset && b); [|reflexivity]. destruct (Bool.eqb b v); [|reflexivity].
    unfold U. symmetry. apply mat_flipped; [apply not_target|apply not_control].
  Qed.
  Lemma touches_more ms : touches ms (act_of k') = false <-> touches ms (act_of k) = false /\ ~ In q ms.
  Proof.
    destruct Hk as (_ & Et & Ec & _). unfold touches, act_of. cbn [operands].
    assert (Ho : forall i, In i (call_operands k') <-> i = q \/ In i (call_operands k)).
    { intros i. unfold call_operands. rewrite Et, !in_app_iff. assert (P := Permutation_map fst Ec). cbn [map fst] in P. split; intros [H|H]; auto.
      - apply (Permutation_in i P) in H. destruct H; auto.
      - right. apply (Permutation_in i (Permutation_sym P)). left. auto.
      - destruct H as [H|H]; [now left|]. right. apply (Permutation_in i (Permutation_sym P)). now right. }
    rewrite <- !not_true_iff_false, !existsb_exists. split.
    - intros H. split; [intros (y & Hy & X)|intros X]; apply H.
      + exists y. split; [assumption|]. apply existsb_exists in X. destruct X as (z & Hz & X). apply existsb_exists. exists z. split; [apply Ho; now right|assumption].
      + exists q. split; [assumption|]. apply existsb_exists. exists q. split; [apply Ho; now left|apply N.eqb_refl].
    - intros [H1 H2] (y & Hy & X). apply existsb_exists in X. destruct X as (z & Hz & X). apply N.eqb_eq in X. subst z. apply Ho in Hz. destruct Hz as [->|Hz]; [contradiction|].
      apply H1. exists y. split; [assumption|]. apply existsb_exists. exists y. split; [assumption|apply N.eqb_refl].
  Qed.
  Lemma touches_meas ms bit reset : touches ms (Meas q bit reset) = false <-> ~ In q ms.
  Proof.
    unfold touches. cbn [operands existsb]. rewrite <- not_true_iff_false, existsb_exists. split; intros H X; apply H.
    - exists q. split; [assumption|]. now rewrite N.eqb_refl.
    - destruct X as (y & Hy & X). rewrite orb_false_r in X. apply N.eqb_eq in X. now subst.
  Qed.
  Lemma read_written r bit b : bit < N.of_nat (length r) -> bit_cond bit v (with_bit r bit b) = Ok (Bool.eqb b v).
  Proof.
    intros H. unfold bit_cond, reg_read, with_bit. rewrite nth_error_app2 by (rewrite firstn_length; lia). rewrite firstn_length, Nat.min_l by lia. now rewrite Nat.sub_diag.
  Qed.
  (** The controlled gate and then the measurement, when it runs to the end, does what the measurement and then the
      conditional gate does. *)
  Lemma defer_step bit reset ms us s ms' s' : dexec n [(act_of k', None); (Meas q bit reset, None)] ms us s ms' s' ->
    dexec n [(Meas q bit reset, None); (act_of k, Some (bit_cond bit v))] ms us s ms' s'.
  Proof.
    intros H. apply dexec_one in H. destruct H as [[H _]|(us1 & us2 & s1 & -> & _ & Ht & Hs & H)]; [discriminate|].
    inversion Hs; subst. apply dexec_one in H. destruct H as [[H _]|(us1 & us3 & s1 & -> & _ & Ht' & Hs' & H)]; [discriminate|].
    apply dexec_end in H. destruct H as (-> & -> & ->). cbn [unreset_after] in Ht'. inversion Hs' as [|? ? ? u s0 b Hbit Hnorm Hb| | |]; subst. cbn [s_psi s_reg] in *. fold U' in Hnorm |- *.
    apply touches_more in Ht. destruct Ht as [Ht Hq]. rewrite controlled_keeps in Hnorm. rewrite controlled_shown, controlled_measured. cbn [app].
    apply (dexec_gate n _ _ _ _ [u] [] _ (SState (measured n q reset (shown n q (s_psi s) u) (s_psi s)) (with_bit (s_reg s) bit (shown n q (s_psi s) u)))); [reflexivity|now apply touches_meas|now constructor|].
    set (b := shown n q (s_psi s) u). destruct (Bool.eqb b v) eqn:Eb.
    - refine (dexec_gate n _ _ _ _ [] [] _ _ _ _ _ _ (step_act n _ _ _) _); [cbn [holds s_reg]; now rewrite read_written, Eb| |].
      + assert (X : touches (q :: ms) (act_of k) = false).
        { change ((existsb (N.eqb q) (call_operands k) || touches ms (act_of k))%bool = false). rewrite Ht, orb_false_r. rewrite <- not_true_iff_false, existsb_exists. intros (y & Hy & E). apply N.eqb_eq in E. subst y.
          destruct Hk as [E _]. exact (E Hy). }
        destruct reset; [exact Ht|exact X].
      + cbn [s_psi s_reg unreset_after act_of]. fold U. constructor.
    - apply dexec_skip; [cbn [holds s_reg]; now rewrite read_written, Eb|]. constructor.
  Qed.
End Deferred.
