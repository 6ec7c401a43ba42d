(** The executions of the Arnoldi iteration. *)
From Verif Require Export GroundProofs6.
From Coq Require Import Lia Lra Psatz.
Open Scope N_scope.
Open Scope list_scope.

Lemma sumn_first k f : sumn (S k) f = (f 0%nat + sumn k (fun i => f (S i)))%C.
Proof. induction k as [|k IH]; [rewrite sumn_S, !sumn_0; ring|]. rewrite sumn_S, IH, (sumn_S k (fun i => f (S i))). ring. Qed.
Lemma lin_first k c f x : lin (S k) c f x = (c 0%nat * f 0%nat x + lin k (fun i => c (S i)) (fun i => f (S i)) x)%C.
Proof. unfold lin. now rewrite sumn_first. Qed.
Lemma proj_cons n q r v x : proj n (bas (q :: r)) (length (q :: r)) v x = (inner n q v * q x + proj n (bas r) (length r) v x)%C.
Proof. unfold proj. cbn [length]. rewrite lin_first. reflexivity. Qed.
Lemma orthonormal_tail n q r : orthonormal n (bas (q :: r)) (length (q :: r)) -> orthonormal n (bas r) (length r) /\ forall p, In p r -> inner n p q = C0.
Proof.
  intros H. split.
  - intros i j Hi Hj. exact (H (S i) (S j) ltac:(cbn; lia) ltac:(cbn; lia)).
  - intros p Hp. destruct (In_nth r p (fun _ => C0) Hp) as (i & Hi & <-). exact (H (S i) 0%nat ltac:(cbn; lia) ltac:(cbn; lia)).
Qed.
Lemma orthogonalize_ok n l : orthonormal n (bas l) (length l) -> forall w, runs (orthogonalize n l) w (done (fun coefs w' =>
  coefs = map (fun p => inner n p (w_amp w)) l /\ eqv n (w_amp w') (fun x => w_amp w x - proj n (bas l) (length l) (w_amp w) x)%C)).
Proof.
  induction l as [|q r IH]; intros Ho w.
  - apply runs_ret. split; [reflexivity|]. intros x _. unfold proj, lin. cbn [length]. rewrite sumn_0. ring.
  - destruct (orthonormal_tail n q r Ho) as [Hr Hq]. cbn [orthogonalize]. eapply returns_bind.
    { apply (hsum_returns_C (2 ^ n) (2 ^ n) (fun i => RRd i (fun a => RVal (Cconj (q i) * a)%C)) w (fun i => Cconj (q i) * w_amp w i)%C).
      intros i Hi. cbn [rrun]. apply N.ltb_lt in Hi. now rewrite Hi. }
    fold (inner n q (w_amp w)). set (c := inner n q (w_amp w)).
    eapply runs_bind_done; [apply add_ok; right; lia|]. intros _ w1 (H1 & _). cbv beta iota in H1. eapply runs_bind_done; [apply (IH Hr w1)|]. intros coefs w2 [-> H2]. apply runs_ret.
    assert (Hc : forall p, In p r -> inner n p (w_amp w1) = inner n p (w_amp w)).
    { intros p Hp. rewrite (inner_eqv n p (w_amp w1) p _ ltac:(intros x Hx; reflexivity) H1), inner_linear, (Hq p Hp). ring. }
    split.
    + cbn [map]. f_equal. apply map_ext_in. exact Hc.
    + intros x Hx. rewrite (H2 x Hx), (H1 x Hx), proj_cons. fold c. assert (Ep : proj n (bas r) (length r) (w_amp w1) x = proj n (bas r) (length r) (w_amp w) x).
      { unfold proj, lin. apply sumn_ext. intros i Hi. f_equal. apply Hc. now apply nth_In. }
      rewrite Ep. ring.
Qed.

Section Loop.
  Variables (o : operator) (n : N) (mu : C) (psi : state).
  Hypothesis Hn0 : 0 < n.
  Hypothesis Hn : n <= 63.
  Hypothesis Hf : op_fits n o.
  Hypothesis Hone : sqnorm n psi = 1%R.
  Notation A := (shifted o mu).
  Notation P := (krylov o mu psi).
  Notation arn := (arn o n mu psi).
  Lemma not_independent j k : (j < k)%nat -> in_span n P j (P j) -> ~ lin_independent n P k.
  Proof.
    intros Hj [c Hc] Hi. assert (Hz : C1 = C0 -> False) by (intros [= E]; lra).
    specialize (Hi (fun i => if (i <? S j)%nat then (if (i =? j)%nat then C1 else - c i)%C else C0)). cbv beta in Hi.
    assert (H : forall x, x < 2 ^ n -> sumn k (fun i => (if (i <? S j)%nat then if (i =? j)%nat then C1 else - c i else C0) * P i x)%C = C0).
    { intros x Hx. rewrite (sumn_ext k _ (fun i => if (i <? S j)%nat then ((if (i =? j)%nat then C1 else - c i) * P i x)%C else C0)) by (intros i _; destruct (i <? S j)%nat; ring).
      rewrite (sumn_extend (S j) k (fun i => (if (i =? j)%nat then C1 else - c i) * P i x)%C) by lia. rewrite sumn_S, Nat.eqb_refl, (Hc x Hx).
      rewrite (sumn_ext j _ (fun i => (- C1) * (c i * P i x))%C) by (intros i Hi'; destruct (Nat.eqb_spec i j); [lia|ring]). rewrite sumn_mul. ring. }
    specialize (Hi H j Hj). destruct (Nat.ltb_spec j (S j)); [|lia]. rewrite Nat.eqb_refl in Hi. exact (Hz Hi).
  Qed.
  Lemma independent_shorter k m : (k <= m)%nat -> lin_independent n P m -> lin_independent n P k.
  Proof.
    intros Hk H c Hc i Hi. specialize (H (fun i => if (i <? k)%nat then c i else C0)). cbv beta in H.
    assert (Hs : forall x, x < 2 ^ n -> sumn m (fun i => (if (i <? k)%nat then c i else C0) * P i x)%C = C0).
    { intros x Hx. rewrite (sumn_ext m _ (fun i => if (i <? k)%nat then (c i * P i x)%C else C0)) by (intros j _; destruct (j <? k)%nat; ring). rewrite (sumn_extend k m (fun i => c i * P i x)%C Hk). auto. }
    specialize (H Hs i ltac:(lia)). apply Nat.ltb_lt in Hi. now rewrite Hi in H.
  Qed.
  Definition loop_outcome (k : nat) (out : houtcome world (list state * list (list C * R))) : Prop :=
    match out with
    | HDone bc _ => exists last, arn (fst bc) last (snd bc) /\ length (fst bc) = k
    | HThrown _ => False
    | HUndefined => ~ lin_independent n P k
    end.
  Lemma loop_ok left : forall basis q cols w, arn basis (Some q) cols -> runs (arnoldi_loop o n mu left basis (Some q) cols) w (loop_outcome (left + length basis)).
  Proof using All.
    induction left as [|k IH]; intros basis q cols w Ha; [apply runs_ret; exists (Some q); cbn; auto|]. cbn [arnoldi_loop].
    assert (Ho := arn_ortho o n mu psi Hone _ _ _ Ha). cbn [olist] in Ho.
    eapply runs_bind_done; [apply runs_modify; instantiate (1 := fun _ w1 => w_amp w1 = q); reflexivity|]. intros u w1 H1. cbv beta in H1.
    eapply runs_bind_done; [apply apply_to_state_ok; assumption|]. intros _ w2 (H2 & _).
    eapply runs_bind_done; [apply add_ok; right; lia|]. intros _ w3 (H3 & _). cbv beta iota in H3.
    assert (H3' : eqv n (w_amp w3) (A q)). { intros x Hx. rewrite (H3 x Hx), (H2 x Hx), H1. unfold shifted. ring. }
    eapply runs_bind_done; [apply (orthogonalize_ok n (basis ++ [q]) Ho w3)|]. intros coefs w4 [-> H4].
    assert (Hin : forall p, inner n p (w_amp w3) = inner n p (A q)) by (intros p; apply inner_eqv; [intros x Hx; reflexivity|exact H3']).
    rewrite (map_ext _ (fun p => inner n p (A q))) by exact Hin.
    assert (H4' : eqv n (w_amp w4) (fun x => A q x - proj n (bas (basis ++ [q])) (length (basis ++ [q])) (A q) x)%C).
    { intros x Hx. rewrite (H4 x Hx), (H3' x Hx). f_equal. unfold proj, lin. apply sumn_ext. intros i _. now rewrite Hin. }
    set (l := basis ++ [q]) in *. eapply returns_bind; [apply squared_norm_ok|]. cbv zeta. set (s := sqnorm n (w_amp w4)). pose proof (sqnorm_nonneg n (w_amp w4)) as Hs. fold s in Hs.
    destruct (Req_EM_T (sqrt s) 0) as [Ez|Ez].
    - assert (Hz : s = 0%R) by now apply sqrt_eq_0. rewrite Ez.
      assert (Hst : arn l None (cols ++ [(map (fun p => inner n p (A q)) l, 0%R)])).
      { apply arn_stop; [exact Ha|]. intros x Hx. assert (E0 : w_amp w4 x = C0). { apply Cnorm2_zero. eapply (Rsuml_zero (fun x => Cnorm2 (w_amp w4 x)) (seqN (2 ^ n))); [intros; apply Cnorm2_nonneg|exact Hz|now apply in_seqN]. }
        rewrite (H4' x Hx) in E0. fold l. transitivity (A q x - proj n (bas l) (length l) (A q) x + proj n (bas l) (length l) (A q) x)%C; [ring|]. rewrite E0. ring. }
      destruct k as [|k].
      + cbn [arnoldi_loop]. apply runs_ret. exists None. split; [exact Hst|]. cbn [fst]. unfold l. rewrite length_snoc. reflexivity.
      + cbn [arnoldi_loop]. split; [|eexists; reflexivity]. intros out ->. cbn [loop_outcome]. apply (not_independent (length l)).
        * unfold l. rewrite length_snoc. lia.
        * exact (arn_closed o n mu psi Hf _ _ Hst).
    - assert (Hpos : (0 < sqrt s)%R) by (pose proof (sqrt_pos s); lra). eapply runs_bind_done; [apply multiply_ok|]. intros _ w5 (H5 & _). cbv beta in H5.
      eapply returns_bind; [apply runs_get; reflexivity|]. replace (S k + length basis)%nat with (k + length l)%nat by (unfold l; rewrite length_snoc; lia). apply IH.
      assert (E5 : eqv n (w_amp w5) (fun x => C0 + RtoC (/ sqrt s) * w_amp w4 x)%C). { intros x Hx. rewrite (H5 x Hx). c_eq; cbn; field; lra. }
      assert (E4 : inner n (w_amp w4) (w_amp w4) = RtoC s) by apply inner_self.
      apply arn_go; [exact Ha|exact Hpos| | |]; fold l.
      + intros i Hi. rewrite (inner_eqv n (bas l i) (w_amp w5) (bas l i) _ ltac:(intros x Hx; reflexivity) E5), inner_linear, inner_zero_r.
        rewrite (inner_eqv n (bas l i) (w_amp w4) (bas l i) (fun x => A q x + (- C1) * proj n (bas l) (length l) (A q) x)%C); [|intros x Hx; reflexivity|intros x Hx; rewrite (H4' x Hx); ring].
        rewrite inner_linear. unfold proj. rewrite orthonormal_coef by assumption. ring.
      + rewrite (inner_eqv n (w_amp w5) (w_amp w5) _ _ E5 E5). rewrite inner_linear, !inner_linear_l, E4, !inner_zero_r.
        assert (Ez' : inner n (fun _ => C0) (w_amp w4) = C0) by (rewrite inner_conj, inner_zero_r; unfold Cconj, C0; cbn; f_equal; ring). rewrite Ez'.
        transitivity (RtoC (/ sqrt s * / sqrt s * s)); [c_eq; cbn; ring|]. rewrite <- (sqrt_sqrt s Hs) at 3. change C1 with (RtoC 1). f_equal. field. lra.
      + intros x Hx. rewrite (E5 x Hx), (H4' x Hx). transitivity (proj n (bas l) (length l) (A q) x + (RtoC (sqrt s) * RtoC (/ sqrt s)) * (A q x - proj n (bas l) (length l) (A q) x))%C; [|ring].
        rewrite <- RtoC_mul, Rinv_r by lra. change (RtoC 1) with C1. ring.
  Qed.
  Lemma combine_ok y l : forall i w, runs (combine_basis n y i l) w (done (fun _ w' => eqv n (w_amp w') (fun x => w_amp w x + lin (length l) (fun j => y (i + N.of_nat j)%N) (bas l) x)%C)).
  Proof.
    induction l as [|q r IH]; intros i w; cbn [combine_basis].
    - apply runs_ret. intros x _. unfold lin. cbn [length]. rewrite sumn_0. ring.
    - eapply runs_bind_done; [apply add_ok; right; lia|]. intros _ w1 (H1 & _). cbv beta iota in H1. eapply runs_weaken; [apply IH|]. intros [u w2|w2|] H; cbn [done] in *; try contradiction.
      intros x Hx. rewrite (H x Hx), (H1 x Hx). cbn [length]. rewrite lin_first. replace (i + N.of_nat 0) with i by lia.
      assert (E : lin (length r) (fun j => y (i + 1 + N.of_nat j)) (bas r) x = lin (length r) (fun i0 => y (i + N.of_nat (S i0))) (fun i0 => bas (q :: r) (S i0)) x).
      { unfold lin. apply sumn_ext. intros j _. replace (i + N.of_nat (S j)) with (i + 1 + N.of_nat j) by lia. reflexivity. }
      rewrite E. change (bas (q :: r) 0%nat x) with (q x). ring.
  Qed.
End Loop.
