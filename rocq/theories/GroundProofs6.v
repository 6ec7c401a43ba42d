(** The vectors and the matrix of the Arnoldi iteration. *)
From Verif Require Export GroundProofs5.
From Coq Require Import Lia Lra Psatz.
Open Scope N_scope.
Open Scope list_scope.

Definition olist {T} (l : option T) : list T := match l with Some q => [q] | None => [] end.
Definition bas (l : list state) : nat -> state := fun i => nth i l (fun _ => C0).
Lemma bas_app1 l r i : (i < length l)%nat -> bas (l ++ r) i = bas l i. Proof. apply app_nth1. Qed.
Lemma bas_last l q : bas (l ++ [q]) (length l) = q. Proof. unfold bas. rewrite app_nth2 by lia. now rewrite Nat.sub_diag. Qed.
Lemma length_snoc {T} (l : list T) x : length (l ++ [x]) = S (length l). Proof. rewrite app_length. cbn. lia. Qed.

Lemma Cmul_integral a b : (a * b)%C = C0 -> a = C0 \/ b = C0.
Proof.
  intros H. assert (E : (Cnorm2 a * Cnorm2 b)%R = 0%R) by (rewrite <- Cnorm2_mul, H; unfold Cnorm2, C0; cbn; ring).
  apply Rmult_integral in E. destruct E as [E|E]; [left|right]; now apply Cnorm2_zero.
Qed.

Section Arnoldi.
  Variables (o : operator) (n : N) (mu : C) (psi : state).
  Hypothesis Hf : op_fits n o.
  Hypothesis Hone : sqnorm n psi = 1%R.
  Notation A := (shifted o mu).
  Notation P := (krylov o mu psi).
  Lemma A_lin : linear_map A. Proof. apply shifted_linear. Qed.
  Lemma A_loc : local n A. Proof using Hf. now apply shifted_local. Qed.

  Inductive arn : list state -> option state -> list (list C * R) -> Prop :=
  | arn0 : arn [] (Some psi) []
  | arn_go basis q cols r q' : arn basis (Some q) cols -> (0 < r)%R ->
      (forall i, (i < length (basis ++ [q]))%nat -> inner n (bas (basis ++ [q]) i) q' = C0) -> inner n q' q' = C1 ->
      eqv n (A q) (fun x => proj n (bas (basis ++ [q])) (length (basis ++ [q])) (A q) x + RtoC r * q' x)%C ->
      arn (basis ++ [q]) (Some q') (cols ++ [(map (fun p => inner n p (A q)) (basis ++ [q]), r)])
  | arn_stop basis q cols : arn basis (Some q) cols ->
      eqv n (A q) (proj n (bas (basis ++ [q])) (length (basis ++ [q])) (A q)) ->
      arn (basis ++ [q]) None (cols ++ [(map (fun p => inner n p (A q)) (basis ++ [q]), 0%R)]).

  Lemma arn_cols basis last cols : arn basis last cols -> length cols = length basis.
  Proof. induction 1; [reflexivity| |]; rewrite !length_snoc; congruence. Qed.
  (** the vectors are orthonormal *)
  Lemma arn_ortho basis last cols : arn basis last cols -> orthonormal n (bas (basis ++ olist last)) (length (basis ++ olist last)).
  Proof using Hone.
    induction 1 as [|basis q cols r q' H IH Hr Ho H1 E|basis q cols H IH E]; cbn [olist] in *.
    - intros i j Hi Hj. cbn [app length] in *. assert (i = 0%nat) by lia. assert (j = 0%nat) by lia. subst. cbn [bas nth Nat.eqb app]. rewrite inner_self, Hone. reflexivity.
    - intros i j Hi Hj. rewrite length_snoc in Hi, Hj. set (l := basis ++ [q]) in *.
      destruct (Nat.eq_dec i (length l)) as [->|Hi'], (Nat.eq_dec j (length l)) as [->|Hj'].
      + now rewrite bas_last, Nat.eqb_refl.
      + rewrite bas_last, bas_app1 by lia. rewrite inner_conj, Ho by lia. destruct (Nat.eqb_spec (length l) j); [lia|]. unfold Cconj, C0. cbn. f_equal. ring.
      + rewrite bas_last, bas_app1 by lia. rewrite Ho by lia. destruct (Nat.eqb_spec i (length l)); [lia|reflexivity].
      + rewrite !bas_app1 by lia. apply IH; lia.
    - rewrite app_nil_r. exact IH.
  Qed.
  (** each is mapped into their span *)
  Lemma arn_span basis last cols : arn basis last cols -> forall i, (i < length basis)%nat ->
    in_span n (bas (basis ++ olist last)) (length (basis ++ olist last)) (A (bas basis i)).
  Proof.
    induction 1 as [|basis q cols r q' H IH Hr Ho H1 E|basis q cols H IH E]; cbn [olist] in *; intros i Hi.
    - cbn in Hi. lia.
    - rewrite !length_snoc in *. destruct (Nat.eq_dec i (length basis)) as [->|Hi'].
      + rewrite bas_last. eapply span_eqv; [intros x Hx; symmetry; apply (E x Hx)|]. apply span_add.
        * eapply (span_mono n _ (S (length basis))); [lia|]. eapply span_ext; [|apply span_lin]. intros j Hj x Hx. now rewrite (bas_app1 (basis ++ [q])) by (rewrite length_snoc; lia).
        * assert (Eq : q' = bas ((basis ++ [q]) ++ [q']) (S (length basis))). { rewrite <- (length_snoc basis q). now rewrite bas_last. }
          rewrite Eq at 2. apply span_in. lia.
      + rewrite bas_app1 by lia. eapply (span_mono n _ (S (length basis))); [lia|]. eapply span_ext; [|apply IH; lia]. intros j Hj x Hx. now rewrite (bas_app1 (basis ++ [q])) by (rewrite length_snoc; lia).
    - rewrite app_nil_r. rewrite !length_snoc in *. destruct (Nat.eq_dec i (length basis)) as [->|Hi'].
      + rewrite bas_last. eapply span_eqv; [intros x Hx; symmetry; apply (E x Hx)|]. apply span_lin.
      + rewrite bas_app1 by lia. apply IH. lia.
  Qed.
  (** the matrix is the compression of A - mu *)
  Lemma arn_matrix basis last cols : arn basis last cols -> forall i j, (i < length basis)%nat -> (j < length (basis ++ olist last))%nat ->
    hessenberg cols (N.of_nat j) (N.of_nat i) = inner n (bas (basis ++ olist last) j) (A (bas basis i)).
  Proof using Hone.
    induction 1 as [|basis q cols r q' H IH Hr Ho H1 E|basis q cols H IH E]; intros i j Hi Hj.
    - cbn in Hi. lia.
    - assert (Hl := arn_cols _ _ _ H). cbn [olist] in *. rewrite !length_snoc in *. unfold hessenberg. rewrite !Nat2N.id.
      destruct (Nat.eq_dec i (length basis)) as [->|Hi'].
      + rewrite app_nth2, Hl, Nat.sub_diag by lia. cbn [nth fst snd]. rewrite bas_last. destruct (N.leb_spec (N.of_nat j) (N.of_nat (length basis))).
        * rewrite (bas_app1 (basis ++ [q])) by (rewrite length_snoc; lia). rewrite (nth_indep _ _ (inner n (fun _ => C0) (A q))) by (rewrite map_length, length_snoc; lia).
          rewrite (map_nth (fun p => inner n p (A q))). reflexivity.
        * assert (j = S (length basis)) by lia. subst j. destruct (N.eqb_spec (N.of_nat (S (length basis))) (N.of_nat (length basis) + 1)); [|lia].
          rewrite <- (length_snoc basis q), bas_last. rewrite (inner_eqv n q' (A q) q' _ ltac:(intros x Hx; reflexivity) E), inner_linear, H1.
          unfold proj. rewrite inner_lin, sumn_zero; [ring|]. intros m Hm. rewrite (inner_conj n q'), Ho by exact Hm. c_eq; cbn; ring.
      + rewrite app_nth1 by lia. rewrite (bas_app1 basis) by lia. destruct (Nat.eq_dec j (S (length basis))) as [->|Hj'].
        * destruct (N.leb_spec (N.of_nat (S (length basis))) (N.of_nat i)); [lia|]. destruct (N.eqb_spec (N.of_nat (S (length basis))) (N.of_nat i + 1)); [lia|].
          symmetry. rewrite <- (length_snoc basis q), bas_last. apply (span_orthogonal n (bas (basis ++ [q])) (S (length basis))).
          -- intros m Hm. rewrite inner_conj, Ho by lia. unfold Cconj, C0. cbn. f_equal. ring.
          -- pose proof (arn_span _ _ _ H i ltac:(lia)) as Hs. cbn [olist] in Hs. now rewrite length_snoc in Hs.
        * rewrite (bas_app1 (basis ++ [q])) by (rewrite length_snoc; lia). rewrite <- (IH i j) by lia. unfold hessenberg. rewrite !Nat2N.id. reflexivity.
    - assert (Hl := arn_cols _ _ _ H). cbn [olist] in *. rewrite app_nil_r in *. rewrite !length_snoc in *. unfold hessenberg. rewrite !Nat2N.id.
      destruct (Nat.eq_dec i (length basis)) as [->|Hi'].
      + rewrite app_nth2, Hl, Nat.sub_diag by lia. cbn [nth fst snd]. rewrite bas_last. destruct (N.leb_spec (N.of_nat j) (N.of_nat (length basis))); [|lia].
        rewrite (nth_indep _ _ (inner n (fun _ => C0) (A q))) by (rewrite map_length, length_snoc; lia).
        rewrite (map_nth (fun p => inner n p (A q))). reflexivity.
      + rewrite app_nth1 by lia. rewrite (bas_app1 basis _ i) by lia. rewrite <- (IH i j) by lia. unfold hessenberg. rewrite !Nat2N.id. reflexivity.
  Qed.
  (** the vectors span the Krylov space *)
  Lemma krylov_step j phi : in_span n P j phi -> in_span n P (S j) (A phi).
  Proof using Hf. intros H. apply (span_map n A P j (S j) P phi A_lin A_loc H). intros i Hi. change (A (P i)) with (P (S i)). apply span_in. lia. Qed.
  Lemma arn_krylov basis last cols : arn basis last cols -> forall i, (i < length (basis ++ olist last))%nat -> in_span n P (S i) (bas (basis ++ olist last) i).
  Proof using Hf.
    induction 1 as [|basis q cols r q' H IH Hr Ho H1 E|basis q cols H IH E]; intros i Hi; cbn [olist] in *.
    - cbn in Hi. assert (i = 0%nat) by lia. subst. cbn [app bas nth]. change psi with (P 0%nat) at 2. apply span_in. lia.
    - rewrite length_snoc in Hi. destruct (Nat.eq_dec i (length (basis ++ [q]))) as [->|Hi']; [|rewrite bas_app1 by lia; apply IH; lia]. rewrite bas_last. rewrite length_snoc in *.
      eapply span_eqv with (a := fun x => (C0 + RtoC (/ r) * (A q x + (- C1) * proj n (bas (basis ++ [q])) (S (length basis)) (A q) x))%C).
      + intros x Hx. rewrite (E x Hx). assert (Hrr : (RtoC (/ r) * RtoC r = C1)%C) by (rewrite <- RtoC_mul, Rinv_l by lra; reflexivity).
        transitivity ((RtoC (/ r) * RtoC r) * q' x)%C; [ring|]. rewrite Hrr. ring.
      + apply (span_add n P _ (fun _ => C0)); [apply span_zero|]. apply span_add.
        * apply krylov_step. rewrite <- (bas_last basis q). apply IH. lia.
        * apply span_sum. intros m Hm. eapply (span_mono n P (S m)); [lia|]. apply IH. lia.
    - rewrite app_nil_r in *. now apply IH.
  Qed.
  Lemma arn_spans_krylov basis last cols : arn basis last cols -> forall j, (j < length (basis ++ olist last))%nat -> in_span n (bas (basis ++ olist last)) (S j) (P j).
  Proof using Hf.
    induction 1 as [|basis q cols r q' H IH Hr Ho H1 E|basis q cols H IH E]; intros j Hj; cbn [olist] in *.
    - cbn in Hj. assert (j = 0%nat) by lia. subst. cbn [app]. change (P 0%nat) with (bas [psi] 0). apply span_in. lia.
    - rewrite length_snoc in Hj. destruct (Nat.eq_dec j (length (basis ++ [q]))) as [->|Hj'].
      + rewrite length_snoc. change (P (S (length basis))) with (A (P (length basis))).
        apply (span_map n A (bas (basis ++ [q])) (S (length basis)) (S (S (length basis))) _ _ A_lin A_loc).
        * apply IH. rewrite length_snoc. lia.
        * intros i Hi. pose proof (arn_span _ _ _ (arn_go _ _ _ _ _ H Hr Ho H1 E) i) as Hs. cbn [olist] in Hs. rewrite !length_snoc in Hs. apply Hs. lia.
      + eapply span_ext; [|apply IH; lia]. intros i Hi x Hx. now rewrite (bas_app1 (basis ++ [q])) by lia.
    - rewrite app_nil_r in *. now apply IH.
  Qed.
  Lemma arn_closed basis cols : arn basis None cols -> in_span n P (length basis) (P (length basis)).
  Proof using Hf.
    intros H. inversion H as [| |basis' q cols' H0 E Eb Ec]; subst. rewrite length_snoc.
    eapply (span_trans n P (S (length basis')) (bas (basis' ++ [q])) (S (length basis'))).
    - intros j Hj. eapply (span_mono n P (S j)); [lia|]. pose proof (arn_krylov _ _ _ H0 j) as Hk. cbn [olist] in Hk. rewrite length_snoc in Hk. auto.
    - change (P (S (length basis'))) with (A (P (length basis'))). apply (span_map n A (bas (basis' ++ [q])) (S (length basis')) (S (length basis')) _ _ A_lin A_loc).
      + apply (arn_spans_krylov _ _ _ H0). cbn [olist]. rewrite length_snoc. lia.
      + intros i Hi. pose proof (arn_span _ _ _ H i) as Hs. cbn [olist] in Hs. rewrite app_nil_r, length_snoc in Hs. auto.
  Qed.
  (** each Krylov vector has a component along the vector made from it *)
  Lemma arn_diagonal basis last cols : arn basis last cols -> forall j, (j < length (basis ++ olist last))%nat -> inner n (bas (basis ++ olist last) j) (P j) <> C0.
  Proof using Hf Hone.
    induction 1 as [|basis q cols r q' H IH Hr Ho H1 E|basis q cols H IH E]; intros j Hj; cbn [olist] in *.
    - cbn in Hj. assert (j = 0%nat) by lia. subst. cbn [app bas nth]. change (P 0%nat) with psi. rewrite inner_self, Hone. intros [= E]. lra.
    - rewrite length_snoc in Hj. destruct (Nat.eq_dec j (length (basis ++ [q]))) as [->|Hj']; [|rewrite bas_app1 by lia; apply IH; lia]. rewrite bas_last. rewrite length_snoc in *.
      change (P (S (length basis))) with (A (P (length basis))). pose proof (arn_spans_krylov _ _ _ H (length basis)) as Hs. cbn [olist] in Hs. rewrite length_snoc in Hs. specialize (Hs ltac:(lia)).
      assert (Hort := arn_ortho _ _ _ H). cbn [olist] in Hort. rewrite length_snoc in Hort. pose proof (span_proj n _ _ _ Hort Hs) as Hp.
      rewrite (inner_eqv n q' (A (P (length basis))) q' (lin (S (length basis)) (fun i => inner n (bas (basis ++ [q]) i) (P (length basis))) (fun i => A (bas (basis ++ [q]) i)))).
      2:{ intros x Hx; reflexivity. }
      2:{ intros x Hx. rewrite <- (linear_lin n A A_lin A_loc) by exact Hx. apply A_loc; [exact Hp|exact Hx]. }
      assert (Ho' : forall m, (m < S (length basis))%nat -> inner n q' (bas (basis ++ [q]) m) = C0).
      { intros m Hm. rewrite inner_conj, Ho by exact Hm. unfold Cconj, C0. cbn. f_equal. ring. }
      rewrite inner_lin, sumn_S, sumn_zero.
      + rewrite bas_last. rewrite (inner_eqv n q' (A q) q' _ ltac:(intros x Hx; reflexivity) E), inner_linear, H1. unfold proj. rewrite inner_lin, sumn_zero by (intros m Hm; rewrite Ho' by exact Hm; ring).
        specialize (IH (length basis) ltac:(lia)). rewrite bas_last in IH. intros Ez.
        assert (Ez2 : (inner n q (P (length basis)) * RtoC r = C0)%C) by (rewrite <- Ez; ring). apply IH.
        transitivity (inner n q (P (length basis)) * (RtoC r * RtoC (/ r)))%C; [rewrite <- RtoC_mul, Rinv_r by lra; c_eq; cbn; ring|]. transitivity (C0 * RtoC (/ r))%C; [rewrite <- Ez2; ring|ring].
      + intros m Hm. rewrite bas_app1 by lia. rewrite (span_orthogonal n (bas (basis ++ [q])) (S (length basis)) (A (bas basis m)) q' Ho'); [ring|].
        pose proof (arn_span _ _ _ H m Hm) as Hsm. cbn [olist] in Hsm. now rewrite length_snoc in Hsm.
    - rewrite app_nil_r in *. now apply IH.
  Qed.
  Lemma orthonormal_shorter f k m : orthonormal n f k -> (m <= k)%nat -> orthonormal n f m. Proof. intros H Hm i j Hi Hj. apply H; lia. Qed.
  Lemma arn_independent basis last cols : arn basis last cols -> lin_independent n P (length (basis ++ olist last)).
  Proof using Hf Hone.
    intros H. set (m := length (basis ++ olist last)). set (f := bas (basis ++ olist last)). assert (Ho : orthonormal n f m) by apply (arn_ortho _ _ _ H). intros c Hc.
    enough (Hk : forall k, (k <= m)%nat -> forall i, (m - k <= i < m)%nat -> c i = C0) by (intros i Hi; apply (Hk m ltac:(lia)); lia).
    induction k as [|k IH]; intros Hk i Hi; [lia|]. destruct (Nat.eq_dec i (m - S k)) as [->|Hne]; [|apply IH; lia]. set (j := (m - S k)%nat) in *.
    assert (Ej : inner n (f j) (lin m c P) = (c j * inner n (f j) (P j))%C).
    { rewrite inner_lin. apply (sumn_single m j); [unfold j; lia|]. intros i Hi' Hne. destruct (Nat.lt_ge_cases i j) as [Hlt|Hge].
      - rewrite (span_orthogonal n f (S i) (P i) (f j)); [ring| |].
        + intros l Hl. rewrite Ho by (unfold j in *; lia). destruct (Nat.eqb_spec j l); [lia|reflexivity].
        + apply (arn_spans_krylov _ _ _ H). fold m. lia.
      - rewrite (IH ltac:(lia) i) by (unfold j in *; lia). ring. }
    rewrite (inner_eqv n (f j) (lin m c P) (f j) (fun _ => C0)) in Ej by (intros x Hx; try reflexivity; apply (Hc x Hx)). rewrite inner_zero_r in Ej.
    pose proof (arn_diagonal _ _ _ H j ltac:(fold m; unfold j; lia)) as Hd. fold f in Hd. symmetry in Ej. apply Cmul_integral in Ej. destruct Ej; [assumption|contradiction].
  Qed.
End Arnoldi.
