(** What the Arnoldi method returns. *)
From Verif Require Export GroundProofs7.
From Coq Require Import Lia Lra Psatz.
Open Scope N_scope.
Open Scope list_scope.

Lemma Csum_sumn D k (f : nat -> N -> C) : Csum D (fun x => sumn k (fun i => f i x)) = sumn k (fun i => Csum D (f i)).
Proof.
  induction k as [|k IH]; [rewrite sumn_0; now apply Csum_zero|]. rewrite sumn_S, <- IH. unfold Csum, Csuml. induction (seqN D) as [|x l IHl]; cbn [map fold_right]; [ring|]. rewrite IHl, sumn_S. ring.
Qed.
Lemma min_element_in l : forall e, In (min_element e l) (e :: l).
Proof.
  induction l as [|a l IH]; intros e; cbn [min_element]; [now left|]. destruct (Rlt_dec _ _).
  - right. apply IH.
  - destruct (IH e) as [E|H]; [left; exact E|right; right; exact H].
Qed.
Lemma min_element_least l : forall e p, In p (e :: l) -> (fst (fst (min_element e l)) <= fst (fst p))%R.
Proof.
  induction l as [|a l IH]; intros e p Hp; cbn [min_element]; [destruct Hp as [<-|[]]; lra|]. destruct (Rlt_dec (fst (fst a)) (fst (fst e))) as [Hl|Hl].
  - destruct Hp as [<-|[<-|Hp]]; [|apply IH; now left|apply IH; now right]. pose proof (IH a a (or_introl eq_refl)). lra.
  - destruct Hp as [<-|[<-|Hp]]; [apply IH; now left| |apply IH; now right]. pose proof (IH e e (or_introl eq_refl)). lra.
Qed.

Lemma sumn_minus k c f g : (sumn k f - c * sumn k g = sumn k (fun i => f i - c * g i))%C.
Proof. induction k as [|k IH]; [rewrite !sumn_0; ring|]. rewrite !sumn_S, <- IH. ring. Qed.
Lemma Ceq_dec (a b : C) : {a = b} + {a <> b}.
Proof. destruct a as [u v], b as [x y]. destruct (Req_EM_T u x) as [->|H]; [destruct (Req_EM_T v y) as [->|H]; [now left|]|]; right; congruence. Qed.

Section Ritz.
  Variables (o : operator) (n : N) (mu : C) (psi : state).
  Hypothesis Hf : op_fits n o.
  Hypothesis Hone : sqnorm n psi = 1%R.
  Notation A := (shifted o mu).
  Notation P := (krylov o mu psi).
  Notation arn := (arn o n mu psi).
  Variables (basis : list state) (last : option state) (cols : list (list C * R)).
  Hypothesis Ha : arn basis last cols.
  Let k := length basis.
  Let b := bas basis.
  Definition ritz (y : N -> C) : state := lin k (at_index y) b.
  Lemma b_all i : (i < k)%nat -> bas (basis ++ olist last) i = b i. Proof. intros Hi. now apply bas_app1. Qed.
  Lemma b_ortho : orthonormal n b k.
  Proof using Hone Ha.
    intros i j Hi Hj. assert (Ho := arn_ortho o n mu psi Hone _ _ _ Ha). rewrite <- !b_all by assumption. apply Ho; rewrite app_length; unfold k in *; lia.
  Qed.
  Lemma matrix_entry i j : (i < k)%nat -> (j < k)%nat -> hessenberg cols (N.of_nat j) (N.of_nat i) = inner n (b j) (A (b i)).
  Proof using Hone Ha. intros Hi Hj. rewrite (arn_matrix o n mu psi Hone _ _ _ Ha) by (try rewrite app_length; unfold k in *; lia). now rewrite b_all. Qed.
  Lemma krylov_basis phi : in_span n P k phi -> in_span n b k phi.
  Proof using Hf Ha.
    apply span_trans. intros j Hj. eapply (span_mono n b (S j)); [lia|]. eapply span_ext; [|apply (arn_spans_krylov o n mu psi Hf _ _ _ Ha); rewrite app_length; unfold k in *; lia].
    intros i Hi x Hx. now rewrite b_all by lia.
  Qed.
  Lemma basis_krylov phi : in_span n b k phi -> in_span n P k phi.
  Proof using Hf Ha.
    apply span_trans. intros j Hj. eapply (span_mono n P (S j)); [lia|]. rewrite <- b_all by assumption. apply (arn_krylov o n mu psi Hf _ _ _ Ha). rewrite app_length. unfold k in *. lia.
  Qed.
  Lemma ritz_orthogonal p : is_eigenpair k (hessenberg cols) p -> forall phi, in_span n b k phi ->
    inner n phi (fun x => A (ritz (snd p)) x + (- fst p) * ritz (snd p) x)%C = C0.
  Proof using Hf Hone Ha.
    intros [_ He] phi Hphi. rewrite inner_conj. rewrite (span_orthogonal n b k phi _); [unfold Cconj, C0; cbn; f_equal; ring| |exact Hphi].
    intros j Hj. rewrite inner_conj, inner_linear. unfold ritz at 2. rewrite (orthonormal_coef n b k _ j b_ortho Hj).
    rewrite (inner_eqv n (b j) (A (ritz (snd p))) (b j) (lin k (at_index (snd p)) (fun i => A (b i)))); [|intros x Hx; reflexivity|intros x Hx; apply (linear_lin n A (A_lin o mu) (A_loc o n mu Hf)); exact Hx].
    rewrite inner_lin. rewrite (sumn_ext k _ (fun i => hessenberg cols (N.of_nat j) (N.of_nat i) * at_index (snd p) i)%C) by (intros i Hi; rewrite matrix_entry by assumption; ring).
    rewrite (He j Hj). c_eq; cbn; ring.
  Qed.
  Lemma ritz_span y : in_span n b k (ritz y). Proof. apply span_lin. Qed.
  Lemma ritz_norm p : is_eigenpair k (hessenberg cols) p -> (0 < sqnorm n (ritz (snd p)))%R.
  Proof using Hone Ha.
    intros [(i & Hi & Hy) _]. pose proof (sqnorm_nonneg n (ritz (snd p))) as H. destruct (Req_dec (sqnorm n (ritz (snd p))) 0) as [E|E]; [|lra]. exfalso. apply Hy.
    pose proof (orthonormal_coef n b k (at_index (snd p)) i b_ortho Hi) as Hc. fold (ritz (snd p)) in Hc. rewrite <- Hc.
    rewrite (inner_eqv n (b i) (ritz (snd p)) (b i) (fun _ => C0)); [apply inner_zero_r|intros x Hx; reflexivity|]. intros x Hx. apply Cnorm2_zero.
    eapply (Rsuml_zero (fun x => Cnorm2 (ritz (snd p) x)) (seqN (2 ^ n))); [intros; apply Cnorm2_nonneg|exact E|now apply in_seqN].
  Qed.
  (** when the space is closed, exactly *)
  Lemma ritz_exact p : last = None -> is_eigenpair k (hessenberg cols) p -> eqv n (A (ritz (snd p))) (fun x => fst p * ritz (snd p) x)%C.
  Proof using Hf Hone Ha.
    intros Hl Hp. set (res := fun x => (A (ritz (snd p)) x + (- fst p) * ritz (snd p) x)%C).
    assert (Hs : in_span n b k res).
    { apply span_add; [|apply ritz_span]. apply (span_map n A b k k b _ (A_lin o mu) (A_loc o n mu Hf) (ritz_span _)). intros i Hi.
      pose proof (arn_span o n mu psi _ _ _ Ha i Hi) as Hsp. rewrite Hl in Hsp. cbn [olist] in Hsp. rewrite app_nil_r in Hsp. exact Hsp. }
    assert (Hz : inner n res res = C0) by exact (ritz_orthogonal p Hp res Hs). rewrite inner_self in Hz. injection Hz as Hz.
    intros x Hx. assert (E : res x = C0). { apply Cnorm2_zero. eapply (Rsuml_zero (fun x => Cnorm2 (res x)) (seqN (2 ^ n))); [intros; apply Cnorm2_nonneg|exact Hz|now apply in_seqN]. }
    unfold res in E. transitivity (A (ritz (snd p)) x + - fst p * ritz (snd p) x + fst p * ritz (snd p) x)%C; [ring|]. rewrite E. ring.
  Qed.
  (** the matrix of a self-adjoint operator is Hermitian, and the smallest eigenvalue the smallest energy *)
  Variable m : R.
  Hypothesis Hmu : mu = RtoC m.
  Hypothesis Hsa : self_adjoint n (op_act o).
  Lemma A_sa : self_adjoint n A. Proof using Hmu Hsa. rewrite Hmu. now apply shifted_self_adjoint. Qed.
  Lemma matrix_hermitian : hermitian_up_to k (hessenberg cols).
  Proof using Hone Ha Hmu Hsa. intros i j Hi Hj. rewrite !matrix_entry by assumption. rewrite (inner_conj n (b j)). f_equal. symmetry. apply A_sa. Qed.
  Lemma ritz_pair (p q : C * (N -> C)) : is_eigenpair k (hessenberg cols) q -> inner n (ritz (snd p)) (A (ritz (snd q))) = (fst q * inner n (ritz (snd p)) (ritz (snd q)))%C.
  Proof using Hf Hone Ha.
    intros Hq. pose proof (ritz_orthogonal q Hq (ritz (snd p)) (ritz_span _)) as H. rewrite inner_linear in H.
    transitivity (inner n (ritz (snd p)) (A (ritz (snd q))) + - fst q * inner n (ritz (snd p)) (ritz (snd q)) + fst q * inner n (ritz (snd p)) (ritz (snd q)))%C; [ring|]. rewrite H. ring.
  Qed.
  Lemma ritz_real p : is_eigenpair k (hessenberg cols) p -> snd (fst p) = 0%R.
  Proof using Hf Hone Ha Hmu Hsa.
    intros Hp. pose proof (ritz_pair p p Hp) as H. rewrite inner_self, (quad_real n A _ A_sa) in H. pose proof (ritz_norm p Hp) as Hn. destruct (fst p) as [u v]. injection H as _ H. cbn. nra.
  Qed.
  Lemma ritz_distinct p q : is_eigenpair k (hessenberg cols) p -> is_eigenpair k (hessenberg cols) q -> fst p <> fst q -> inner n (ritz (snd p)) (ritz (snd q)) = C0.
  Proof using Hf Hone Ha Hmu Hsa.
    intros Hp Hq Hne. pose proof (ritz_pair p q Hq) as H1. pose proof (ritz_pair q p Hp) as H2. assert (H3 : inner n (ritz (snd p)) (A (ritz (snd q))) = Cconj (inner n (ritz (snd q)) (A (ritz (snd p))))).
    { rewrite <- inner_conj. apply A_sa. }
    rewrite H1, H2, Cconj_mul, <- inner_conj in H3. assert (Hr : Cconj (fst p) = fst p). { pose proof (ritz_real p Hp) as E. destruct (fst p) as [u v]. cbn in E. subst. unfold Cconj. cbn. f_equal. ring. }
    rewrite Hr in H3. assert (H4 : ((fst q - fst p) * inner n (ritz (snd p)) (ritz (snd q)) = C0)%C).
    { transitivity (fst q * inner n (ritz (snd p)) (ritz (snd q)) - fst p * inner n (ritz (snd p)) (ritz (snd q)))%C; [ring|]. rewrite H3. ring. }
    apply Cmul_integral in H4. destruct H4 as [H4|H4]; [|exact H4]. exfalso. apply Hne. transitivity (fst q - fst p + fst p)%C; [rewrite H4|]; ring.
  Qed.
  Lemma ritz_least l best : Forall (is_eigenpair k (hessenberg cols)) l -> spanning k l -> In best l -> (forall p, In p l -> (fst (fst best) <= fst (fst p))%R) ->
    forall phi, in_span n P k phi -> ((fst (fst best) + m) * sqnorm n phi <= Re (inner n phi (op_act o phi)))%R.
  Proof using Hf Hone Ha Hmu Hsa.
    intros Hl Hsp Hb Hmin phi Hphi. apply krylov_basis in Hphi. destruct Hphi as [v Hv]. rewrite Forall_forall in Hl.
    set (item := fun i => nth i l (C0, fun _ => C0)). assert (Hin : forall i, (i < length l)%nat -> In (item i) l) by (intros; now apply nth_In).
    destruct (Hsp (fun i => v (N.to_nat i))) as [c Hc]. set (u := fun i => ritz (snd (item i))). set (L := length l) in *.
    assert (Ephi : eqv n phi (lin L c u)).
    { intros x Hx. rewrite (Hv x Hx). unfold lin, u, ritz. unfold lin.
      rewrite (sumn_ext L (fun i => (c i * sumn k (fun i0 => at_index (snd (item i)) i0 * b i0 x))%C) (fun i => sumn k (fun j => c i * (at_index (snd (item i)) j * b j x)))%C) by (intros; now rewrite sumn_mul).
      rewrite sumn_swap. apply sumn_ext. intros j Hj. specialize (Hc j Hj). unfold at_index in Hc at 1. rewrite Nat2N.id in Hc. rewrite Hc.
      rewrite (sumn_ext L (fun i => (c i * (at_index (snd (item i)) j * b j x))%C) (fun i => b j x * (c i * at_index (snd (item i)) j))%C) by (intros; ring). rewrite sumn_mul. unfold item. ring. }
    assert (Eq : Re (inner n phi (op_act o phi)) = (quad n A phi + m * sqnorm n phi)%R) by (rewrite Hmu, quad_shifted; unfold quad; ring). rewrite Eq.
    set (e := fst (fst best)). set (s := fun i => sqrt (fst (fst (item i)) - e)).
    enough (Hsq : (quad n A phi - e * sqnorm n phi = sqnorm n (lin L (fun i => RtoC (s i) * c i)%C u))%R).
    { pose proof (sqnorm_nonneg n (lin L (fun i => RtoC (s i) * c i)%C u)). lra. }
    assert (Eloc : eqv n (A phi) (lin L c (fun i => A (u i)))).
    { intros x Hx. rewrite <- (linear_lin n A (A_lin o mu) (A_loc o n mu Hf)) by exact Hx. apply (A_loc o n mu Hf); [exact Ephi|exact Hx]. }
    enough (HC : (RtoC (quad n A phi) - RtoC e * RtoC (sqnorm n phi) = RtoC (sqnorm n (lin L (fun i => RtoC (s i) * c i)%C u)))%C).
    { apply (f_equal Re) in HC. unfold Re in HC. cbn in HC. lra. }
    rewrite <- (quad_real n A phi A_sa), <- !inner_self. rewrite (inner_eqv n phi (A phi) _ _ Ephi Eloc), (inner_eqv n phi phi _ _ Ephi Ephi).
    rewrite !inner_lin_l, sumn_minus. apply sumn_ext. intros i Hi. rewrite !inner_lin.
    transitivity (Cconj (c i) * (sumn L (fun j => c j * inner n (u i) (A (u j))) - RtoC e * sumn L (fun j => c j * inner n (u i) (u j))))%C; [ring|]. rewrite sumn_minus.
    rewrite <- !sumn_mul. apply sumn_ext. intros j Hj. unfold u. rewrite (ritz_pair (item i) (item j)) by auto.
    destruct (Ceq_dec (fst (item i)) (fst (item j))) as [E|E].
    - assert (Er := ritz_real (item j) (Hl _ (Hin j Hj))). assert (Hge : (0 <= fst (fst (item j)) - e)%R) by (pose proof (Hmin _ (Hin j Hj)) as Hq; unfold e; lra).
      assert (Es : (s i * s j = fst (fst (item j)) - e)%R) by (unfold s; rewrite E; now apply sqrt_sqrt). rewrite Cconj_mul.
      assert (Et : fst (item j) = RtoC (fst (fst (item j)))) by (destruct (fst (item j)) as [g h]; cbn in Er; subst; reflexivity).
      set (z := inner n (ritz (snd (item i))) (ritz (snd (item j)))). replace (Cconj (RtoC (s i))) with (RtoC (s i)) by (unfold Cconj, RtoC; cbn; f_equal; ring).
      transitivity (Cconj (c i) * c j * (fst (item j) - RtoC e) * z)%C; [ring|]. transitivity (Cconj (c i) * c j * (RtoC (s i) * RtoC (s j)) * z)%C; [|ring]. f_equal. f_equal.
      rewrite <- RtoC_mul, Es, Et. c_eq; cbn; ring.
    - rewrite (ritz_distinct (item i) (item j)) by auto. ring.
  Qed.
End Ritz.
