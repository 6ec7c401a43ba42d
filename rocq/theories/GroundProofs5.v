(** Linear combinations, spans and orthonormal lists. *)
From Verif Require Export GroundProofs4.
From Coq Require Import Lia Lra Psatz.
Open Scope N_scope.
Open Scope list_scope.

(** ** Sums *)
Lemma sumn_0 f : sumn 0 f = C0. Proof. reflexivity. Qed.
Lemma Csuml_app' {T} (f : T -> C) l1 l2 : Csuml f (l1 ++ l2) = (Csuml f l1 + Csuml f l2)%C.
Proof. induction l1 as [|x l IH]; unfold Csuml in *; cbn [app map fold_right]; [ring|]. rewrite IH. ring. Qed.
Lemma sumn_S k f : sumn (S k) f = (sumn k f + f k)%C.
Proof. unfold sumn. rewrite seq_S, Csuml_app'. cbn [Nat.add]. unfold Csuml at 2. cbn [map fold_right]. ring. Qed.
Lemma sumn_ext k f g : (forall i, (i < k)%nat -> f i = g i) -> sumn k f = sumn k g.
Proof. induction k as [|k IH]; intros H; [reflexivity|]. rewrite !sumn_S, IH by (intros; apply H; lia). now rewrite H by lia. Qed.
Lemma sumn_zero k f : (forall i, (i < k)%nat -> f i = C0) -> sumn k f = C0.
Proof. induction k as [|k IH]; intros H; [reflexivity|]. rewrite sumn_S, IH by (intros; apply H; lia). rewrite H by lia. ring. Qed.
Lemma sumn_mul k c f : sumn k (fun i => c * f i)%C = (c * sumn k f)%C.
Proof. induction k as [|k IH]; [rewrite !sumn_0; ring|]. rewrite !sumn_S, IH. ring. Qed.
Lemma sumn_add k f g : sumn k (fun i => f i + g i)%C = (sumn k f + sumn k g)%C.
Proof. induction k as [|k IH]; [rewrite !sumn_0; ring|]. rewrite !sumn_S, IH. ring. Qed.
Lemma sumn_swap k m (f : nat -> nat -> C) : sumn k (fun i => sumn m (f i)) = sumn m (fun j => sumn k (fun i => f i j)).
Proof. induction k as [|k IH]; [rewrite sumn_0; symmetry; apply sumn_zero; reflexivity|]. rewrite sumn_S, IH, <- sumn_add. apply sumn_ext. intros. now rewrite sumn_S. Qed.
Lemma sumn_single k i f : (i < k)%nat -> (forall j, (j < k)%nat -> j <> i -> f j = C0) -> sumn k f = f i.
Proof.
  induction k as [|k IH]; intros Hi H; [lia|]. rewrite sumn_S. destruct (Nat.eq_dec i k) as [->|Hne].
  - rewrite sumn_zero by (intros; apply H; lia). ring.
  - rewrite IH by (lia || (intros; apply H; lia)). rewrite (H k) by lia. ring.
Qed.
Lemma sumn_conj k f : Cconj (sumn k f) = sumn k (fun i => Cconj (f i)).
Proof. induction k as [|k IH]; [rewrite !sumn_0; unfold Cconj, C0; cbn; f_equal; ring|]. rewrite !sumn_S, Cconj_add, IH. reflexivity. Qed.
Lemma sumn_extend k m f : (k <= m)%nat -> sumn m (fun i => if (i <? k)%nat then f i else C0) = sumn k f.
Proof.
  induction 1 as [|m Hm IH].
  - apply sumn_ext. intros i Hi. apply Nat.ltb_lt in Hi. now rewrite Hi.
  - rewrite sumn_S, IH. destruct (Nat.ltb_spec m k); [lia|]. ring.
Qed.

(** ** Linear combinations *)
Definition lin (k : nat) (c : nat -> C) (f : nat -> state) : state := fun x => sumn k (fun i => c i * f i x)%C.
Section Lin.
  Variable n : N.
  Definition eqv (a b : state) : Prop := forall x, x < 2 ^ n -> a x = b x.
  Lemma inner_eqv a b a' b' : eqv a a' -> eqv b b' -> inner n a b = inner n a' b'. Proof. apply inner_ext. Qed.
  Lemma inner_zero_r u : inner n u (fun _ => C0) = C0.
  Proof. unfold inner. rewrite (Csum_ext _ _ (fun _ => C0)) by (intros; ring). now apply Csum_zero. Qed.
  Lemma inner_lin u k c f : inner n u (lin k c f) = sumn k (fun i => c i * inner n u (f i))%C.
  Proof.
    induction k as [|k IH]; [apply inner_zero_r|]. rewrite sumn_S, <- IH. rewrite <- inner_linear. apply inner_ext; [reflexivity|]. intros x _. unfold lin. now rewrite sumn_S.
  Qed.
  Lemma inner_lin_l u k c f : inner n (lin k c f) u = sumn k (fun i => Cconj (c i) * inner n (f i) u)%C.
  Proof. rewrite inner_conj, inner_lin, sumn_conj. apply sumn_ext. intros i _. now rewrite Cconj_mul, <- inner_conj. Qed.
  Variable T : state -> state.
  Hypothesis HT : linear_map T.
  Hypothesis HTl : local n T.
  Lemma linear_zero x : x < 2 ^ n -> T (fun _ => C0) x = C0.
  Proof using HT HTl.
    intros Hx. pose proof (HT (fun _ => C0) (fun _ => C0) (- C1)%C x) as E. rewrite (HTl _ (fun _ => C0)) in E by (intros; try ring; assumption). rewrite E at 1. ring.
  Qed.
  Lemma linear_lin k c f x : x < 2 ^ n -> T (lin k c f) x = lin k c (fun i => T (f i)) x.
  Proof using HT HTl.
    intros Hx. induction k as [|k IH]; [now apply linear_zero|]. unfold lin at 2. rewrite sumn_S. fold (lin k c (fun i => T (f i)) x). rewrite <- IH, <- HT.
    apply HTl; [|exact Hx]. intros y _. unfold lin. apply sumn_S.
  Qed.
End Lin.

(** ** Spans *)
Section Span.
  Variable n : N.
  Notation in_span := (in_span n).
  Lemma span_eqv f k a b : eqv n a b -> in_span f k a -> in_span f k b.
  Proof. intros E [c H]. exists c. intros x Hx. rewrite <- (E x Hx). auto. Qed.
  Lemma span_lin f k c : in_span f k (lin k c f). Proof. exists c. reflexivity. Qed.
  Lemma span_in f k i : (i < k)%nat -> in_span f k (f i).
  Proof.
    intros Hi. exists (fun j => if (j =? i)%nat then C1 else C0). intros x _. rewrite (sumn_single k i) by (try assumption; intros j _ Hj; apply Nat.eqb_neq in Hj; rewrite Hj; ring).
    rewrite Nat.eqb_refl. ring.
  Qed.
  Lemma span_zero f k : in_span f k (fun _ => C0).
  Proof. exists (fun _ => C0). intros x _. symmetry. apply sumn_zero. intros. ring. Qed.
  Lemma span_add f k a b c : in_span f k a -> in_span f k b -> in_span f k (fun x => a x + c * b x)%C.
  Proof. intros [ca Ha] [cb Hb]. exists (fun i => ca i + c * cb i)%C. intros x Hx. rewrite (Ha x Hx), (Hb x Hx), <- sumn_mul, <- sumn_add. apply sumn_ext. intros. ring. Qed.
  Lemma span_sum f k m (g : nat -> state) c : (forall j, (j < m)%nat -> in_span f k (g j)) -> in_span f k (lin m c g).
  Proof.
    induction m as [|m IH]; intros H; [apply span_zero|]. eapply span_eqv; [|apply (span_add f k (lin m c g) (g m) (c m)); [apply IH; intros; apply H; lia|apply H; lia]].
    intros x _. unfold lin. now rewrite sumn_S.
  Qed.
  Lemma span_trans f k g m a : (forall j, (j < m)%nat -> in_span f k (g j)) -> in_span g m a -> in_span f k a.
  Proof. intros H [c Ha]. eapply span_eqv; [|apply (span_sum f k m g c H)]. intros x Hx. unfold lin. now rewrite (Ha x Hx). Qed.
  Lemma span_mono f k m a : (k <= m)%nat -> in_span f k a -> in_span f m a.
  Proof. intros Hk. apply span_trans. intros j Hj. apply span_in. lia. Qed.
  Lemma span_ext f g k a : (forall i, (i < k)%nat -> eqv n (f i) (g i)) -> in_span f k a -> in_span g k a.
  Proof. intros E [c H]. exists c. intros x Hx. rewrite (H x Hx). apply sumn_ext. intros i Hi. now rewrite (E i Hi x Hx). Qed.
  Lemma span_map T f k m g a : linear_map T -> local n T -> in_span f k a -> (forall j, (j < k)%nat -> in_span g m (T (f j))) -> in_span g m (T a).
  Proof.
    intros HT HTl [c H] Hj. eapply span_eqv; [|apply (span_sum g m k (fun j => T (f j)) c Hj)]. intros x Hx. rewrite <- (linear_lin n T HT HTl) by exact Hx.
    apply HTl; [|exact Hx]. intros y Hy. symmetry. exact (H y Hy).
  Qed.
  Lemma span_orthogonal f k a u : (forall i, (i < k)%nat -> inner n u (f i) = C0) -> in_span f k a -> inner n u a = C0.
  Proof. intros H [c Ha]. rewrite (inner_eqv n u a u (lin k c f)); [|intros x Hx; reflexivity|exact Ha]. rewrite inner_lin. apply sumn_zero. intros i Hi. rewrite H by exact Hi. ring. Qed.

  (** ** Orthonormal families *)
  Definition orthonormal (f : nat -> state) (k : nat) : Prop :=
    forall i j, (i < k)%nat -> (j < k)%nat -> inner n (f i) (f j) = if (i =? j)%nat then C1 else C0.
  Definition proj (f : nat -> state) (k : nat) (a : state) : state := lin k (fun i => inner n (f i) a) f.
  Lemma orthonormal_coef f k c i : orthonormal f k -> (i < k)%nat -> inner n (f i) (lin k c f) = c i.
  Proof.
    intros Ho Hi. rewrite inner_lin, (sumn_single k i); [|exact Hi|intros j Hj Hne; rewrite Ho by assumption; destruct (Nat.eqb_spec i j); [congruence|ring]].
    rewrite Ho, Nat.eqb_refl by assumption. ring.
  Qed.
  Lemma span_proj f k a : orthonormal f k -> in_span f k a -> eqv n a (proj f k a).
  Proof.
    intros Ho [c H] x Hx. rewrite (H x Hx). unfold proj, lin. apply sumn_ext. intros i Hi. f_equal.
    rewrite (inner_eqv n (f i) a (f i) (lin k c f)); [|intros y Hy; reflexivity|exact H]. symmetry. now apply orthonormal_coef.
  Qed.
  Lemma orthonormal_norm f k c : orthonormal f k -> inner n (lin k c f) (lin k c f) = sumn k (fun i => RtoC (Cnorm2 (c i))).
  Proof.
    intros Ho. rewrite inner_lin_l. apply sumn_ext. intros i Hi. rewrite orthonormal_coef by assumption. unfold Cnorm2. c_eq; cbn; ring.
  Qed.
  (** Bessel *)
  Lemma bessel f k a : orthonormal f k -> (Re (sumn k (fun i => RtoC (Cnorm2 (inner n (f i) a)))) <= sqnorm n a)%R.
  Proof.
    intros Ho. set (c := fun i => inner n (f i) a). pose proof (sqnorm_nonneg n (fun x => a x + (- C1) * lin k c f x)%C) as H.
    assert (E : RtoC (sqnorm n (fun x => a x + (- C1) * lin k c f x)%C) = (RtoC (sqnorm n a) - sumn k (fun i => RtoC (Cnorm2 (c i))))%C).
    { rewrite <- inner_self, inner_linear, !inner_linear_l, !inner_self. rewrite <- (inner_self n (lin k c f)), (orthonormal_norm f k c Ho).
      assert (E1 : inner n (lin k c f) a = sumn k (fun i => RtoC (Cnorm2 (c i)))).
      { rewrite inner_lin_l. apply sumn_ext. intros i _. fold (c i). unfold Cnorm2. c_eq; cbn; ring. }
      assert (E2 : inner n a (lin k c f) = sumn k (fun i => RtoC (Cnorm2 (c i)))).
      { rewrite inner_lin. apply sumn_ext. intros i _. rewrite (inner_conj n a (f i)). fold (c i). unfold Cnorm2. c_eq; cbn; ring. }
      rewrite E1, E2. replace (Cconj (- C1)%C) with (- C1)%C by (unfold Cconj, Copp, C1; cbn; f_equal; ring). ring. }
    apply (f_equal Re) in E. unfold Re in *. cbn [RtoC fst Csub Cadd Copp] in E. fold c. unfold c in *. cbn in E. lra.
  Qed.
End Span.
