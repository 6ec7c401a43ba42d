(** Operator algebra, optimize, matrices, and the hermitian flag. *)
From Verif Require Import Prelude BitsProofs Cplx Spec Gates GateSpec PauliSpec PauliProofs GatesProofs GatesProofs2 Operator OperatorSpec OperatorHist OperatorProofs.
From Coq Require Import Permutation FunctionalExtensionality.
Local Open Scope N_scope.

(** ** Algebra *)
Lemma op_add_act a b psi x : op_act (op_add a b) psi x = (op_act a psi x + op_act b psi x)%C.
Proof. unfold op_act, terms_act. simpl. apply Csuml_app. Qed.
Lemma op_scale_act o c psi x : op_act (op_scale o c) psi x = (c * op_act o psi x)%C.
Proof.
  unfold op_act, terms_act. cbn [o_terms op_scale op_scale_in_place op_copy]. rewrite Csuml_map, <- Csuml_mul_l.
  apply Csuml_ext. intros p _. apply (pauli_scale_act p c).
Qed.
Lemma op_scale_in_place_act o c psi x : op_act (op_scale_in_place o c) psi x = (c * op_act o psi x)%C.
Proof. exact (op_scale_act o c psi x). Qed.
Lemma op_neg_act o psi x : op_act (op_neg o) psi x = (- op_act o psi x)%C.
Proof. unfold op_neg. rewrite op_scale_act. ring. Qed.
Lemma op_sub_act a b psi x : op_act (op_sub a b) psi x = (op_act a psi x - op_act b psi x)%C.
Proof. unfold op_sub. rewrite op_add_act, op_scale_act. ring. Qed.
Lemma op_add_pauli_act a q psi x : op_act (op_add_pauli a q) psi x = (op_act a psi x + pauli_act q psi x)%C.
Proof. unfold op_act, terms_act. simpl. rewrite Csuml_app. simpl. ring. Qed.
Lemma op_sub_pauli_act a q psi x : op_act (op_sub_pauli a q) psi x = (op_act a psi x - pauli_act q psi x)%C.
Proof. unfold op_sub_pauli. rewrite op_add_pauli_act, pauli_scale_act. ring. Qed.
Lemma op_copy_act a psi x : op_act (op_copy a) psi x = op_act a psi x.
Proof. reflexivity. Qed.

Lemma pauli_act_sum {T} p (f : T -> state) l x : pauli_act p (fun y => Csuml (fun t => f t y) l) x = Csuml (fun t => pauli_act p (f t) x) l.
Proof. rewrite pauli_act_eq, <- Csuml_mul_l. apply Csuml_ext. intros. now rewrite pauli_act_eq. Qed.
Lemma Csuml_flat_map {T U} (f : U -> C) (g : T -> list U) l : Csuml f (flat_map g l) = Csuml (fun t => Csuml f (g t)) l.
Proof. induction l as [|a l IH]; simpl; [reflexivity|]. now rewrite Csuml_app, IH. Qed.
Lemma op_mul_act a b psi x : op_u64 a -> op_u64 b -> op_act (op_mul a b) psi x = op_act a (op_act b psi) x.
Proof.
  unfold op_u64. rewrite !Forall_forall. intros Ha Hb.
  unfold op_act, terms_act. cbn [o_terms op_mul]. rewrite Csuml_flat_map. apply Csuml_ext. intros p Hp.
  rewrite Csuml_map, pauli_act_sum. apply Csuml_ext. intros q Hq. apply pauli_mul_act; auto.
Qed.
Lemma op_mul_pauli_act a q psi x : op_u64 a -> pauli_u64 q -> op_act (op_mul_pauli a q) psi x = op_act a (pauli_act q psi) x.
Proof.
  unfold op_u64. rewrite !Forall_forall. intros Ha Hb. unfold op_act, terms_act. cbn [o_terms op_mul_pauli op_mul_pauli_in_place op_copy].
  rewrite Csuml_map. apply Csuml_ext. intros p Hp. apply pauli_mul_act; auto.
Qed.
Lemma op_mul_pauli_in_place_act a q psi x : op_u64 a -> pauli_u64 q -> op_act (op_mul_pauli_in_place a q) psi x = op_act a (pauli_act q psi) x.
Proof. exact (op_mul_pauli_act a q psi x). Qed.
Lemma inner_terms_l n l bra ket : inner n (terms_act l bra) ket = Csuml (fun p => inner n (pauli_act p bra) ket) l.
Proof.
  unfold inner, terms_act, Csum. rewrite Csuml_swap. apply Csuml_ext. intros x _. rewrite Csuml_conj. now rewrite <- Csuml_mul_r.
Qed.
Lemma op_dagger_adjoint n o phi psi : op_fits n o -> inner n (op_act (op_dagger o) phi) psi = inner n phi (op_act o psi).
Proof.
  unfold op_fits. rewrite Forall_forall. intros H. unfold op_act. rewrite inner_terms, inner_terms_l. cbn [o_terms op_dagger].
  rewrite Csuml_map. apply Csuml_ext. intros p Hp. apply pauli_dagger_adjoint. auto.
Qed.

(** ** optimize *)
Definition of_entry (e : key * C) : pauli := Pauli (snd e) (fst (fst e)) (snd (fst e)).
Lemma map_add_act m k c psi x :
  Csuml (fun e => pauli_act (of_entry e) psi x) (map_add m k c) = (Csuml (fun e => pauli_act (of_entry e) psi x) m + pauli_act (of_entry (k, c)) psi x)%C.
Proof.
  induction m as [|[k' c'] m IH]; simpl.
  - rewrite !pauli_act_eq. unfold of_entry. cbn [fst snd p_bf p_pf p_coef]. ring.
  - destruct (key_eqb k k') eqn:E.
    + unfold key_eqb in E. apply andb_true_iff in E as [E1 E2]. apply N.eqb_eq in E1, E2.
      simpl. rewrite !pauli_act_eq. unfold of_entry. cbn [fst snd p_bf p_pf p_coef]. rewrite E1, E2. ring.
    + destruct (key_lt k k').
      * simpl. rewrite !pauli_act_eq. unfold of_entry. cbn [fst snd p_bf p_pf p_coef]. ring.
      * simpl. rewrite IH. ring.
Qed.
Definition klt (a b : key) : Prop := key_lt a b = true.
Lemma klt_trans a b c : klt a b -> klt b c -> klt a c.
Proof. unfold klt, key_lt. destruct a, b, c. simpl. lia. Qed.
Lemma klt_irrefl a : ~ klt a a.
Proof. unfold klt, key_lt. destruct a. simpl. lia. Qed.
Lemma key_eqb_eq a b : key_eqb a b = true <-> a = b.
Proof. unfold key_eqb. destruct a, b. simpl. rewrite andb_true_iff, !N.eqb_eq. split; [intros [-> ->]; reflexivity|intros E; inversion E; auto]. Qed.
Lemma klt_total a b : key_eqb a b = false -> key_lt a b = false -> klt b a.
Proof. unfold klt, key_lt, key_eqb. destruct a, b. simpl. lia. Qed.
Fixpoint sorted_keys (m : list (key * C)) : Prop :=
  match m with [] => True | e :: r => Forall (fun e' => klt (fst e) (fst e')) r /\ sorted_keys r end.
Lemma map_add_keys m k c e : In e (map_add m k c) -> fst e = k \/ In (fst e) (map fst m).
Proof.
  induction m as [|[k' c'] m IH]; simpl.
  - intros [<- | []]. now left.
  - destruct (key_eqb k k') eqn:E.
    + intros [<- |H]; [right; left; reflexivity|]. right. right. now apply in_map.
    + destruct (key_lt k k').
      * intros [<- |[<- |H]]; [now left|right; now left|right; right; now apply in_map].
      * intros [<- |H]; [right; now left|]. destruct (IH H); auto.
Qed.
Lemma map_add_sorted m k c : sorted_keys m -> sorted_keys (map_add m k c).
Proof.
  induction m as [|[k' c'] m IH]; simpl; [intros _; split; [constructor|exact I]|].
  intros [H1 H2]. destruct (key_eqb k k') eqn:E; [now split|]. destruct (key_lt k k') eqn:E'.
  - simpl. repeat split; auto. constructor; [exact E'|]. eapply Forall_impl; [|exact H1]. intros e He. simpl in *. eapply klt_trans; eassumption.
  - simpl. split; [|auto]. rewrite Forall_forall in *. intros e He. destruct (map_add_keys _ _ _ _ He) as [-> |Hin].
    + now apply klt_total.
    + apply in_map_iff in Hin as (e' & <- & He'). apply (H1 e' He').
Qed.
Lemma sorted_nodup m : sorted_keys m -> NoDup (map fst m).
Proof.
  induction m as [|e m IH]; simpl; [constructor|]. intros [H1 H2]. constructor; [|auto].
  rewrite Forall_forall in H1. intros Hin. apply in_map_iff in Hin as (e' & E & He'). apply (klt_irrefl (fst e)). rewrite <- E at 2. auto.
Qed.
Lemma collect_fold l : forall m psi x, sorted_keys m ->
  sorted_keys (fold_left (fun m p => map_add m (p_bf p, p_pf p) (p_coef p)) l m) /\
  Csuml (fun e => pauli_act (of_entry e) psi x) (fold_left (fun m p => map_add m (p_bf p, p_pf p) (p_coef p)) l m) =
  (Csuml (fun e => pauli_act (of_entry e) psi x) m + terms_act l psi x)%C.
Proof.
  induction l as [|p l IH]; intros m psi x Hm; simpl.
  - split; [assumption|]. unfold terms_act. simpl. ring.
  - destruct (IH (map_add m (p_bf p, p_pf p) (p_coef p)) psi x (map_add_sorted _ _ _ Hm)) as [H1 H2]. split; [exact H1|].
    rewrite H2, map_add_act. unfold terms_act. simpl. unfold of_entry. simpl. destruct p; simpl. ring.
Qed.
Lemma op_optimize_correct o : o_view o = false -> exists o', op_optimize o = Ok o' /\
  (forall psi x, op_act o' psi x = op_act o psi x) /\ distinct_strings (o_terms o').
Proof.
  intros Hv. unfold op_optimize. rewrite Hv. eexists. split; [reflexivity|]. split.
  - intros psi x. unfold op_act. cbn [o_terms op_of_terms]. unfold terms_act at 1. rewrite Csuml_map.
    destruct (collect_fold (o_terms o) [] psi x I) as [_ H]. unfold of_entry in H. unfold collect. etransitivity; [exact H|]. simpl. ring.
  - unfold distinct_strings. cbn [o_terms op_of_terms]. rewrite map_map. cbn [p_bf p_pf].
    destruct (collect_fold (o_terms o) [] (fun _ => C0) 0 I) as [H _]. apply sorted_nodup in H.
    erewrite map_ext; [exact H|]. intros [[a b] c]. reflexivity.
Qed.

(** ** Full matrices *)
Lemma pauli_full_entry p n i j : n <= 63 -> i < 2 ^ n ->
  pauli_get_full_matrix_ignoring_coef p n i j = pauli_act (unit_coef p) (basis j) i.
Proof.
  intros Hn Hi. unfold pauli_get_full_matrix_ignoring_coef, pauli_full_triplets.
  assert (Hs : shl64 1 n = 2 ^ n).
  { unfold shl64. rewrite N.shiftl_mul_pow2, N.mul_1_l. apply wrap_small. unfold two64. apply N.pow_lt_mono_r; lia. }
  rewrite Hs, (mat_of_triplets_seqN (fun idx => N.lxor idx (p_bf p)) (fun idx => (rot90 (p_bf p) (p_pf p) * pauli_sign (N.land idx (p_pf p)))%C)) by assumption.
  rewrite pauli_act_eq. unfold unit_coef, basis, pauli_phase, rot90, mi_pow. cbn [p_bf p_pf p_coef]. rewrite (N.eqb_sym j).
  destruct (N.lxor i (p_bf p) =? j); ring.
Qed.
Lemma pauli_full_matrix_unit p n i j : n <= 63 -> i < 2 ^ n -> p_coef p = C1 -> pauli_get_full_matrix p n i j = pauli_act p (basis j) i.
Proof.
  intros Hn Hi Hc. change (pauli_get_full_matrix p n) with (pauli_get_full_matrix_ignoring_coef p n).
  rewrite pauli_full_entry by assumption. unfold unit_coef. rewrite <- Hc. now destruct p.
Qed.
Lemma full_fold (f : N -> N) (g : N -> C) c l : NoDup l -> forall (M : matrix) i j,
  fold_left (fun M' t => let '(r, cc, v) := t in fun i j => if (i =? r) && (j =? cc) then (M' i j + v * c)%C else M' i j)
            (map (fun idx => (idx, f idx, g idx)) l) M i j =
  (M i j + if existsb (N.eqb i) l && (j =? f i) then g i * c else C0)%C.
Proof.
  induction 1 as [|a l Ha Hl IH]; intros M i j; simpl; [ring|]. rewrite IH.
  destruct (i =? a) eqn:E.
  - apply N.eqb_eq in E; subst a. simpl.
    assert (Ex : existsb (N.eqb i) l = false).
    { apply existsb_false. intros x Hx. destruct (i =? x) eqn:E'; [|reflexivity]. apply N.eqb_eq in E'; subst; contradiction. }
    rewrite Ex. cbn [andb]. destruct (j =? f i); ring.
  - simpl. ring.
Qed.
Lemma op_full_matrix_correct o n i j : n <= 63 -> i < 2 ^ n -> op_full_matrix o n i j = op_act o (basis j) i.
Proof.
  intros Hn Hi. unfold op_full_matrix, op_act.
  assert (Hs : shl64 1 n = 2 ^ n).
  { unfold shl64. rewrite N.shiftl_mul_pow2, N.mul_1_l. apply wrap_small. unfold two64. apply N.pow_lt_mono_r; lia. }
  assert (G : forall l (M : matrix), fold_left (fun M p => fold_left (fun M' t => let '(r, c, v) := t in fun i j => if (i =? r) && (j =? c) then (M' i j + v * p_coef p)%C else M' i j)
              (pauli_full_triplets p n) M) l M i j = (M i j + terms_act l (basis j) i)%C).
  { induction l as [|p l IH]; intros M; simpl; [unfold terms_act; simpl; ring|]. rewrite IH. unfold pauli_full_triplets.
    rewrite (full_fold (fun idx => N.lxor idx (p_bf p)) (fun idx => (rot90 (p_bf p) (p_pf p) * pauli_sign (N.land idx (p_pf p)))%C)) by apply NoDup_seqN.
    rewrite Hs. replace (existsb (N.eqb i) (seqN (2 ^ n))) with true.
    2:{ symmetry. apply existsb_exists. exists i. split; [now apply in_seqN|apply N.eqb_refl]. }
    unfold terms_act. simpl. rewrite pauli_act_eq. unfold basis, pauli_phase, rot90, mi_pow. rewrite (N.eqb_sym j).
    destruct (N.lxor i (p_bf p) =? j); ring. }
  rewrite G. ring.
Qed.

(** ** The hermitian flag *)
Lemma is_real_conj c : is_real c = true -> Cconj c = c.
Proof. unfold is_real. destruct (Req_EM_T (snd c) 0) as [E|]; [|discriminate]. intros _. destruct c as [a b]. simpl in E. subst b. Csolve. Qed.
Lemma is_real_mul a b : is_real a = true -> is_real b = true -> is_real (a * b)%C = true.
Proof.
  unfold is_real. destruct (Req_EM_T (snd a) 0) as [E|]; [|discriminate]. destruct (Req_EM_T (snd b) 0) as [E'|]; [|discriminate].
  intros _ _. destruct (Req_EM_T _ 0) as [|H]; [reflexivity|]. exfalso. apply H. destruct a, b; simpl in *. subst. ring.
Qed.
Lemma is_real_opp1 : is_real (- C1)%C = true.
Proof. unfold is_real. destruct (Req_EM_T _ 0) as [|H]; [reflexivity|]. exfalso. apply H. simpl. ring. Qed.
Lemma is_real_1 : is_real C1 = true.
Proof. unfold is_real. destruct (Req_EM_T _ 0) as [|H]; [reflexivity|]. exfalso. apply H. simpl. ring. Qed.
Lemma all_real_self_adjoint n l v h : all_real l = true -> Forall (pauli_fits n) l -> self_adjoint n (op_act (Op l h v)).
Proof.
  intros Hr Hf phi psi. rewrite <- (op_dagger_adjoint n (Op l h v)) by exact Hf.
  unfold op_act. cbn [o_terms op_dagger]. replace (map pauli_dagger l) with l; [reflexivity|].
  clear Hf. induction l as [|p l IH]; [reflexivity|]. simpl in *. apply andb_true_iff in Hr as [H1 H2]. rewrite <- IH by assumption. f_equal.
  unfold pauli_dagger. rewrite is_real_conj by assumption. now destruct p.
Qed.

Definition honest_op (o : operator) : Prop := o_herm o = true -> all_real (o_terms o) = true.
Lemma all_real_forall l : all_real l = true <-> forall p, In p l -> is_real (p_coef p) = true.
Proof. apply forallb_forall. Qed.
Lemma honest_new k : honest_op (op_new k).
Proof. intros _. apply all_real_forall. intros p Hp. apply repeat_spec in Hp. subst. apply is_real_1. Qed.
Lemma honest_terms l : honest_op (op_of_terms l). Proof. intros H; exact H. Qed.
Lemma honest_copy o : honest_op o -> honest_op (op_copy o). Proof. intros H; exact H. Qed.
Lemma honest_dagger o : honest_op o -> honest_op (op_dagger o).
Proof.
  intros H Hh. specialize (H Hh). rewrite all_real_forall in *. cbn [o_terms op_dagger]. intros q Hq. apply in_map_iff in Hq as (p & <- & Hp).
  unfold pauli_dagger. simpl. rewrite is_real_conj; auto.
Qed.
Lemma honest_scale_in_place o c : honest_op o -> honest_op (op_scale_in_place o c).
Proof.
  intros H Hh. cbn [o_herm op_scale_in_place] in Hh. apply andb_true_iff in Hh as [H1 H2]. specialize (H H1).
  rewrite all_real_forall in *. cbn [o_terms op_scale_in_place]. intros q Hq. apply in_map_iff in Hq as (p & <- & Hp). simpl. apply is_real_mul; auto.
Qed.
Lemma honest_scale o c : honest_op o -> honest_op (op_scale o c).
Proof. intros H. apply honest_scale_in_place. exact H. Qed.
Lemma honest_add a b : honest_op a -> honest_op b -> honest_op (op_add a b).
Proof.
  intros Ha Hb Hh. cbn [o_herm op_add] in Hh. apply andb_true_iff in Hh as [H1 H2]. cbn [o_terms op_add].
  unfold all_real. rewrite forallb_app. apply andb_true_iff. split; [apply Ha|apply Hb]; assumption.
Qed.
Lemma honest_addp a q : honest_op a -> honest_op (op_add_pauli a q).
Proof.
  intros Ha Hh. cbn [o_herm op_add_pauli] in Hh. apply andb_true_iff in Hh as [H1 H2]. cbn [o_terms op_add_pauli].
  unfold all_real. rewrite forallb_app. apply andb_true_iff. split; [apply Ha; assumption|]. simpl. now rewrite H2.
Qed.
Lemma honest_load o l o' : op_load o l = Ok o' -> honest_op o'.
Proof. unfold op_load. destruct (Nat.eqb _ _); [|discriminate]. intros E; inversion E; subst. intros H; exact H. Qed.
Lemma honest_optimize o o' : op_optimize o = Ok o' -> honest_op o'.
Proof. unfold op_optimize. destruct (o_view o); [discriminate|]. intros E; inversion E; subst. intros H; exact H. Qed.

(** ** Programs *)
Definition store_ok (s : store) : Prop :=
  forall x h, vars s x = Some h -> (h_ref h < length (arrays s))%nat /\ honest_op (value s h).
Lemma lookup_honest s x o : store_ok s -> lookup s x = Some o -> honest_op o.
Proof. intros H E. unfold lookup in E. destruct (vars s x) as [h|] eqn:Eh; [|discriminate]. inversion E; subst. apply (H x h Eh). Qed.
Lemma oeval_honest s e o : store_ok s -> plain_expr e -> oeval s e = Some o -> honest_op o.
Proof.
  intros Hs Hp. destruct e; simpl in *; intros E; try contradiction;
    try (destruct (lookup s y) as [oy|] eqn:Ey; simpl in E; [|discriminate]; apply lookup_honest in Ey; [|assumption]);
    try (destruct (lookup s z) as [oz|] eqn:Ez; simpl in E; [|discriminate]; apply lookup_honest in Ez; [|assumption]);
    inversion E; subst.
  - apply honest_new.
  - apply honest_terms.
  - now apply honest_copy.
  - now apply honest_dagger.
  - now apply honest_scale.
  - now apply honest_scale.
  - now apply honest_add.
  - apply honest_add; [assumption|]. now apply honest_scale.
  - now apply honest_addp.
  - now apply honest_addp.
Qed.
Lemma alloc_ok s x o : store_ok s -> honest_op o -> store_ok (alloc s x o).
Proof.
  intros Hs Ho y h. unfold alloc, bind. cbn [vars arrays]. rewrite app_length. cbn [length].
  destruct (y =? x) eqn:E.
  - intros Eh. inversion Eh; subst. cbn [h_ref]. split; [lia|]. unfold value, array. cbn [h_ref h_herm h_view arrays].
    rewrite app_nth2, Nat.sub_diag by lia. simpl. exact Ho.
  - intros Eh. destruct (Hs y h Eh) as [H1 H2]. split; [lia|]. unfold value, array in *. cbn [arrays]. now rewrite app_nth1.
Qed.
Lemma set_nth_length {T} k (v : T) l : length (set_nth k v l) = length l.
Proof. revert k; induction l as [|a l IH]; intros [|k]; simpl; auto. Qed.
Lemma nth_set_nth_eq {T} k (v d : T) l : (k < length l)%nat -> nth k (set_nth k v l) d = v.
Proof. revert k; induction l as [|a l IH]; intros [|k] H; simpl in *; try lia; auto. apply IH. lia. Qed.
Lemma nth_set_nth_neq {T} k j (v d : T) l : k <> j -> nth j (set_nth k v l) d = nth j l d.
Proof. revert k j; induction l as [|a l IH]; intros [|k] [|j] H; simpl; auto; try lia. Qed.
Lemma overwrite_ok s x h o : store_ok s -> vars s x = Some h -> honest_op o ->
  (exclusive s x \/ (all_real (array s (h_ref h)) = true -> all_real (o_terms o) = true)) -> store_ok (overwrite s x h o).
Proof.
  intros Hs Hx Ho Hex y h'. unfold overwrite, bind. cbn [vars arrays]. rewrite set_nth_length.
  destruct (y =? x) eqn:E.
  - intros Eh. inversion Eh; subst. cbn [h_ref]. destruct (Hs x h Hx) as [H1 H2]. split; [assumption|].
    unfold value, array. cbn [h_ref h_herm h_view arrays]. rewrite nth_set_nth_eq by assumption. exact Ho.
  - intros Eh. apply N.eqb_neq in E. destruct (Hs y h' Eh) as [H1 H2]. split; [assumption|]. unfold value, array in *. cbn [arrays].
    destruct (Nat.eq_dec (h_ref h) (h_ref h')) as [Er|Er].
    + destruct Hex as [Hex|Hex]; [exfalso; apply (Hex h y h'); auto|]. rewrite <- Er in *.
      rewrite nth_set_nth_eq by assumption. intros Hh. apply Hex, H2. exact Hh.
    + now rewrite nth_set_nth_neq.
Qed.
Lemma ostep_ok s c : store_ok s -> plain_step s c -> store_ok (ostep s c).
Proof.
  intros Hs Hc. destruct c; simpl in *.
  - destruct (oeval s e) eqn:E; [|assumption]. apply alloc_ok; [assumption|]. eapply oeval_honest; eassumption.
  - destruct (vars s y) as [h|] eqn:E; [|assumption]. intros z h'. unfold bind. cbn [vars arrays]. destruct (z =? x).
    + intros Eh; inversion Eh; subst. apply (Hs y h' E).
    + apply Hs.
  - destruct (vars s x) as [h|] eqn:E; [|assumption]. destruct (op_load _ _) as [o| |] eqn:El; [|assumption|assumption].
    apply overwrite_ok; auto. eapply honest_load; eassumption.
  - destruct (vars s x) as [h|] eqn:E; [|assumption]. destruct (op_optimize _) as [o| |] eqn:El; [|assumption|assumption].
    apply alloc_ok; [assumption|]. eapply honest_optimize; eassumption.
  - destruct (vars s x) as [h|] eqn:E; [|assumption]. destruct (Hs x h E) as [_ Hh]. apply overwrite_ok; auto.
    + now apply honest_scale_in_place.
    + destruct Hc as [Hc|Hc]; [now left|right]. intros Ha. cbn [o_terms op_scale_in_place value].
      rewrite all_real_forall in *. intros q Hq. apply in_map_iff in Hq as (p & <- & Hp). simpl. apply is_real_mul; auto.
  - contradiction.
  - contradiction.
Qed.
Lemma orun_ok l : forall s, store_ok s -> plain_run s l -> store_ok (fold_left ostep l s).
Proof.
  induction l as [|c l IH]; intros s Hs Hp; simpl; [assumption|]. destruct Hp as [H1 H2]. apply IH; [|assumption]. now apply ostep_ok.
Qed.
Lemma hermitian_flag_honest l x o n : plain_run empty_store l -> lookup (orun l) x = Some o -> o_herm o = true -> op_fits n o ->
  self_adjoint n (op_act o).
Proof.
  intros Hp Hl Hh Hf. assert (Hs : store_ok (orun l)) by (apply orun_ok; [intros y h; discriminate|assumption]).
  pose proof (lookup_honest _ _ _ Hs Hl Hh) as Hr. destruct o as [ts hh v]. now apply all_real_self_adjoint.
Qed.

(** ** The flag of a product *)
Lemma mul_herm_wrong : exists a b, o_herm a = true /\ o_herm b = true /\ op_fits 1 a /\ op_fits 1 b /\
  o_herm (op_mul a b) = true /\ ~ self_adjoint 1 (op_act (op_mul a b)).
Proof.
  exists (op_of_terms [Pauli C1 1 0]), (op_of_terms [Pauli C1 1 1]).
  assert (Hm : pauli_mul (Pauli C1 1 0) (Pauli C1 1 1) = Pauli Ci 0 1).
  { unfold pauli_mul. cbn [p_bf p_pf p_coef]. vm_compute N.lxor. f_equal.
    match goal with |- context [PHASE_90ROT ?k] => let v := eval vm_compute in k in change k with v end. simpl. ring. }
  assert (Hr : is_real C1 = true) by apply is_real_1.
  assert (Hi : is_real Ci = false). { unfold is_real. destruct (Req_EM_T (snd Ci) 0) as [E|]; [|reflexivity]. simpl in E. exfalso. lra. }
  split; [|split; [|split; [|split; [|split]]]].
  - unfold op_of_terms, all_real. simpl. now rewrite Hr.
  - unfold op_of_terms, all_real. simpl. now rewrite Hr.
  - repeat constructor.
  - repeat constructor.
  - unfold op_mul. cbn [o_terms op_of_terms flat_map map app o_herm]. rewrite Hm. simpl. rewrite Hi. reflexivity.
  - intros H. specialize (H (basis 0) (basis 0)). unfold op_mul, op_act in H. cbn [o_terms op_of_terms flat_map map app] in H.
    rewrite Hm in H. unfold inner, terms_act in H. change (2 ^ 1) with 2 in H. rewrite !Csum_2 in H. simpl Csuml in H.
    rewrite !pauli_act_eq in H. cbn [p_bf p_pf p_coef] in H. rewrite !phase_diag in H.
    unfold basis, pauli_sign in H. rewrite !N.lxor_0_r in H. simpl in H.
    match type of H with ?a = ?b => assert (H' : snd a = snd b) by (now rewrite H) end. simpl in H'. lra.
Qed.
Lemma mulp_herm_wrong : exists a q, o_herm a = true /\ is_real (p_coef q) = true /\ op_fits 1 a /\ pauli_fits 1 q /\
  o_herm (op_mul_pauli a q) = true /\ ~ self_adjoint 1 (op_act (op_mul_pauli a q)).
Proof.
  exists (op_of_terms [Pauli C1 1 0]), (Pauli C1 1 1).
  assert (Hm : pauli_mul (Pauli C1 1 0) (Pauli C1 1 1) = Pauli Ci 0 1).
  { unfold pauli_mul. cbn [p_bf p_pf p_coef]. vm_compute N.lxor. f_equal.
    match goal with |- context [PHASE_90ROT ?k] => let v := eval vm_compute in k in change k with v end. simpl. ring. }
  assert (Hr : is_real C1 = true) by apply is_real_1.
  split; [|split; [|split; [|split; [|split]]]].
  - unfold op_of_terms, all_real. simpl. now rewrite Hr.
  - exact Hr.
  - repeat constructor.
  - repeat constructor.
  - unfold op_mul_pauli, op_mul_pauli_in_place, op_copy, op_of_terms, all_real. simpl. now rewrite Hr.
  - intros H. specialize (H (basis 0) (basis 0)). unfold op_mul_pauli, op_mul_pauli_in_place, op_copy, op_act in H. cbn [o_terms op_of_terms map app] in H.
    rewrite Hm in H. unfold inner, terms_act in H. change (2 ^ 1) with 2 in H. rewrite !Csum_2 in H. simpl Csuml in H.
    rewrite !pauli_act_eq in H. cbn [p_bf p_pf p_coef] in H. rewrite !phase_diag in H.
    unfold basis, pauli_sign in H. rewrite !N.lxor_0_r in H. simpl in H.
    match type of H with ?a = ?b => assert (H' : snd a = snd b) by (now rewrite H) end. simpl in H'. lra.
Qed.
(** ** Two objects sharing their terms: y = x; y *= i *)
Lemma shared_herm_wrong : exists o, lookup (orun [OSlet 0 (OEterms [Pauli C1 0 1]); OSassign 1 0; OSscale 1 Ci]) 0 = Some o /\
  o_herm o = true /\ op_fits 1 o /\ ~ self_adjoint 1 (op_act o).
Proof.
  eexists. split; [reflexivity|]. cbn [o_herm value h_herm]. split; [|split].
  - unfold all_real. simpl. now rewrite is_real_1.
  - repeat constructor.
  - intros H. specialize (H (basis 0) (basis 0)). 
    unfold op_act in H. cbn in H. unfold inner, terms_act in H. change (2 ^ 1) with 2 in H. rewrite !Csum_2 in H. simpl Csuml in H.
    rewrite !pauli_act_eq in H. cbn [p_bf p_pf p_coef] in H. rewrite !phase_diag in H.
    unfold basis, pauli_sign in H. rewrite !N.lxor_0_r in H. simpl in H.
    match type of H with ?a = ?b => assert (H' : snd a = snd b) by (now rewrite H) end. simpl in H'. lra.
Qed.
