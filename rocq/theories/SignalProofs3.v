(** No signalling: observables, operators, marginal probabilities, the reduced density matrix. *)
From Verif Require Export SignalProofs2.
From Verif Require Import DensitySpec DensityProofs7 ChannelProofs5.
From Coq Require Import ZifyBool ZifyN ZifyNat Lra FunctionalExtensionality.

Lemma front_NoDup {T} (l m : list T) : NoDup (l ++ m) -> NoDup l.
Proof. induction l as [|x l IH]; [constructor|]. cbn [app]. intros H. inversion H; subst. constructor; [|auto]. intros Hx. match goal with H : ~ In _ _ |- _ => apply H end. apply in_or_app. now left. Qed.
Lemma matrix_acts_on ts cs M : NoDup ts -> acts_on (ts ++ map fst cs) (apply_mat ts cs M).
Proof. intros H. exists ts, cs, M. split; [assumption|]. split; [apply incl_refl|reflexivity]. Qed.
Lemma same_acts_on : acts_on [] (fun psi => psi).
Proof.
  exists [], [], (fun _ _ => C1). split; [constructor|]. split; [apply incl_refl|]. intros psi. apply functional_extensionality. intros x. unfold apply_mat. cbn [ctrl_ok forallb length gather scatter].
  change (2 ^ N.of_nat 0) with 1. rewrite (Csum_single _ _ 0); [ring|reflexivity|intros i Hi Hne; lia].
Qed.
(** Outcomes as an observable: what the controls leave alone. *)
Definition selected (vs : list N) : list (N * bool) :=
  map (fun iv => (fst iv, snd iv =? 1)) (filter (fun iv => negb (snd iv =? 2)) (combine (seqN (N.of_nat (length vs))) vs)).
Lemma selected_shows vs x : ctrl_ok (selected vs) x = shows vs x.
Proof.
  unfold ctrl_ok, selected, shows. induction (combine _ vs) as [|[i v] l IH]; [reflexivity|]. cbn [filter fst snd forallb]. destruct (v =? 2); cbn [negb orb andb map forallb fst snd]; now rewrite IH.
Qed.
Lemma selected_in vs q : In q (map fst (selected vs)) -> q < N.of_nat (length vs) /\ nth (N.to_nat q) vs 2 <> 2.
Proof.
  unfold selected. rewrite map_map. cbn [fst]. intros H. apply in_map_iff in H. destruct H as ([i v] & E & H). cbn [fst] in E. subst i. apply filter_In in H. destruct H as [H Hv]. cbn [snd] in Hv.
  assert (G : forall vs a, In (q, v) (combine (map N.of_nat (seq a (length vs))) vs) -> (a <= N.to_nat q < a + length vs)%nat /\ nth (N.to_nat q - a) vs 2 = v).
  { clear. induction vs as [|y vs IH]; intros a H; [contradiction|]. cbn [length seq map combine] in H. destruct H as [E|H].
    - injection E as <- <-. split; [cbn [length]; lia|]. rewrite Nat2N.id, Nat.sub_diag. reflexivity.
    - destruct (IH (S a) H) as [H1 H2]. split; [cbn [length]; lia|]. replace (N.to_nat q - a)%nat with (S (N.to_nat q - S a)) by lia. exact H2. }
  unfold seqN in H. rewrite Nat2N.id in H. destruct (G vs 0%nat H) as [H1 H2]. rewrite Nat.sub_0_r in H2. split; [lia|]. rewrite H2. intros ->. discriminate.
Qed.
Lemma prob_inner n vs psi : RtoC (prob n (shows vs) psi) = (inner n psi psi + - C1 * inner n psi (apply_mat [] (selected vs) (fun _ _ => C0) psi))%C.
Proof.
  unfold inner, prob, Csum. rewrite <- Csuml_mul_l, <- Csuml_add.
  assert (E : forall x, apply_mat [] (selected vs) (fun _ _ => C0) psi x = if shows vs x then C0 else psi x).
  { intros x. unfold apply_mat. rewrite selected_shows. destruct (shows vs x); [|reflexivity]. apply Csum_zero. intros; ring. }
  induction (seqN (2 ^ n)) as [|x l IH]; [reflexivity|]. unfold Csuml in *. cbn [filter fold_right]. rewrite <- IH, E. destruct (shows vs x).
  - unfold Rsuml. cbn [fold_right]. unfold Cnorm2. destruct (psi x). c_eq; ring.
  - destruct (psi x). c_eq; ring.
Qed.
(** An entry of the reduced density matrix as an observable *)
Definition unit_matrix (j i : N) : matrix := fun a b => if (a =? j) && (b =? i) then C1 else C0.
Lemma ptrace_inner n qs psi i j : NoDup qs -> Forall (fun q => q < n) qs -> i < 2 ^ (n - N.of_nat (length qs)) -> j < 2 ^ (n - N.of_nat (length qs)) ->
  ptrace n qs (fun x y => psi x * Cconj (psi y))%C i j = inner n psi (apply_mat (rest_of n qs) [] (unit_matrix j i) psi).
Proof.
  intros Hnd HF Hi Hj. pose proof (rest_length n qs Hnd HF) as Hk. assert (Er : N.of_nat (length (rest_of n qs)) = n - N.of_nat (length qs)) by lia.
  unfold inner. rewrite <- (joint_sum n qs _ Hnd HF). rewrite (Csum_single _ _ j Hj).
  - unfold ptrace. unfold Csum at 1 2. apply Csuml_ext. intros z Hz. apply in_seqN in Hz. unfold apply_mat. cbn [ctrl_ok forallb]. rewrite Er, (Csum_single _ _ i Hi).
    + rewrite joint_rest by (rewrite Er; assumption). unfold unit_matrix. rewrite !N.eqb_refl. cbn [andb].
      replace (scatter (rest_of n qs) i (joint n qs j z)) with (joint n qs i z); [ring|].
      assert (Hx : scatter (rest_of n qs) i (joint n qs j z) < 2 ^ n) by (apply scatter_lt; [apply rest_NoDup|apply rest_lt|now apply joint_lt]).
      rewrite <- (joint_split n qs _ Hnd Hx). f_equal; symmetry; [apply gather_scatter; [apply rest_NoDup|rewrite Er; exact Hi]|].
      rewrite gather_scatter_out; [now apply joint_traced|]. intros q Hq Hr. apply in_rest in Hr. tauto.
    + intros b _ Hb. unfold unit_matrix. destruct (N.eqb_spec b i); [congruence|]. rewrite andb_false_r. ring.
  - intros a Ha Hne. apply Csum_zero. intros z Hz. unfold apply_mat. cbn [ctrl_ok forallb]. rewrite joint_rest by (rewrite Er; assumption).
    rewrite Csum_zero; [ring|]. intros b _. unfold unit_matrix. destruct (N.eqb_spec a j); [congruence|]. cbn [andb]. ring.
Qed.

Section Elsewhere.
  Variables (n L : N) (ps : string -> option R) (c : circuit) (p : program) (l : list (sgate * option cond)) (psi : state) (r0 : list bool).
  Hypotheses (Hn : n < 64) (HL : lanes_ok L) (Hc : circuit_is c p) (Hk : norm_kept n ps p) (Hs : sqnorm n psi = 1%R)
    (HF : Forall (fun q => q < n) (program_operands p)) (Hl : instantiate ps p = Some l) (Ho : orderly (length r0) [] l).
  Let avg f v := averaged (draws_list l) (run_gives n (circuit_update n L ps c) psi r0 f) v.
  Theorem observable_elsewhere ts cs M : wf_ops n ts cs -> (forall q, In q (ts ++ map fst cs) -> ~ In q (program_operands p)) ->
    avg (fun w => inner n (w_amp w) (apply_mat ts cs M (w_amp w))) (inner n psi (apply_mat ts cs M psi)).
  Proof.
    intros [Hnd Hlt] Hd. apply (elsewhere_on n L ps c p l psi r0 Hn HL Hc Hk Hs HF Hl Ho (ts ++ map fst cs)); try assumption. apply matrix_acts_on. exact (front_NoDup _ _ Hnd).
  Qed.
  Lemma two_terms f g (z v v' : C) : avg f v -> avg g v' -> avg (fun w => f w + z * g w)%C (v + z * v')%C.
  Proof.
    intros H1 H2. unfold avg in *. eapply averaged_add; [|exact H1|apply average_times with (z := z); exact H2]. intros us a b _ _ Ha Hb. exact (run_gives_both n _ psi r0 _ _ us a b Cadd Ha Hb).
  Qed.
  Theorem marginal_elsewhere vs : N.of_nat (length vs) = n -> (forall q, In q (program_operands p) -> nth (N.to_nat q) vs 2 = 2) ->
    avg (fun w => RtoC (prob n (shows vs) (w_amp w))) (RtoC (prob n (shows vs) psi)).
  Proof.
    intros Hlen Hv. unfold avg. rewrite prob_inner. eapply average_same; [intros us w' w _ _ _ _ _ _; symmetry; apply prob_inner|]. apply two_terms.
    - apply (elsewhere_on n L ps c p l psi r0 Hn HL Hc Hk Hs HF Hl Ho [] _ same_acts_on); [constructor|intros q []].
    - apply (elsewhere_on n L ps c p l psi r0 Hn HL Hc Hk Hs HF Hl Ho (map fst (selected vs))).
      + exact (matrix_acts_on [] (selected vs) _ (NoDup_nil _)).
      + apply Forall_forall. intros q Hq. apply selected_in in Hq. lia.
      + intros q Hq Hp. apply selected_in in Hq. destruct Hq as [_ Hq]. exact (Hq (Hv q Hp)).
  Qed.
  Theorem reduced_elsewhere qs i j : NoDup qs -> Forall (fun q => q < n) qs -> incl (program_operands p) qs -> i < 2 ^ (n - N.of_nat (length qs)) -> j < 2 ^ (n - N.of_nat (length qs)) ->
    avg (fun w => ptrace n qs (fun x y => w_amp w x * Cconj (w_amp w y))%C i j) (ptrace n qs (fun x y => psi x * Cconj (psi y))%C i j).
  Proof.
    intros Hnd Hlt Hi Hii Hjj. unfold avg. rewrite ptrace_inner by assumption. eapply average_same; [intros us w' w _ _ _ _ _ _; symmetry; now apply ptrace_inner|].
    apply (elsewhere_on n L ps c p l psi r0 Hn HL Hc Hk Hs HF Hl Ho (rest_of n qs)).
    - pose proof (matrix_acts_on (rest_of n qs) [] (unit_matrix j i) (rest_NoDup n qs)) as H. cbn [map] in H. rewrite app_nil_r in H. exact H.
    - apply rest_lt.
    - intros q Hq Hp. apply in_rest in Hq. destruct Hq as [_ Hq]. apply Hq. now apply Hi.
  Qed.
  Theorem operator_elsewhere o : op_fits n o -> (forall t q, In t (o_terms o) -> N.testbit (N.lor (p_bf t) (p_pf t)) q = true -> ~ In q (program_operands p)) ->
    avg (fun w => inner n (w_amp w) (op_act o (w_amp w))) (inner n psi (op_act o psi)).
  Proof.
    intros Hfit Hd. unfold avg.
    assert (E : forall phi, inner n phi (op_act o phi) = Csuml (fun t => inner n phi (pauli_act t phi)) (o_terms o)).
    { intros phi. unfold inner, op_act, terms_act, Csum. rewrite Csuml_swap. apply Csuml_ext. intros x _. now rewrite <- Csuml_mul_l. }
    rewrite E. eapply average_same; [intros us w' w _ _ _ _ _ _; symmetry; apply E|].
    assert (Ht : forall t, In t (o_terms o) -> avg (fun w => inner n (w_amp w) (pauli_act t (w_amp w))) (inner n psi (pauli_act t psi))).
    { intros t Hin. unfold pauli_act. apply observable_elsewhere.
      - split; cbn [map]; rewrite app_nil_r; [apply bits_NoDup|]. apply Forall_forall. intros q Hq. apply in_bits in Hq. unfold op_fits in Hfit. rewrite Forall_forall in Hfit. destruct (Hfit t Hin) as [H1 H2].
        destruct (N.lt_ge_cases q n) as [|Hge]; [assumption|]. rewrite N.lor_spec, (testbit_high _ n q H1 Hge), (testbit_high _ n q H2 Hge) in Hq. discriminate.
      - cbn [map]. rewrite app_nil_r. intros q Hq. apply in_bits in Hq. exact (Hd t q Hin Hq). }
    destruct (o_terms o) as [|t0 ts] eqn:Eo.
    - cbn [Csuml fold_right]. replace C0 with (C0 * inner n psi psi)%C at 1 by ring.
      eapply average_same; [|apply average_times; apply (elsewhere_on n L ps c p l psi r0 Hn HL Hc Hk Hs HF Hl Ho [] _ same_acts_on); [constructor|intros q []]]. intros. cbn. ring.
    - apply (average_sum n _ psi r0 _ (fun t w => inner n (w_amp w) (pauli_act t (w_amp w))) _ (t0 :: ts) t0); [now left|exact Ht].
  Qed.
  (** Without random gates: every run. *)
  Theorem exact_elsewhere f v : draws_list l = 0%nat -> avg f v -> run_gives n (circuit_update n L ps c) psi r0 f [] v.
  Proof. intros E H. unfold avg in H. rewrite E in H. exact H. Qed.
End Elsewhere.
