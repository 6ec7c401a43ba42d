(** Gates on disjoint qubits commute; runs of gate lists up to a global phase. *)
From Verif Require Export CircuitProofs18 OptimizeSpec.
From Coq Require Import ZifyBool ZifyN ZifyNat Permutation Lra FunctionalExtensionality.

(** ** Matrices on disjoint qubits *)
Lemma scatter_comm ts us j k x : NoDup ts -> NoDup us -> (forall i, In i ts -> ~ In i us) ->
  scatter us k (scatter ts j x) = scatter ts j (scatter us k x).
Proof.
  intros Ht Hu Hd. apply N.bits_inj. intros i. destruct (in_dec_N i ts) as [Hi|Hi].
  - rewrite scatter_out by auto. apply In_nth_error in Hi. destruct Hi as [p Hp]. now rewrite !(scatter_in ts _ _ p).
  - rewrite (scatter_out ts) by assumption. destruct (in_dec_N i us) as [Hj|Hj].
    + apply In_nth_error in Hj. destruct Hj as [p Hp]. now rewrite !(scatter_in us _ _ p).
    + rewrite !scatter_out by assumption. reflexivity.
Qed.
Lemma gather_scatter_out ts us j x : (forall i, In i ts -> ~ In i us) -> gather ts (scatter us j x) = gather ts x.
Proof. intros Hd. apply gather_inj_ext. intros t Ht. apply scatter_out. auto. Qed.
Lemma apply_mat_comm ts cs M us ds P psi x : NoDup ts -> NoDup us ->
  (forall i, In i (ts ++ map fst cs) -> ~ In i (us ++ map fst ds)) ->
  apply_mat ts cs M (apply_mat us ds P psi) x = apply_mat us ds P (apply_mat ts cs M psi) x.
Proof.
  intros Ht Hu Hd.
  assert (D1 : forall i, In i ts -> ~ In i us) by (intros i Hi Hj; apply (Hd i); apply in_or_app; auto).
  assert (D2 : forall i, In i us -> ~ In i ts) by (intros i Hi Hj; apply (Hd i); apply in_or_app; auto).
  assert (D3 : forall i, In i (map fst ds) -> ~ In i ts) by (intros i Hi Hj; apply (Hd i); apply in_or_app; auto).
  assert (D4 : forall i, In i (map fst cs) -> ~ In i us) by (intros i Hi Hj; apply (Hd i); apply in_or_app; auto).
  unfold apply_mat. destruct (ctrl_ok cs x) eqn:E1; destruct (ctrl_ok ds x) eqn:E2.
  - transitivity (Csum (2 ^ N.of_nat (length ts)) (fun j => Csum (2 ^ N.of_nat (length us)) (fun k =>
      (M (gather ts x) j * (P (gather us x) k * psi (scatter us k (scatter ts j x))))%C))).
    + apply Csum_ext. intros j _. rewrite ctrl_ok_scatter, E2, gather_scatter_out by assumption. now rewrite Csum_mul_l.
    + rewrite Csum_swap. apply Csum_ext. intros k _. rewrite ctrl_ok_scatter, E1, gather_scatter_out by assumption. rewrite <- Csum_mul_l.
      apply Csum_ext. intros j _. rewrite (scatter_comm ts us) by assumption. ring.
  - apply Csum_ext. intros j _. now rewrite ctrl_ok_scatter, E2 by assumption.
  - symmetry. apply Csum_ext. intros j _. now rewrite ctrl_ok_scatter, E1 by assumption.
  - reflexivity.
Qed.

(** ** Functions that act on some qubits *)
Definition acts_on (qs : list N) (f : state -> state) : Prop :=
  exists ts cs M, NoDup ts /\ incl (ts ++ map fst cs) qs /\ forall psi, f psi = apply_mat ts cs M psi.
Lemma acts_on_comm qs rs f g psi : acts_on qs f -> acts_on rs g -> (forall i, In i qs -> ~ In i rs) -> f (g psi) = g (f psi).
Proof.
  intros (ts & cs & M & Hn & Hi & Hf) (us & ds & P & Hn' & Hi' & Hg) Hd. rewrite !Hf, !Hg. apply functional_extensionality. intros x.
  apply apply_mat_comm; try assumption. intros i H1 H2. apply (Hd i); auto.
Qed.
Lemma acts_on_scale qs f c psi : acts_on qs f -> f (fun x => (c * psi x)%C) = (fun x => (c * f psi x)%C).
Proof. intros (ts & cs & M & _ & _ & Hf). rewrite !Hf. apply functional_extensionality. intros x. apply apply_mat_scale. Qed.
Lemma acts_on_incl qs rs f : acts_on qs f -> incl qs rs -> acts_on rs f.
Proof. intros (ts & cs & M & Hn & Hi & Hf) H. exists ts, cs, M. split; [assumption|]. split; [|assumption]. intros i Hj. auto. Qed.
Lemma acts_on_times c : acts_on [] (fun psi x => (c * psi x)%C).
Proof.
  exists [], [], (fun _ _ => c). split; [constructor|]. split; [intros i []|]. intros psi. apply functional_extensionality. intros x.
  unfold apply_mat. cbn [ctrl_ok forallb length gather scatter]. change (2 ^ N.of_nat 0) with 1. unfold Csum. change (seqN 1) with [0]. cbn [Csuml fold_right]. ring.
Qed.
Lemma acts_on_project q b : acts_on [q] (fun psi x => if shows_bit q b x then psi x else C0).
Proof.
  exists [q], [], (fun i j => if (i =? N.b2n b) && (j =? N.b2n b) then C1 else C0). split; [repeat constructor; tauto|]. split; [intros i; auto|].
  intros psi. apply functional_extensionality. intros x. rewrite apply_mat_one. cbn [ctrl_ok forallb]. unfold shows_bit.
  destruct (N.testbit x q) eqn:E, b; cbn [N.b2n Bool.eqb]; change (1 =? 1) with true; change (0 =? 1) with false; change (1 =? 0) with false; change (0 =? 0) with true; cbn [andb].
  - rewrite setbit_same by assumption. ring.
  - ring.
  - ring.
  - rewrite clearbit_same by assumption. ring.
Qed.
Lemma acts_on_flip q : acts_on [q] (flipped q).
Proof.
  exists [q], [], (fun i j => if i =? j then C0 else C1). split; [repeat constructor; tauto|]. split; [intros i; auto|].
  intros psi. apply functional_extensionality. intros x. rewrite apply_mat_one. cbn [ctrl_ok forallb]. unfold flipped.
  destruct (N.testbit x q) eqn:E; cbn [N.b2n]; change (1 =? 1) with true; change (0 =? 1) with false; change (1 =? 0) with false; change (0 =? 0) with true; cbn iota.
  - rewrite flip_clear by assumption. ring.
  - rewrite flip_set by assumption. ring.
Qed.

(** ** Steps on disjoint qubits *)
Fixpoint local (g : sgate) : Prop :=
  match g with Act qs f => acts_on qs f | Meas _ _ _ => True | Choice l => fold_right (fun pg P => local (snd pg) /\ P) True l end.
Definition keeps (n : N) (f : state -> state) : Prop := forall psi, sqnorm n (f psi) = sqnorm n psi.
Section Commute.
  Variables (n : N) (qs : list N) (f : state -> state).
  Hypothesis Hf : acts_on qs f.
  Lemma bit_prob_comm q b psi : keeps n f -> ~ In q qs -> bit_prob n q b (f psi) = bit_prob n q b psi.
  Proof.
    intros Hk Hq. unfold bit_prob. rewrite <- !sqnorm_project. rewrite <- (Hk (fun x => if shows_bit q b x then psi x else C0)). f_equal.
    symmetry. apply (acts_on_comm qs [q] f (fun psi x => if shows_bit q b x then psi x else C0)); [assumption|apply acts_on_project|].
    intros i Hi [<-|[]]. auto.
  Qed.
  Lemma measured_comm q reset b psi : keeps n f -> ~ In q qs -> measured n q reset b (f psi) = f (measured n q reset b psi).
  Proof.
    intros Hk Hq.
    assert (Hd : forall i, In i qs -> ~ In i [q]) by (intros i Hi [<-|[]]; auto).
    assert (Hp : projected n q b (f psi) = f (projected n q b psi)).
    { set (r := RtoC (/ sqrt (bit_prob n q b psi))). pose (P := fun (psi : state) x => if shows_bit q b x then psi x else C0).
      assert (Hs : forall phi, bit_prob n q b phi = bit_prob n q b psi -> projected n q b phi = fun x => (r * P phi x)%C).
      { intros phi E. apply functional_extensionality. intros x. unfold projected, P. rewrite E. unfold r. destruct (shows_bit q b x); [apply Cscale_mul|ring]. }
      rewrite (Hs psi eq_refl), (Hs (f psi)) by now apply bit_prob_comm. rewrite (acts_on_scale qs) by assumption.
      now rewrite (acts_on_comm qs [q] f P psi) by (try assumption; apply acts_on_project). }
    unfold measured. destruct (reset && b); [|assumption]. rewrite Hp. symmetry. apply (acts_on_comm qs [q]); [assumption|apply acts_on_flip|assumption].
  Qed.
  Lemma step_comm h : local h -> (forall i, In i qs -> ~ In i (operands h)) -> (measuring h = true -> keeps n f) ->
    forall us psi r t, step n h us (SState (f psi) r) (SDone t) <->
      exists s, step n h us (SState psi r) (SDone s) /\ t = SState (f (s_psi s)) (s_reg s).
  Proof.
    induction h as [rs g|q bit reset|l IH] using sgate_ind'; intros Hl Hd Hk us psi r t.
    - cbn [local operands] in *. split.
      + intros H. inversion H; subst. cbn [s_psi s_reg]. exists (SState (g psi) r). split; [apply (step_act n rs g (SState psi r))|]. cbn [s_psi s_reg]. f_equal.
        symmetry. now apply (acts_on_comm qs rs).
      + intros (s & H & ->). inversion H; subst. cbn [s_psi s_reg]. rewrite (acts_on_comm qs rs f g) by assumption. apply (step_act n rs g (SState (f psi) r)).
    - specialize (Hk eq_refl). assert (Hq : ~ In q qs) by (intros Hq; apply (Hd q Hq); now left). split.
      + intros H. inversion H as [|? ? ? u ? b Hb Hn Hsh| | |]; subst. cbn [s_psi s_reg] in *. eexists. split; [apply step_measure; cbn [s_psi s_reg]; [assumption| |reflexivity]|].
        * now rewrite <- (Hk psi).
        * cbn [s_psi s_reg]. unfold shown. rewrite (bit_prob_comm q false) by assumption. now rewrite measured_comm by assumption.
      + intros (s & H & ->). inversion H as [|? ? ? u ? b Hb Hn Hsh| | |]; subst. cbn [s_psi s_reg] in *. rewrite <- measured_comm by assumption.
        apply (step_measure n q bit reset u (SState (f psi) r)); cbn [s_psi s_reg]; [assumption|now rewrite Hk|]. unfold shown. now rewrite (bit_prob_comm q false) by assumption.
    - assert (HI : forall p g, In (p, g) l -> forall us psi r t, step n g us (SState (f psi) r) (SDone t) <->
        exists s, step n g us (SState psi r) (SDone s) /\ t = SState (f (s_psi s)) (s_reg s)).
      { intros p g Hin. rewrite Forall_forall in IH. apply (IH (p, g) Hin).
        - cbn [local] in Hl. clear -Hl Hin. induction l as [|a l IHl]; [destruct Hin|]. cbn in Hl. destruct Hl as [Ha Hl]. destruct Hin as [->|Hin]; auto.
        - intros i Hi Hj. apply (Hd i Hi). cbn [operands]. apply in_flat_map. now exists (p, g).
        - intros Hm. apply Hk. cbn [measuring]. apply existsb_exists. now exists (p, g). }
      split.
      + intros H. inversion H as [| | | |? u g us' ? ? Hp Hst]; subst. destruct Hp as (l1 & p & l2 & -> & Hle & Hlt).
        apply (HI p g) in Hst; [|apply in_or_app; right; now left]. destruct Hst as (s & Hst & ->). exists s. split; [|reflexivity].
        apply step_choice with g; [|assumption]. now exists l1, p, l2.
      + intros (s & H & ->). inversion H as [| | | |? u g us' ? ? Hp Hst]; subst. destruct Hp as (l1 & p & l2 & -> & Hle & Hlt).
        apply step_choice with g; [now exists l1, p, l2|]. apply (HI p g); [apply in_or_app; right; now left|]. now exists s.
  Qed.
End Commute.
