(** The results of the Arnoldi method, and where it fails. *)
From Verif Require Export GroundProofs8.
From Coq Require Import Lia Lra Psatz.
Open Scope N_scope.
Open Scope list_scope.

(** ** An orthonormal family is not larger than the dimension *)
Definition unit_at (x : N) : state := fun y => if y =? x then C1 else C0.
Lemma inner_unit n a x : x < 2 ^ n -> inner n a (unit_at x) = Cconj (a x).
Proof.
  intros Hx. unfold inner, Csum. rewrite (Csuml_single _ _ x); [|apply NoDup_seqN|now apply in_seqN|].
  - unfold unit_at. rewrite N.eqb_refl. ring.
  - intros y _ Hy. unfold unit_at. apply N.eqb_neq in Hy. rewrite Hy. ring.
Qed.
Lemma unit_norm n x : x < 2 ^ n -> sqnorm n (unit_at x) = 1%R.
Proof. intros Hx. pose proof (inner_self n (unit_at x)) as H. rewrite inner_unit in H by assumption. unfold unit_at in H at 1. rewrite N.eqb_refl in H. apply (f_equal fst) in H. cbn in H. now rewrite <- H. Qed.
Lemma RtoC_Rsuml {T} (f : T -> R) l : RtoC (Rsuml f l) = Csuml (fun x => RtoC (f x)) l.
Proof. unfold Csuml, Rsuml. induction l as [|x l IH]; [reflexivity|]. cbn [map fold_right]. rewrite <- IH. c_eq; cbn; ring. Qed.
Lemma fst_Csuml {T} (f : T -> C) l : fst (Csuml f l) = Rsuml (fun x => fst (f x)) l.
Proof. unfold Csuml, Rsuml. induction l as [|x l IH]; [reflexivity|]. cbn. rewrite IH. reflexivity. Qed.
Lemma Rsuml_const {T} (l : list T) : Rsuml (fun _ => 1%R) l = INR (length l).
Proof. unfold Rsuml. induction l as [|x l IH]; [reflexivity|]. change (length (x :: l)) with (S (length l)). rewrite S_INR. cbn [map fold_right]. rewrite IH. ring. Qed.
Lemma orthonormal_count n f k : orthonormal n f k -> N.of_nat k <= 2 ^ n.
Proof.
  intros Ho. assert (H1 : fst (Csum (2 ^ n) (fun x => sumn k (fun i => RtoC (Cnorm2 (f i x))))) = INR k).
  { rewrite Csum_sumn. rewrite (sumn_ext k _ (fun _ => C1)).
    - clear Ho. induction k as [|k IH]; [reflexivity|]. rewrite sumn_S, S_INR. cbn. rewrite IH. reflexivity.
    - intros i Hi. specialize (Ho i i Hi Hi). rewrite Nat.eqb_refl, inner_self in Ho. rewrite <- Ho. unfold Csum, sqnorm. now rewrite RtoC_Rsuml. }
  assert (H2 : (fst (Csum (2 ^ n) (fun x => sumn k (fun i => RtoC (Cnorm2 (f i x))))) <= INR (length (seqN (2 ^ n))))%R).
  { unfold Csum. rewrite fst_Csuml, <- Rsuml_const. apply Rsuml_le. intros x Hx. apply in_seqN in Hx. rewrite <- (unit_norm n x Hx). eapply Rle_trans; [|apply (bessel n f k (unit_at x) Ho)]. apply Req_le.
    unfold Re. f_equal. apply sumn_ext. intros i _. rewrite inner_unit by assumption. f_equal. unfold Cnorm2, Cconj. cbn. ring. }
  rewrite H1 in H2. apply INR_le in H2. rewrite length_seqN in H2. lia.
Qed.

Definition solver_type := nat -> matrix -> option (list (C * (N -> C))).
Section Method.
  Variables (o : operator) (n : N).
  Hypothesis Hsol : solvable n o.
  Variable solver : solver_type.
  Hypothesis Hcor : solver_correct solver.
  Variables (mu : option C) (w : world).
  Hypothesis Hone : sqnorm n (w_amp w) = 1%R.
  Let sh := shift_of o mu.
  Let P := krylov o sh (w_amp w).
  Definition found (k : nat) (E : C) (psi : state) : Prop :=
    exists basis last cols e r, arn o n sh (w_amp w) basis last cols /\ length basis = k /\ solver k (hessenberg cols) = Some (e :: r) /\
      E = (fst (min_element e r) + sh)%C /\
      exists c, (0 < c)%R /\ (c * c * sqnorm n (ritz basis (snd (min_element e r))) = 1)%R /\ eqv n psi (fun x => Cscale c (ritz basis (snd (min_element e r)) x)).
  Lemma method_runs k : runs (solve_ground_state_by_arnoldi_method o n solver k mu) w (fun out => match out with
      | HDone E w' => (0 < k)%nat /\ found k E (w_amp w')
      | HThrown _ => (exists k M, solver k M = None) /\ exists basis last cols, arn o n sh (w_amp w) basis last cols /\ length basis = k
      | HUndefined => k = 0%nat \/ ~ lin_independent n P k
      end).
  Proof using All.
    destruct Hsol as (H0 & H63 & Hf & Ht). unfold solve_ground_state_by_arnoldi_method. eapply returns_bind; [apply runs_check|].
    { destruct (N.eqb_spec (N.of_nat (length (o_terms o))) 0) as [E|E]; cbn; [|reflexivity]. destruct (o_terms o); [contradiction|cbn in E; lia]. }
    eapply returns_bind; [apply realized_mu_ok|]. fold sh. eapply returns_bind; [apply runs_get; reflexivity|].
    eapply runs_bind; [apply (loop_ok o n sh (w_amp w) H0 H63 Hf Hone k [] (w_amp w) [] w); constructor| | |]; cbn [length]; rewrite ?Nat.add_0_r.
    - intros [basis cols] w1 (last & Ha & Hl). cbn [fst snd] in *. destruct (solver k (hessenberg cols)) as [[|e r]|] eqn:Es.
      + split; [|eexists; reflexivity]. intros out ->. left. destruct (Hcor _ _ _ Es) as [Hk _]. now symmetry.
      + destruct (Hcor _ _ _ Es) as (Hk & Hp & _). assert (Hin := min_element_in r e). rewrite Forall_forall in Hp. assert (Hpm := Hp _ Hin). rewrite <- Hl in Hpm.
        assert (Hn := ritz_norm o n sh (w_amp w) Hone basis last cols Ha _ Hpm). set (p := min_element e r) in *.
        eapply runs_bind_done; [apply set_zero_norm_ok|]. intros _ w2 (H2 & _). eapply runs_bind_done; [apply (combine_ok n H0 H63)|]. intros u3 w3 H3. cbv beta in H3.
        assert (H3' : eqv n (w_amp w3) (ritz basis (snd p))). { intros x Hx. rewrite (H3 x Hx), (H2 x Hx). unfold ritz, at_index. rewrite Cadd_0_l. unfold lin. apply sumn_ext. intros i _. now rewrite N.add_0_l. }
        assert (Hq : sqnorm n (w_amp w3) = sqnorm n (ritz basis (snd p))) by (apply sqnorm_ext; exact H3').
        eapply runs_bind_done; [apply normalize_ok; rewrite Hq; lra|]. intros _ w4 (H4 & _). apply runs_ret. split; [cbn in Hk; lia|]. exists basis, last, cols, e, r. split; [exact Ha|]. split; [exact Hl|]. split; [exact Es|]. split; [reflexivity|].
        fold p. exists (/ sqrt (sqnorm n (ritz basis (snd p))))%R. assert (Hs : (0 < sqrt (sqnorm n (ritz basis (snd p))))%R) by now apply sqrt_lt_R0. split; [now apply Rinv_0_lt_compat|]. split.
        * rewrite <- Rinv_mult, sqrt_sqrt by lra. field. lra.
        * intros x Hx. rewrite (H4 x Hx), Hq, (H3' x Hx). reflexivity.
      + split; [|eexists; reflexivity]. intros out ->. split; [eauto|]. exists basis, last, cols. auto.
    - intros w1 [].
    - cbn [loop_outcome]. auto.
  Qed.
  Lemma method_solves k (Q : C -> state -> Prop) : (0 < k)%nat -> lin_independent n P k -> (forall E psi, found k E psi -> Q E psi) -> solves_with solver (solve_ground_state_by_arnoldi_method o n solver k mu) w Q.
  Proof using All.
    intros Hk Hi H. eapply runs_weaken; [apply method_runs|]. intros [E w'|w'|] Ho; [apply H, Ho|apply Ho|]. destruct Ho; [lia|contradiction].
  Qed.
  Theorem arnoldi_undefined k : ~ lin_independent n P k -> undefined (solve_ground_state_by_arnoldi_method o n solver k mu) w.
  Proof using All.
    intros Hi. assert (Hno : forall basis last cols, arn o n sh (w_amp w) basis last cols -> length basis = k -> False).
    { intros basis last cols Ha Hl. apply Hi. apply (independent_shorter o n sh (w_amp w) ltac:(apply Hsol) ltac:(apply Hsol) k (length (basis ++ olist last))); [rewrite app_length; lia|]. apply (arn_independent o n sh (w_amp w) ltac:(apply Hsol) Hone _ _ _ Ha). }
    eapply runs_weaken; [apply method_runs|]. intros [E w'|w'|] Ho; [|destruct Ho as (_ & basis & last & cols & Ha & Hl)|reflexivity]; exfalso.
    - destruct Ho as (_ & basis & last & cols & e & r & Ha & Hl & _). eauto.
    - eauto.
  Qed.
  Theorem arnoldi_too_many k : 2 ^ n < N.of_nat k -> undefined (solve_ground_state_by_arnoldi_method o n solver k mu) w.
  Proof using All.
    intros Hk. assert (Hno : forall basis last cols, arn o n sh (w_amp w) basis last cols -> length basis = k -> False).
    { intros basis last cols Ha Hl. pose proof (orthonormal_count n _ _ (b_ortho o n sh (w_amp w) Hone basis last cols Ha)). lia. }
    eapply runs_weaken; [apply method_runs|]. intros [E w'|w'|] Ho; [|destruct Ho as (_ & basis & last & cols & Ha & Hl)|reflexivity]; exfalso.
    - destruct Ho as (_ & basis & last & cols & e & r & Ha & Hl & _). eauto.
    - eauto.
  Qed.
  Theorem arnoldi_none : runs (solve_ground_state_by_arnoldi_method o n solver 0 mu) w (fun out => match out with HDone _ _ => False | _ => True end).
  Proof using All. eapply runs_weaken; [apply method_runs|]. intros [E w'|w'|] Ho; [lia|exact I|exact I]. Qed.

  (** ** Every result *)
  Lemma found_facts k E psi : found k E psi -> sqnorm n psi = 1%R /\ in_span n P k psi /\ E = inner n psi (op_act o psi) /\
    forall phi, in_span n P k phi -> inner n phi (fun x => op_act o psi x - E * psi x)%C = C0.
  Proof using All.
    destruct Hsol as (H0 & H63 & Hf & Ht). intros (basis & last & cols & e & r & Ha & Hl & Es & -> & c & Hc & Hcc & Hpsi). set (p := min_element e r) in *.
    destruct (Hcor _ _ _ Es) as (_ & Hp & _). rewrite Forall_forall in Hp. assert (Hpm := Hp _ (min_element_in r e)). fold p in Hpm. rewrite <- Hl in *.
    assert (Hpsi' : eqv n psi (fun x => C0 + RtoC c * ritz basis (snd p) x)%C) by (intros x Hx; rewrite (Hpsi x Hx); c_eq; cbn; ring).
    assert (Hn : sqnorm n psi = 1%R) by (rewrite (sqnorm_ext n _ _ Hpsi), sqnorm_real_scale; exact Hcc).
    assert (Hs : in_span n P (length basis) psi).
    { eapply span_eqv; [intros x Hx; symmetry; apply (Hpsi' x Hx)|]. apply span_add; [apply span_zero|]. apply (basis_krylov o n sh (w_amp w) Hf basis last cols Ha). apply (ritz_span n). }
    assert (Hg : forall phi, in_span n P (length basis) phi -> inner n phi (fun x => op_act o psi x - (fst p + sh) * psi x)%C = C0).
    { intros phi Hphi. apply (krylov_basis o n sh (w_amp w) Hf basis last cols Ha) in Hphi. pose proof (ritz_orthogonal o n sh (w_amp w) Hf Hone basis last cols Ha p Hpm phi Hphi) as H.
      set (res := fun x => (shifted o sh (ritz basis (snd p)) x + - fst p * ritz basis (snd p) x)%C) in *.
      rewrite (inner_eqv n phi _ phi (fun x => C0 + RtoC c * res x)%C); [|intros x Hx; reflexivity|].
      - rewrite inner_linear, inner_zero_r, H. ring.
      - intros x Hx. unfold res, shifted. rewrite (op_act_local n o Hf _ _ Hpsi' x Hx), op_act_linear, (linear_zero n (op_act o) (op_act_linear o) (op_act_local n o Hf) x Hx), (Hpsi' x Hx). ring. }
    split; [exact Hn|]. split; [exact Hs|]. split; [|exact Hg]. specialize (Hg psi Hs).
    rewrite (inner_eqv n psi _ psi (fun x => op_act o psi x + (- (fst p + sh)) * psi x)%C) in Hg; [|intros x Hx; reflexivity|intros x Hx; ring]. rewrite inner_linear, inner_self, Hn in Hg.
    change (RtoC 1) with C1 in Hg. symmetry. transitivity (inner n psi (op_act o psi) + - (fst p + sh) * C1 + (fst p + sh))%C; [ring|]. rewrite Hg. ring.
  Qed.
  Theorem arnoldi_galerkin k : (0 < k)%nat -> lin_independent n P k ->
    solves_with solver (solve_ground_state_by_arnoldi_method o n solver k mu) w (fun E psi =>
      sqnorm n psi = 1%R /\ in_span n P k psi /\ E = inner n psi (op_act o psi) /\
      forall phi, in_span n P k phi -> inner n phi (fun x => op_act o psi x - E * psi x)%C = C0).
  Proof using All. intros Hk Hi. apply method_solves; [assumption|assumption|]. apply found_facts. Qed.
  Lemma closed_none k basis last cols : arn o n sh (w_amp w) basis last cols -> length basis = k -> in_span n P k (P k) -> last = None.
  Proof using All.
    intros Ha <- Hc. destruct last as [q|]; [|reflexivity]. exfalso. pose proof (arn_independent o n sh (w_amp w) ltac:(apply Hsol) Hone _ _ _ Ha) as Hi. cbn [olist] in Hi. rewrite length_snoc in Hi.
    revert Hi. apply (not_independent o n sh (w_amp w) ltac:(apply Hsol) ltac:(apply Hsol) (length basis)); [lia|exact Hc].
  Qed.
  Lemma found_exact k E psi : found k E psi -> in_span n P k (P k) -> forall x, x < 2 ^ n -> op_act o psi x = (E * psi x)%C.
  Proof using All.
    destruct Hsol as (H0 & H63 & Hf & Ht). intros (basis & last & cols & e & r & Ha & Hl & Es & -> & c & Hc & Hcc & Hpsi) Hcl x Hx. set (p := min_element e r) in *.
    destruct (Hcor _ _ _ Es) as (_ & Hp & _). rewrite Forall_forall in Hp. assert (Hpm := Hp _ (min_element_in r e)). fold p in Hpm. assert (Hlast := closed_none k basis last cols Ha Hl Hcl). rewrite <- Hl in *.
    assert (Hpsi' : eqv n psi (fun x => C0 + RtoC c * ritz basis (snd p) x)%C) by (intros y Hy; rewrite (Hpsi y Hy); c_eq; cbn; ring).
    pose proof (ritz_exact o n sh (w_amp w) Hf Hone basis last cols Ha p Hlast Hpm x Hx) as H. unfold shifted in H.
    rewrite (op_act_local n o Hf _ _ Hpsi' x Hx), op_act_linear, (linear_zero n (op_act o) (op_act_linear o) (op_act_local n o Hf) x Hx), (Hpsi' x Hx).
    transitivity (RtoC c * ((op_act o (ritz basis (snd p)) x - sh * ritz basis (snd p) x) + sh * ritz basis (snd p) x))%C; [ring|]. rewrite H. ring.
  Qed.
  Theorem arnoldi_exact k : (0 < k)%nat -> lin_independent n P k -> in_span n P k (P k) ->
    solves_with solver (solve_ground_state_by_arnoldi_method o n solver k mu) w (fun E psi => sqnorm n psi = 1%R /\ forall x, x < 2 ^ n -> op_act o psi x = (E * psi x)%C).
  Proof using All. intros Hk Hi Hcl. apply method_solves; [assumption|assumption|]. intros E psi H. split; [apply (found_facts k E psi H)|apply (found_exact k E psi H Hcl)]. Qed.

  (** ** Self-adjoint operators *)
  Variable m : R.
  Hypothesis Hmu : shift_of o mu = RtoC m.
  Hypothesis Hsa : self_adjoint n (op_act o).
  Lemma found_least k E psi : found k E psi -> snd E = 0%R /\ forall phi, in_span n P k phi -> (fst E * sqnorm n phi <= Re (inner n phi (op_act o phi)))%R.
  Proof using All.
    destruct Hsol as (H0 & H63 & Hf & Ht). intros (basis & last & cols & e & r & Ha & Hl & Es & -> & _). set (p := min_element e r) in *.
    destruct (Hcor _ _ _ Es) as (_ & Hp & Hspan). assert (Hpm : In p (e :: r)) by apply min_element_in. assert (Hmu' : sh = RtoC m) by exact Hmu. rewrite <- Hl in Hp, Hspan.
    assert (Hp1 := Hp). rewrite Forall_forall in Hp1. split.
    - pose proof (ritz_real o n sh (w_amp w) Hf Hone basis last cols Ha m Hmu' Hsa p (Hp1 p Hpm)) as Hr. rewrite Hmu'. cbn. rewrite Hr. ring.
    - intros phi Hphi. replace (fst (fst p + sh)%C) with (fst (fst p) + m)%R by (rewrite Hmu'; reflexivity).
      apply (ritz_least o n sh (w_amp w) Hf Hone basis last cols Ha m Hmu' Hsa (e :: r) p Hp); [|exact Hpm|intros q Hq; apply min_element_least; exact Hq|rewrite Hl; exact Hphi].
      apply Hspan. apply (matrix_hermitian o n sh (w_amp w) Hone basis last cols Ha m Hmu' Hsa).
  Qed.
  Theorem arnoldi_least k : (0 < k)%nat -> lin_independent n P k ->
    solves_with solver (solve_ground_state_by_arnoldi_method o n solver k mu) w (fun E psi =>
      snd E = 0%R /\ forall phi, in_span n P k phi -> (fst E * sqnorm n phi <= Re (inner n phi (op_act o phi)))%R).
  Proof using All. intros Hk Hi. apply method_solves; [assumption|assumption|]. apply found_least. Qed.
  Theorem arnoldi_variational k lambda : (0 < k)%nat -> lin_independent n P k -> energy_at_least n o lambda ->
    solves_with solver (solve_ground_state_by_arnoldi_method o n solver k mu) w (fun E psi => snd E = 0%R /\ (lambda <= fst E)%R).
  Proof using All.
    intros Hk Hi Hlow. apply method_solves; [assumption|assumption|]. intros E psi H. split; [apply (found_least k E psi H)|]. destruct (found_facts k E psi H) as (Hn & _ & HE & _).
    specialize (Hlow psi). rewrite Hn, <- HE in Hlow. unfold Re in Hlow. lra.
  Qed.
  Lemma independent_nonzero k : lin_independent n P (S k) -> sqnorm n (P k) <> 0%R.
  Proof using Hsol.
    intros Hi Hz. apply (not_independent o n sh (w_amp w) ltac:(apply Hsol) ltac:(apply Hsol) k (S k)); [lia| |exact Hi]. eapply span_eqv; [|apply span_zero]. intros x Hx. symmetry. apply Cnorm2_zero.
    eapply (Rsuml_zero (fun x => Cnorm2 (P k x)) (seqN (2 ^ n))); [intros; apply Cnorm2_nonneg|exact Hz|now apply in_seqN].
  Qed.
  Theorem arnoldi_beats_power k : o_herm o = true -> lin_independent n P (S k) ->
    solves_with solver (solve_ground_state_by_arnoldi_method o n solver (S k) mu) w (fun E _ =>
      solves (solve_ground_state_by_power_method o n k mu) w (fun E' _ => (fst E <= fst E')%R)).
  Proof using All.
    intros Hh Hi. apply method_solves; [lia|assumption|]. intros E psi Hfd. destruct (found_least _ _ _ Hfd) as [_ Hl]. assert (Hnz := independent_nonzero k Hi).
    eapply runs_weaken; [apply (power_energy o n Hsol Hh mu w Hsa Hone k Hnz)|]. intros [E' w'|w'|] H; cbn [done] in *; try contradiction. destruct H as [-> _]. cbn [RtoC fst].
    specialize (Hl (P k) (span_in n P (S k) k ltac:(lia))). unfold rayleigh. fold sh. change (shifted_power o sh k (w_amp w)) with (P k). pose proof (sqnorm_nonneg n (P k)).
    apply Rmult_le_reg_r with (sqnorm n (P k)); [unfold P in *; lra|]. unfold Rdiv. rewrite Rmult_assoc, Rinv_l, Rmult_1_r by exact Hnz. exact Hl.
  Qed.
  Variables (lambda : R) (g : state).
  Hypothesis Hreal : real_coefs o.
  Hypothesis Hground : ground_state n o lambda g.
  Hypothesis Hoverlap : inner n g (w_amp w) <> C0.
  Lemma closed_all k m' j : (0 < k)%nat -> in_span n P k (P k) -> in_span n P k (shifted_power o (RtoC m') j (w_amp w)).
  Proof using Hsol.
    intros Hk Hc. induction j as [|j IH]; cbn [shifted_power]; [change (w_amp w) with (P 0%nat); now apply span_in|].
    apply (span_eqv n P k (fun x => shifted o sh (shifted_power o (RtoC m') j (w_amp w)) x + (sh - RtoC m') * shifted_power o (RtoC m') j (w_amp w) x)%C).
    - intros x Hx. unfold shifted. ring.
    - apply span_add; [|exact IH]. apply (span_map n (shifted o sh) P k k P _ (A_lin o sh) (A_loc o n sh ltac:(apply Hsol)) IH). intros i Hi. change (shifted o sh (P i)) with (P (S i)).
      destruct (Nat.eq_dec (S i) k) as [->|Hne]; [exact Hc|]. apply span_in. lia.
  Qed.
  Theorem arnoldi_ground k : (0 < k)%nat -> lin_independent n P k -> in_span n P k (P k) ->
    solves_with solver (solve_ground_state_by_arnoldi_method o n solver k mu) w (fun E psi => E = RtoC lambda /\ ground_state n o lambda psi).
  Proof using All.
    intros Hk Hi Hcl. apply method_solves; [assumption|assumption|]. intros E psi Hfd. destruct (found_least _ _ _ Hfd) as [Him Hl]. destruct (found_facts _ _ _ Hfd) as (Hn & Hs & HE & _).
    assert (Hex := found_exact k E psi Hfd Hcl). destruct Hground as (Hlow & Hg1 & Hg2). destruct Hsol as (H0 & H63 & Hf & Ht).
    assert (Hge : (lambda <= fst E)%R). { pose proof (Hlow psi) as H. rewrite Hn, <- HE in H. unfold Re in H. lra. }
    destruct (default_shift_bounds n o Hf Hreal) as [Hup _]. set (M := (coef_sum o + Rabs lambda + 1)%R).
    assert (HM : energy_at_most n o M). { intros phi. specialize (Hup phi). pose proof (sqnorm_nonneg n phi) as Hq. pose proof (Rabs_pos lambda). assert (0 <= (Rabs lambda + 1) * sqnorm n phi)%R by (apply Rmult_le_pos; lra). unfold M. lra. }
    assert (HlM : (lambda < M)%R). { pose proof (Rle_abs lambda). assert (0 <= coef_sum o)%R by (apply Rsuml_nonneg; intros; apply Rabs_pos). unfold M. lra. }
    assert (Hle : (fst E <= lambda)%R).
    { destruct (Rle_dec (fst E) lambda) as [|Hgt]; [assumption|]. exfalso. set (eps := (fst E - lambda)%R). assert (Heps : (0 < eps)%R) by (unfold eps; lra).
      destruct (ratio_converges n o M (w_amp w) Hsa HM lambda g (conj Hlow (conj Hg1 Hg2)) Hoverlap HlM eps Heps) as [K HK]. cbv beta zeta in HK. specialize (HK K (le_n K)).
      pose proof (a_pos n o M (w_amp w) Hsa lambda g (conj Hlow (conj Hg1 Hg2)) Hoverlap HlM K) as Hpos. cbv beta zeta in Hpos.
      pose proof (Hl _ (closed_all k M K Hk Hcl)) as Hq. set (phi := shifted_power o (RtoC M) K (w_amp w)) in *. fold (quad n (op_act o) phi) in Hq. rewrite quad_shifted in HK.
      destruct HK as [HK _]. apply (Rmult_lt_compat_r (sqnorm n phi)) in HK; [|exact Hpos]. unfold Rdiv in HK. rewrite Rmult_assoc, Rinv_l, Rmult_1_r in HK by lra. unfold eps in HK. nra. }
    assert (HEl : E = RtoC lambda) by (destruct E as [u v]; cbn in *; subst v; unfold RtoC; f_equal; lra).
    split; [exact HEl|]. split; [exact Hlow|]. split; [rewrite Hn; lra|]. intros x Hx. rewrite (Hex x Hx), HEl. c_eq; cbn; ring.
  Qed.
End Method.

(** ** Where it fails *)
Theorem arnoldi_throws o n solver k mu w : o_terms o = [] -> throws (solve_ground_state_by_arnoldi_method o n solver k mu) w.
Proof.
  intros E. unfold solve_ground_state_by_arnoldi_method. rewrite E. cbn [length]. eapply runs_bind; [apply runs_check; instantiate (1 := fun out => out = HThrown w); reflexivity| | |]; [intros ? ? [=]|intros ? [= ->]; reflexivity|intros [=]].
Qed.
(** Started in an eigenstate *)
Theorem arnoldi_eigenstate o n : solvable n o -> forall solver, solver_correct solver -> forall mu w, sqnorm n (w_amp w) = 1%R ->
  forall e k, eigenstate n o e (w_amp w) -> (2 <= k)%nat -> undefined (solve_ground_state_by_arnoldi_method o n solver k mu) w.
Proof.
  intros Hs solver Hc mu w Hone e k He Hk. apply arnoldi_undefined; [assumption|assumption|assumption|].
  apply (not_independent o n _ (w_amp w) ltac:(apply Hs) ltac:(apply Hs) 1%nat k); [lia|]. exists (fun _ => RtoC e - shift_of o mu)%C. intros x Hx. rewrite sumn_S, sumn_0. cbn [krylov shifted_power]. unfold krylov. cbn [shifted_power]. unfold shifted.
  rewrite (He x Hx). c_eq; cbn; ring.
Qed.
(** One iteration from a start of any norm *)
Lemma one_loop o n : solvable n o -> forall mu q w, runs (arnoldi_loop o n mu 1 [] (Some q) []) w (done (fun bc _ => fst bc = [q] /\ hessenberg (snd bc) 0 0 = inner n q (shifted o mu q))).
Proof.
  intros (H0 & H63 & Hf & _) mu q w. cbn [arnoldi_loop app orthogonalize].
  eapply runs_bind_done; [apply runs_modify; instantiate (1 := fun _ w1 => w_amp w1 = q); reflexivity|]. intros u w1 H1. cbv beta in H1.
  eapply runs_bind_done; [apply apply_to_state_ok; assumption|]. intros _ w2 (H2 & _).
  eapply runs_bind_done; [apply add_ok; right; lia|]. intros _ w3 (H3 & _). cbv beta iota in H3.
  assert (H3' : eqv n (w_amp w3) (shifted o mu q)). { intros x Hx. rewrite (H3 x Hx), (H2 x Hx), H1. unfold shifted. ring. }
  eapply runs_bind_done with (P := fun coefs _ => coefs = [inner n q (shifted o mu q)]).
  { eapply returns_bind.
    { apply (hsum_returns_C (2 ^ n) (2 ^ n) (fun i => RRd i (fun a => RVal (Cconj (q i) * a)%C)) w3 (fun i => Cconj (q i) * w_amp w3 i)%C). intros i Hi. cbn [rrun]. apply N.ltb_lt in Hi. now rewrite Hi. }
    fold (inner n q (w_amp w3)). rewrite (inner_eqv n q _ q _ ltac:(intros x Hx; reflexivity) H3'). eapply runs_bind_done; [apply add_ok; right; lia|]. intros _ w4 _. eapply runs_bind_done with (P := fun c _ => c = []); [now apply runs_ret|]. intros c w5 ->. now apply runs_ret. }
  intros coefs w4 ->. eapply returns_bind; [apply squared_norm_ok|]. cbv zeta. destruct (Req_EM_T _ 0); [apply runs_ret; split; reflexivity|].
  eapply runs_bind_done; [apply multiply_ok|]. intros _ w5 _. eapply returns_bind; [apply runs_get; reflexivity|]. apply runs_ret. split; reflexivity.
Qed.
Theorem arnoldi_one_iteration o n : solvable n o -> forall solver, solver_correct solver -> forall mu w, sqnorm n (w_amp w) <> 0%R ->
  solves_with solver (solve_ground_state_by_arnoldi_method o n solver 1 mu) w (fun E psi =>
    sqnorm n psi = 1%R /\ E = (inner n (w_amp w) (op_act o (w_amp w)) + shift_of o mu * RtoC (1 - sqnorm n (w_amp w)))%C).
Proof.
  intros Hs solver Hc mu w Hn. pose proof Hs as (H0 & H63 & Hf & Ht). unfold solves_with, solve_ground_state_by_arnoldi_method. eapply returns_bind; [apply runs_check|].
  { destruct (N.eqb_spec (N.of_nat (length (o_terms o))) 0) as [E|E]; cbn; [|reflexivity]. destruct (o_terms o); [contradiction|cbn in E; lia]. }
  eapply returns_bind; [apply realized_mu_ok|]. set (sh := shift_of o mu). eapply returns_bind; [apply runs_get; reflexivity|].
  eapply runs_bind_done; [apply (one_loop o n Hs)|]. intros [basis cols] w1 [-> HM]. cbn [fst snd] in *. destruct (solver 1%nat (hessenberg cols)) as [l|] eqn:Es; [|split; [|eexists; reflexivity]; intros out ->; eauto].
  destruct (Hc _ _ _ Es) as (Hl & Hp & _). destruct l as [|p [|? ?]]; try discriminate. inversion Hp as [|? ? ((i & Hi & Hy) & He) _]; subst. replace i with 0%nat in Hy by lia. clear i Hi.
  specialize (He 0%nat ltac:(lia)). rewrite sumn_S, sumn_0 in He. change (N.of_nat 0) with 0 in He. rewrite HM in He. set (y0 := at_index (snd p) 0) in *.
  assert (Ep : fst p = inner n (w_amp w) (shifted o sh (w_amp w))).
  { assert (Hz : ((inner n (w_amp w) (shifted o sh (w_amp w)) - fst p) * y0)%C = C0) by (transitivity (C0 + inner n (w_amp w) (shifted o sh (w_amp w)) * y0 - fst p * y0)%C; [ring|rewrite He; ring]).
    apply Cmul_integral in Hz. destruct Hz as [Hz|Hz]; [|contradiction]. transitivity (fst p + C0)%C; [ring|]. rewrite <- Hz. ring. }
  cbn [min_element]. eapply runs_bind_done; [apply set_zero_norm_ok|]. intros _ w2 (H2 & _). eapply runs_bind_done; [apply (combine_ok n H0 H63)|]. intros u3 w3 H3. cbv beta in H3.
  assert (H3' : eqv n (w_amp w3) (fun x => y0 * w_amp w x)%C). { intros x Hx. rewrite (H3 x Hx), (H2 x Hx). unfold lin. cbn [length]. rewrite sumn_S, sumn_0. change (bas [w_amp w] 0) with (w_amp w). change (snd p (0 + N.of_nat 0)) with y0. ring. }
  assert (Hq : sqnorm n (w_amp w3) = (Cnorm2 y0 * sqnorm n (w_amp w))%R). { rewrite (sqnorm_ext n _ _ H3'). unfold sqnorm. rewrite <- Rsuml_scale. apply Rsuml_ext. intros x _. apply Cnorm2_mul. }
  assert (Hpos : (sqnorm n (w_amp w3) <> 0)%R). { rewrite Hq. intros Hz. apply Rmult_integral in Hz. destruct Hz as [Hz|Hz]; [apply Cnorm2_zero in Hz; contradiction|contradiction]. }
  eapply runs_bind_done; [apply normalize_ok; exact Hpos|]. intros _ w4 (H4 & _). apply runs_ret. split.
  - rewrite (sqnorm_ext n _ _ H4), sqnorm_real_scale, <- Rinv_mult, sqrt_sqrt by apply sqnorm_nonneg. field. exact Hpos.
  - rewrite Ep, inner_shifted, inner_self. c_eq; cbn; ring.
Qed.
Definition two_one : state := fun x => if x =? 1 then RtoC 2 else C0.
Theorem unnormalized : solvable 1 z_op /\ ground_state 1 z_op (-1) (basis 1) /\ sqnorm 1 two_one = 4%R /\ forall solver, solver_correct solver ->
  solves_with solver (solve_ground_state_by_arnoldi_method z_op 1 solver 1 None) (start two_one) (fun E _ => E = RtoC (-7)).
Proof.
  assert (Hn : sqnorm 1 two_one = 4%R) by (unfold sqnorm; change (seqN (2 ^ 1)) with [0; 1]; unfold Rsuml, two_one, Cnorm2, RtoC; cbn [map fold_right]; change (0 =? 1) with false; change (1 =? 1) with true; cbn [fst snd C0]; ring).
  split; [exact z_solvable|]. split; [exact z_ground|]. split; [exact Hn|]. intros solver Hc.
  eapply runs_weaken; [apply (arnoldi_one_iteration z_op 1 z_solvable solver Hc None (start two_one)); cbn [w_amp start]; lra|].
  intros [E w'|w'|] H; [|exact H|exact H]. destruct H as [_ ->]. cbn [w_amp start]. rewrite Hn, (proj1 (proj2 (proj2 (proj2 (proj2 (proj2 z_example)))))).
  assert (Hi : inner 1 two_one (op_act z_op two_one) = RtoC (-4)).
  { rewrite (inner_eqv 1 two_one _ two_one (fun x => RtoC (z_d x) * two_one x)%C ltac:(intros x Hx; reflexivity)) by exact (z_diag two_one). unfold inner, Csum, Csuml. change (seqN (2 ^ 1)) with [0; 1]. cbn [map fold_right]. unfold two_one, z_d. change (0 =? 1) with false. change (1 =? 1) with true. change (parity (N.land 0 1)) with false. change (parity (N.land 1 1)) with true. c_eq; cbn; ring. }
  rewrite Hi. c_eq; cbn; ring.
Qed.
(** ** A case that meets the hypotheses *)
Definition solver1 : solver_type := fun k M => if (k =? 1)%nat then Some [(M 0 0, fun _ => C1)] else None.
Lemma solver1_correct : solver_correct solver1.
Proof.
  intros k M l H. unfold solver1 in H. destruct (Nat.eqb_spec k 1) as [->|]; [|discriminate]. injection H as <-. split; [reflexivity|]. split.
  - constructor; [|constructor]. split; [exists 0%nat; split; [lia|]; unfold at_index; cbn; injection; lra|]. intros j Hj. replace j with 0%nat by lia. rewrite sumn_S, sumn_0. unfold at_index. cbn [fst snd]. change (N.of_nat 0) with 0. ring.
  - intros _ v. exists (fun _ => v 0). intros i Hi. replace i with 0%nat by lia. cbn [length]. rewrite sumn_S, sumn_0. unfold at_index. cbn [nth snd]. change (N.of_nat 0) with 0. ring.
Qed.
Lemma z_krylov_example : let P := krylov z_op (shift_of z_op None) plus in
  solver_correct solver1 /\ lin_independent 1 P 1 /\ lin_independent 1 P 2 /\ in_span 1 P 2 (P 2%nat).
Proof.
  destruct z_example as (_ & _ & _ & _ & _ & Hm & _). rewrite Hm. cbv zeta. set (P := krylov z_op (RtoC 1) plus). assert (Hr : (0 < / sqrt 2)%R) by (apply Rinv_0_lt_compat, sqrt_lt_R0; lra).
  assert (HP : forall k x, x < 2 ^ 1 -> P k x = (RtoC ((z_d x - 1) ^ k) * plus x)%C) by (intros k x Hx; apply (shifted_power_diagonal 1 z_op z_d 1 k plus x z_diag Hx)).
  split; [exact solver1_correct|]. split; [|split].
  - intros c Hc i Hi. replace i with 0%nat by lia. specialize (Hc 0 eq_refl). rewrite sumn_S, sumn_0, HP in Hc by reflexivity. unfold plus in Hc. cbn in Hc.
    apply (f_equal (fun z => (RtoC (sqrt 2) * z)%C)) in Hc. destruct (c 0%nat) as [u v]. cbn in Hc. injection Hc as H1 H2. unfold C0. assert (sqrt 2 * / sqrt 2 = 1)%R by (apply Rinv_r; pose proof (sqrt_lt_R0 2); lra). f_equal; nra.
  - intros c Hc. assert (H0 := Hc 0 eq_refl). assert (H1 := Hc 1 eq_refl). rewrite !sumn_S, sumn_0, !HP in H0, H1 by reflexivity. unfold plus, z_d in H0, H1. change (parity (N.land 0 1)) with false in H0. change (parity (N.land 1 1)) with true in H1. cbn [pow] in H0, H1.
    destruct (c 0%nat) as [u0 v0] eqn:E0. destruct (c 1%nat) as [u1 v1] eqn:E1. unfold Cadd, Cmul, RtoC, C0 in H0, H1. cbn [fst snd] in H0, H1. injection H0 as A1 A2. injection H1 as B1 B2.
    assert (K : forall t, (t * / sqrt 2 = 0)%R -> t = 0%R) by (intros t Ht; apply Rmult_integral in Ht; destruct Ht; [assumption|lra]).
    assert (u0 = 0)%R by (apply K; lra). assert (v0 = 0)%R by (apply K; lra). subst. assert (u1 = 0)%R by (apply K; lra). assert (v1 = 0)%R by (apply K; lra). subst.
    intros i Hi. destruct i as [|[|i]]; [exact E0|exact E1|lia].
  - exists (fun i => if (i =? 1)%nat then RtoC (-2) else C0). intros x Hx. rewrite !sumn_S, sumn_0, !HP by assumption. cbn [Nat.eqb]. below_cases x Hx; unfold z_d, plus; change (parity (N.land 0 1)) with false; change (parity (N.land 1 1)) with true; c_eq; cbn; ring.
Qed.
