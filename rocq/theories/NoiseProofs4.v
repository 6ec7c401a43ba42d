(** Noise simulation: the gates and the whole run. *)
From Verif Require Import NoiseSpec NoiseProofs NoiseProofs2 NoiseProofs3 StateProofs3 CircuitProofs CircuitProofs3 CircuitProofs4 CircuitProofs13 CircuitProofs14 CircuitProofs15.
From Coq Require Import FunctionalExtensionality ZifyN ZifyNat.
Local Open Scope nat_scope.

Lemma measurement_form q bit reset g : make_measurement q bit reset = Ok g -> exists t, g = CMeas t bit reset.
Proof. unfold make_measurement. intros H. inv_bind H. inv_bind H. injection H as <-. eauto. Qed.
Lemma param_rotation vf k g : make_param vf k = Ok g -> rotation g.
Proof.
  destruct k; cbn [make_param]; intros H; repeat (inv_bind H); repeat match goal with x : _ * _ |- _ => destruct x end; cbn [bindR] in H; repeat (inv_bind H);
    injection H as <-; exact I.
Qed.
Lemma inverse_rotation g g' : p_inverse g = Ok g' -> rotation g -> rotation g'.
Proof. destruct g; cbn [p_inverse]; intros H Hr; try contradiction; injection H as <-; exact I. Qed.

Section Run.
  Variables (n L : N) (ps : string -> option R).

  (** the alternative [g] acts on every row as [f] *)
  Definition updates_rows (B : N) (g : citem) (f : state -> state) : Prop := forall states es w, N.of_nat (length es) = B -> array n states es ->
    runs (noise_update n L ps B g) (with_states B states w)
      (done (fun _ w' => forall k e, nth_error es k = Some e -> forall x, (x < 2 ^ n)%N -> bw_amp w' (at_row n (N.of_nat k) x) = f (e_psi e) x)).

  Definition start (states : state) (es : list entry) (b : N) : sstate :=
    SState (match nth_error es (N.to_nat b) with Some e => e_psi e | None => states end) [].
  Lemma start_match states es w : array n states es -> bmatch n (N.of_nat (length es)) (with_states (N.of_nat (length es)) states w) (start states es).
  Proof.
    intros Ha. split; [cbn; rewrite repeat_length; lia|]. intros b Hb. unfold ematch, start, with_states. cbn [bw_amp bw_regs br_regs br_size s_psi s_reg].
    destruct (nth_error es (N.to_nat b)) as [e|] eqn:E; [|apply nth_error_None in E; lia]. split; [|split].
    - intros x Hx. rewrite <- (Ha _ _ E x Hx). now rewrite N2Nat.id.
    - apply nth_error_repeat. lia.
    - reflexivity.
  Qed.
  Lemma all_done es states w (sg : N -> sgate) qs f o : (forall b, (b < N.of_nat (length es))%N -> sg b = Act qs f) ->
    all n (N.of_nat (length es)) w (start states es) (fun b => step n (sg b)) o ->
    done (fun _ w' => forall k e, nth_error es k = Some e -> forall x, (x < 2 ^ n)%N -> bw_amp w' (at_row n (N.of_nat k) x) = f (e_psi e) x) o.
  Proof.
    intros Hsg. destruct o as [[] w'|w'|]; cbn [all done]; [| |auto].
    - intros (k & use & bs' & _ & _ & _ & Hm & Hstep) j e Hj x Hx. assert (Hlt : (N.of_nat j < N.of_nat (length es))%N).
      { assert (j < length es) by (apply nth_error_Some; congruence). lia. }
      specialize (Hstep _ Hlt). rewrite (Hsg _ Hlt) in Hstep. destruct Hm as [_ Hm]. destruct (Hm _ Hlt) as (Hamp & _). rewrite (Hamp x Hx).
      inversion Hstep as [qs' f' s' E1 E2 E3 E4| | | |]. unfold start. rewrite Nat2N.id, Hj. reflexivity.
    - intros (b & us & s' & Hb & _ & Hs & _). rewrite (Hsg _ Hb) in Hs. inversion Hs.
  Qed.
  Lemma fixed_updates B t g qs f : sizes_ok n B L -> acts g (Act qs f) -> Forall (fun q => (q < n)%N) qs -> updates_rows B (IGate (CElem (t, g))) f.
  Proof.
    intros Hs Ha HF states es w HB Harr. cbn [noise_update b_cgate_update]. subst B.
    eapply runs_weaken; [apply (b_elem_runs n _ L g (Act qs f) _ (start states es) Hs Ha HF); now apply start_match|].
    intros o. apply (all_done es states _ (fun _ => Act qs f) qs f). reflexivity.
  Qed.
  Lemma keyed_updates B g key s v qs f : sizes_ok n B L -> pstands (inr g) s -> rotation g -> ps key = Some v -> s v = Act qs f ->
    Forall (fun q => (q < n)%N) (operands (s 0%R)) -> updates_rows B (IParam g key) f.
  Proof.
    intros Hs Hp Hr Hv Hf HF states es w HB Harr. cbn [noise_update]. rewrite Hv. cbn [opt_res hlift]. subst B.
    eapply runs_bind_done with (P := fun t w' => t = v /\ w' = with_states (N.of_nat (length es)) states w); [apply runs_ret; cbn [done]; auto|].
    intros t w1 Htw. destruct Htw as [Et Ew]. subst t w1.
    assert (Hat : forall b, (b < N.of_nat (length es))%N -> param_at (repeat v (N.to_nat (N.of_nat (length es)))) b = v).
    { intros b Hb. apply param_at_nth. apply nth_error_repeat. lia. }
    eapply runs_weaken; [apply (b_pgate_runs' n _ L g s (repeat v (N.to_nat (N.of_nat (length es)))) _ (start states es) Hs Hp)|].
    - destruct g; auto; contradiction.
    - exact HF.
    - rewrite repeat_length. lia.
    - now apply start_match.
    - destruct g; auto; contradiction.
    - intros b Hb us _ Hstep. rewrite (Hat b Hb), Hf in Hstep. inversion Hstep.
    - intros o. apply (all_done es states _ (fun b => s (param_at (repeat v (N.to_nat (N.of_nat (length es)))) b)) qs f).
      intros b Hb. now rewrite (Hat b Hb).
  Qed.

  Lemma nth_combine {A T} (l : list A) : forall (l' : list T) j a b, nth_error l j = Some a -> nth_error l' j = Some b -> nth_error (combine l l') j = Some (a, b).
  Proof. induction l as [|x l IH]; intros [|y l'] [|j] a b; simpl; try discriminate; [congruence|apply IH]. Qed.
  Lemma Forall2_nth {A T} (P : A -> T -> Prop) l l' : Forall2 P l l' -> forall j a, nth_error l j = Some a -> exists b, nth_error l' j = Some b /\ P a b.
  Proof. induction 1 as [|x y l l' Hxy H IH]; intros [|j] a; simpl; try discriminate; [intros [= <-]; eauto|apply IH]. Qed.
  Lemma Forall2_nth_r {A T} (P : A -> T -> Prop) l l' : Forall2 P l l' -> forall j b, nth_error l' j = Some b -> exists a, nth_error l j = Some a /\ P a b.
  Proof. induction 1 as [|x y l l' Hxy H IH]; intros [|j] a; simpl; try discriminate; [intros [= <-]; eauto|apply IH]. Qed.
  Lemma Forall2_size {A T} (P : A -> T -> Prop) l l' : Forall2 P l l' -> length l = length l'.
  Proof. induction 1; simpl; auto. Qed.

  Lemma item_choices i si sg : represents i si -> can_simulate i -> item_gate ps si = Some sg -> Forall (fun q => (q < n)%N) (item_operands si) ->
    exists probs gates, noise_choices i = Ok (probs, gates) /\ length probs = ways sg /\
      forall j, j < ways sg -> exists g f, nth_error gates j = Some g /\ way sg j = Some f /\
        forall B, sizes_ok n B L -> updates_rows B g f.
  Proof.
    intros Hr Hc Hg HF. destruct Hr as [g s Hst|g key s Hst]; cbn [item_gate item_operands] in Hg, HF.
    - injection Hg as ->. inversion Hst as [t g0 s Ha E1 E2|q bit reset g0 Hm E1 E2|t dist gs ss Hd Hl H2 E1 E2]; subst.
      + exists [1%R], [IGate (CElem (t, g0))]. destruct (acts_spec g0 sg Ha) as (qs & f & -> & _). split; [reflexivity|]. split; [reflexivity|]. intros [|j] Hj; cbn [ways] in Hj; [|lia].
        exists (IGate (CElem (t, g0))), f. split; [reflexivity|]. split; [reflexivity|]. intros B HB. apply fixed_updates with (qs := qs); auto.
      + destruct (measurement_form _ _ _ _ Hm) as (t & ->). contradiction.
      + cbn [can_simulate] in Hc. destruct Hc as [-> Hel]. exists dist, (map IGate gs). pose proof (Forall2_size _ _ _ H2) as Hss.
        split; [reflexivity|]. cbn [ways]. rewrite combine_length. split; [lia|]. intros j Hj.
        destruct (nth_error gs j) as [g|] eqn:Eg; [|apply nth_error_None in Eg; lia]. destruct (nth_error dist j) as [pr|] eqn:Ed; [|apply nth_error_None in Ed; lia].
        destruct (Forall2_nth _ _ _ H2 j g Eg) as (s & Es & Hs). rewrite Forall_forall in Hel. pose proof (Hel g (nth_error_In _ _ Eg)) as He.
        destruct g as [[t g]| |]; try contradiction. inversion Hs as [t' g' s' Ha E1 E2|q bit reset g0 Hm E1 E2|]; subst.
        2:{ destruct (measurement_form _ _ _ _ Hm) as (t0 & E). discriminate E. }
        destruct (acts_spec g s Ha) as (qs & f & -> & _). exists (IGate (CElem (t, g))), f. split; [now apply map_nth_error|]. cbn [way].
        rewrite (nth_combine _ _ _ _ _ Ed Es). split; [reflexivity|]. intros B HB. apply fixed_updates with (qs := qs); auto.
        apply Forall_forall. intros q Hq. rewrite Forall_forall in HF. apply HF. cbn [operands]. apply in_flat_map. exists (pr, Act qs f).
        split; [eapply nth_error_In; apply nth_combine; eassumption|exact Hq].
    - destruct (ps key) as [v|] eqn:Ev; [|discriminate]. injection Hg as <-.
      assert (Hrot : rotation g -> noise_choices (IParam g key) = Ok ([1%R], [IParam g key]) -> exists probs gates, noise_choices (IParam g key) = Ok (probs, gates) /\ length probs = ways (s v) /\
        forall j, j < ways (s v) -> exists g f, nth_error gates j = Some g /\ way (s v) j = Some f /\ forall B, sizes_ok n B L -> updates_rows B g f).
      { intros Hro E. exists [1%R], [IParam g key]. split; [exact E|]. assert (Ha : acts (pgate_at g v) (s v)) by (apply pacts_at; auto).
        destruct (acts_spec _ _ Ha) as (qs & f & Es & _). rewrite Es. split; [reflexivity|]. intros [|j] Hj; cbn [ways] in Hj; [|lia].
        exists (IParam g key), f. split; [reflexivity|]. split; [reflexivity|]. intros B HB. apply keyed_updates with (s := s) (v := v) (qs := qs); auto. }
      destruct g as [t k b c|t b p c|t dist gs]; [now apply Hrot|now apply Hrot|]. clear Hrot. cbn [can_simulate] in Hc. destruct Hc as [-> Hel].
      inversion Hst as [|vf k g Hty Hm E1 E2|vf k g g' Hty Hm Hi E1 E2|t' dist' gs' ss Hd Hl H2 E1 E2]; subst.
      { apply param_rotation in Hm. contradiction. }
      { apply param_rotation in Hm. apply (inverse_rotation _ _ Hi) in Hm. contradiction. }
      exists dist, (map (fun g => match g with inl g => IGate g | inr g => IParam g key end) gs). pose proof (Forall2_size _ _ _ H2) as Hss.
      split; [reflexivity|]. cbn [ways]. rewrite combine_length, map_length. split; [lia|]. intros j Hj.
      destruct (nth_error gs j) as [g|] eqn:Eg; [|apply nth_error_None in Eg; lia]. destruct (nth_error dist j) as [pr|] eqn:Ed; [|apply nth_error_None in Ed; lia].
      destruct (Forall2_nth _ _ _ H2 j g Eg) as (s & Es & Hs). rewrite Forall_forall in Hel. pose proof (Hel g (nth_error_In _ _ Eg)) as He.
      assert (HFj : Forall (fun q => (q < n)%N) (operands (s 0%R))).
      { apply Forall_forall. intros q Hq. rewrite Forall_forall in HF. apply HF. cbn [operands]. apply in_flat_map. exists (pr, s 0%R).
        split; [|exact Hq]. eapply nth_error_In. apply nth_combine; [exact Ed|]. now apply (map_nth_error (fun s => s 0%R)). }
      assert (Es' : nth_error (map (fun s => s v) ss) j = Some (s v)) by now apply (map_nth_error (fun s => s v)).
      destruct g as [g|g].
      + inversion Hs as [g0 s0 Hs0 E1 E2| | |]; subst. destruct g as [[t g]| |]; try contradiction. inversion Hs0 as [t' g' s' Ha E1 E2|q bit reset g0 Hm E1 E2|]; subst.
        2:{ destruct (measurement_form _ _ _ _ Hm) as (t0 & E). discriminate E. }
        destruct (acts_spec g s0 Ha) as (qs & f & -> & _). exists (IGate (CElem (t, g))), f.
        split; [now apply (map_nth_error (fun g => match g with inl g => IGate g | inr g => IParam g key end) j gs Eg)|]. cbn [way].
        rewrite (nth_combine _ _ _ _ _ Ed Es'). split; [reflexivity|]. intros B HB. apply fixed_updates with (qs := qs); auto.
      + assert (Ha : acts (pgate_at g v) (s v)) by (apply pacts_at; auto). destruct (acts_spec _ _ Ha) as (qs & f & Esv & _).
        exists (IParam g key), f. split; [now apply (map_nth_error (fun g => match g with inl g => IGate g | inr g => IParam g key end) j gs Eg)|]. cbn [way].
        rewrite (nth_combine _ _ _ _ _ Ed Es'), Esv. split; [reflexivity|]. intros B HB. apply keyed_updates with (s := s) (v := v) (qs := qs); auto.
  Qed.
End Run.
