(** Averages of observables, of the register's content and of the state; the average is unique. *)
From Verif Require Export ChannelProofs3.
From Coq Require Import ZifyBool ZifyN ZifyNat Lra FunctionalExtensionality.

(** ** Sums and multiples *)
Lemma run_gives_both n (h : host world unit) psi r0 f g us v v' (H : C -> C -> C) : run_gives n h psi r0 f us v -> run_gives n h psi r0 g us v' -> run_gives n h psi r0 (fun w => H (f w) (g w)) us (H v v').
Proof.
  intros H1 H2 w Ha Hr Hu Hst. destruct (H1 w Ha Hr Hu Hst) as [G1 E1], (H2 w Ha Hr Hu Hst) as [G2 _]. split; [|exact E1].
  intros o Ho. specialize (G1 o Ho). specialize (G2 o Ho). destruct o; cbn [done] in *; auto. now rewrite G1, G2.
Qed.
Lemma run_gives_one n h psi r0 f us v (H : C -> C) : run_gives n h psi r0 f us v -> run_gives n h psi r0 (fun w => H (f w)) us (H v).
Proof. intros H1. exact (run_gives_both n h psi r0 f f us v v (fun a _ => H a) H1 H1). Qed.
Lemma average_sum {T} n h psi r0 k (f : T -> world -> C) v : forall X x0, In x0 X -> (forall x, In x X -> averaged k (run_gives n h psi r0 (f x)) (v x)) ->
  averaged k (run_gives n h psi r0 (fun w => Csuml (fun x => f x w) X)) (Csuml v X).
Proof.
  induction X as [|x X IH]; intros x0 H0 H; [destruct H0|]. destruct X as [|y X].
  - replace (Csuml v [x]) with (C1 * v x)%C by (unfold Csuml; simpl; ring). eapply averaged_times; [|apply H; now left].
    intros us a _ _ Ha. replace (fun w => Csuml (fun x => f x w) [x]) with (fun w => C1 * f x w)%C by (apply functional_extensionality; intros w; unfold Csuml; simpl; ring).
    now apply (run_gives_one n h psi r0 (f x) us a (fun z => C1 * z)%C).
  - change (Csuml v (x :: y :: X)) with (v x + Csuml v (y :: X))%C. eapply averaged_add; [|apply H; now left|apply (IH y); [now left|intros z Hz; apply H; now right]].
    intros us a b _ _ Ha Hb. exact (run_gives_both n h psi r0 _ _ us a b Cadd Ha Hb).
Qed.
Lemma average_times n h psi r0 k f z v : averaged k (run_gives n h psi r0 f) v -> averaged k (run_gives n h psi r0 (fun w => z * f w)%C) (z * v)%C.
Proof. intros H. eapply averaged_times; [|exact H]. intros us a _ _ Ha. exact (run_gives_one n h psi r0 f us a (fun x => z * x)%C Ha). Qed.
Lemma average_same n (h : host world unit) psi r0 k f g v : (forall us w' w, length us = k -> (forall x, x < 2 ^ n -> w_amp w x = psi x) -> w_reg w = r0 -> (forall k, unit_draw (w_rand w k)) -> starts_with w us ->
    h w (HDone tt w') -> f w' = g w') ->
  averaged k (run_gives n h psi r0 f) v -> averaged k (run_gives n h psi r0 g) v.
Proof.
  intros H HA. eapply averaged_mono; [|exact HA]. intros us a Hl _ Ha w H1 H2 H3 H4. destruct (Ha w H1 H2 H3 H4) as [G E]. split; [|exact E].
  intros o Ho. pose proof (G o Ho) as Hd. destruct o as [[] w'|w'|]; cbn [done] in *; auto. now rewrite <- (H us w' w Hl H1 H2 H3 H4 Ho).
Qed.

(** ** The average is unique *)
Lemma average_unique n h psi r0 f k v v' : averaged k (run_gives n h psi r0 f) v -> averaged k (run_gives n h psi r0 f) v' -> v = v'.
Proof.
  apply averaged_unique. intros us a b Hus Ha Hb. set (w := World psi None r0 (fun i => nth i us 0%R)).
  assert (Hu : forall i, unit_draw (w_rand w i)).
  { intros i. cbn [w w_rand]. destruct (Nat.lt_ge_cases i (length us)) as [Hi|Hi]; [rewrite Forall_forall in Hus; apply Hus; now apply nth_In|rewrite nth_overflow by assumption; unfold unit_draw; lra]. }
  assert (Hst : starts_with w us).
  { unfold starts_with. cbn [w w_rand]. clear. induction us as [|u us IH]; [reflexivity|]. cbn [length seq map nth]. f_equal. rewrite <- seq_shift, map_map. exact IH. }
  destruct (Ha w (fun _ _ => eq_refl) eq_refl Hu Hst) as [Ga [o Ho]], (Hb w (fun _ _ => eq_refl) eq_refl Hu Hst) as [Gb _]. specialize (Ga o Ho). specialize (Gb o Ho).
  destruct o as [[] w'|w'|]; cbn [done] in *; try contradiction. congruence.
Qed.

(** ** Weights that add up to 1 *)
Lemma mixture_exact : forall l a, l <> [] -> (0 <= a)%R -> Forall (fun ps => 0 <= fst ps)%R l -> (a + Rsuml fst l = 1)%R ->
  mixture a l = fold_right (fun ps e => e_add (e_scale (fst ps) (snd ps)) e) e_zero l.
Proof.
  assert (Hclip : forall x, (0 <= x <= 1)%R -> clip x = x) by (intros x Hx; unfold clip; rewrite Rmin_right by lra; apply Rmax_right; lra).
  induction l as [|[p s] l IH]; intros a Hl Ha HF Hsum; [congruence|]. inversion HF as [|? ? Hp HF']; subst. cbn [fst] in Hp.
  change (Rsuml fst ((p, s) :: l)) with (p + Rsuml fst l)%R in Hsum. assert (H0 : (0 <= Rsuml fst l)%R) by (apply Rsuml_nonneg; intros x Hx; rewrite Forall_forall in HF'; auto).
  destruct l as [|y l].
  - cbn [mixture fold_right fst snd]. change (Rsuml fst (@nil (R * ensemble))) with 0%R in Hsum. rewrite Hclip by lra. replace (1 - a)%R with p by lra. apply e_ext. intros. unfold e_add, e_zero. ring.
  - rewrite mixture_cons, (IH (a + p)%R); [|discriminate|lra|assumption|lra]. cbn [fold_right fst snd]. rewrite !Hclip by lra. replace (a + p - a)%R with p by ring. reflexivity.
Qed.

  Lemma exec_normalised n w : forall l, Forall (fun gc => keeps_norm n (fst gc)) l -> forall ms us s s', Forall unit_draw us -> sqnorm n (s_psi s) = 1%R ->
    exec_list w n l ms us s (SDone s') -> sqnorm n (s_psi s') = 1%R.
  Proof.
    induction l as [|[g c] l IH]; intros HF ms us s s' Hu H H0; (inversion HF as [|? ? Hg HF']; subst); inversion H0 as [|? ? ? ? ? ? ? Hc Hr| | | |? ? ? ? us1 us2 ? s1 ? ? ? Hst Hr|? ? ? ? ? ? ? ? ? ? Hx]; subst.
    - exact H.
    - exact (IH HF' _ _ _ _ Hu H Hr).
    - apply Forall_app in Hu. destruct Hu as [Hu1 Hu2]. pose proof (step_normalised n g Hg _ _ _ Hu1 H Hst) as E. exact (IH HF' _ _ _ _ Hu2 E Hr).
    - exfalso. exact (Hx s' eq_refl).
  Qed.
  Lemma starts_unit w us : (forall k, unit_draw (w_rand w k)) -> starts_with w us -> Forall unit_draw us.
  Proof. intros Hu ->. apply Forall_forall. intros x Hx. apply in_map_iff in Hx. destruct Hx as (m & <- & _). apply Hu. Qed.
  Lemma exec_reg_length n w : forall l ms us s s', exec_list w n l ms us s (SDone s') -> length (s_reg s') = length (s_reg s).
  Proof.
    assert (Hstep : forall g us s s', step n g us s (SDone s') -> length (s_reg s') = length (s_reg s)).
    { intros g. induction g as [qs f|q b r|l IH] using sgate_ind'; intros us s s' H; inversion H as [| | | |? u g us' ? ? Hp Hst]; subst; cbn [s_reg]; auto; [now apply with_bit_length|].
      destruct Hp as (l1 & p & l2 & E & _). rewrite Forall_forall in IH. apply (IH (p, g)) with us'; auto. rewrite E. apply in_or_app. right. now left. }
    induction l as [|[g c] l IH]; intros ms us s s' H; inversion H; subst; auto.
    - eapply IH; eauto.
    - transitivity (length (s_reg s'0)); [eapply IH|eapply Hstep]; eauto.
    - exfalso. match goal with Hx : forall s0, SDone _ <> SDone s0 |- _ => eapply Hx; reflexivity end.
  Qed.
Section Circuit.
  Variables (n L : N) (ps : string -> option R) (c : circuit) (p : program) (l : list (sgate * option cond)) (psi : state) (r0 : list bool).
  Hypotheses (Hn : n < 64) (HL : lanes_ok L) (Hc : circuit_is c p) (Hk : norm_kept n ps p) (Hs : sqnorm n psi = 1%R) (Hstop : never_stops n ps p psi r0)
    (Hl : instantiate ps p = Some l).
  Let avg := averaged (draws_list l).
  Let given := run_gives n (circuit_update n L ps c) psi r0.
  Lemma zero_in : In 0 (seqN (2 ^ n)). Proof. apply in_seqN. apply pow2_pos. Qed.
  Theorem observable_average (A : matrix) r :
    avg (given (fun w => Csum (2 ^ n) (fun i => Csum (2 ^ n) (fun j => A i j * entry r j i w)))%C)
        (Csum (2 ^ n) (fun i => Csum (2 ^ n) (fun j => A i j * channels l (pure psi r0) r j i)))%C.
  Proof.
    unfold Csum. apply (average_sum n _ psi r0 _ (fun i w => Csuml (fun j => A i j * entry r j i w)%C (seqN (2 ^ n))) _ _ 0 zero_in).
    intros i Hi. apply (average_sum n _ psi r0 _ (fun j w => A i j * entry r j i w)%C _ _ 0 zero_in). intros j Hj.
    apply average_times. apply (entry_average n L ps c p l psi r0 Hn HL Hc Hk Hs Hstop Hl); now apply in_seqN.
  Qed.
  Lemma end_normalised us w w' : length us = draws_list l -> (forall x, x < 2 ^ n -> w_amp w x = psi x) -> w_reg w = r0 -> (forall k, unit_draw (w_rand w k)) -> starts_with w us ->
    circuit_update n L ps c w (HDone tt w') -> sqnorm n (w_amp w') = 1%R /\ exists us1 us2 s', us = us1 ++ us2 /\ exec_list watch_all n l [] us1 (SState psi r0) (SDone s') /\ same_state n w' s'.
  Proof.
    intros Hlen Ha Hr Hu Hst Ho. destruct (run_result n L ps c p l psi r0 Hn HL Hc Hk Hs Hstop Hl w us Hlen Ha Hr Hu Hst) as [G _]. specialize (G _ Ho). cbn [done] in G.
    split; [|exact G]. destruct G as (us1 & us2 & s' & E & Hx & Hamp & _). transitivity (sqnorm n (s_psi s')); [now apply sqnorm_ext|].
    pose proof (starts_unit w us Hu Hst) as Hun. rewrite E in Hun. apply Forall_app in Hun. destruct Hun as [Hun _].
    exact (exec_normalised n watch_all l (instantiate_kept n ps p l Hk Hl) [] us1 (SState psi r0) s' Hun Hs Hx).
  Qed.
  Theorem register_average r : avg (given (shows_register r)) (Csum (2 ^ n) (fun i => channels l (pure psi r0) r i i)).
  Proof.
    unfold avg, given. apply (average_same n _ psi r0 _ (fun w => Csum (2 ^ n) (fun i => entry r i i w))).
    - intros us w' w Hlen Ha Hr Hu Hst Ho. destruct (end_normalised us w w' Hlen Ha Hr Hu Hst Ho) as [Hnorm _]. unfold entry, shows_register.
      destruct (list_eq_dec bool_dec (w_reg w') r); [|apply Csum_zero; reflexivity]. transitivity (RtoC (sqnorm n (w_amp w'))); [|now rewrite Hnorm].
      rewrite sqnorm_norm2. unfold norm2, inner. apply Csum_ext. intros; ring.
    - unfold Csum. apply (average_sum n _ psi r0 _ (fun i w => entry r i i w) _ _ 0 zero_in). intros i Hi.
      apply (entry_average n L ps c p l psi r0 Hn HL Hc Hk Hs Hstop Hl); now apply in_seqN.
  Qed.
  Theorem state_average i j : i < 2 ^ n -> j < 2 ^ n ->
    avg (given (fun w => w_amp w i * Cconj (w_amp w j))%C) (Csuml (fun r => channels l (pure psi r0) r i j) (registers (length r0))).
  Proof.
    intros Hi Hj. unfold avg, given. apply (average_same n _ psi r0 _ (fun w => Csuml (fun r => entry r i j w) (registers (length r0)))).
    - intros us w' w Hlen Ha Hr Hu Hst Ho. destruct (end_normalised us w w' Hlen Ha Hr Hu Hst Ho) as [_ (us1 & us2 & s' & _ & Hx & _ & Hreg)].
      apply exec_reg_length in Hx. cbn [s_reg] in Hx.
      assert (Hreg' : forall m r, In r (registers m) <-> length r = m).
      { clear. induction m as [|m IH]; intros r; cbn [registers].
        - split; [intros [<-|[]]; reflexivity|]. destruct r; [now left|discriminate].
        - rewrite in_app_iff, !in_map_iff. split.
          + intros [(r' & <- & H)|(r' & <- & H)]; apply IH in H; simpl; lia.
          + destruct r as [|b r]; [discriminate|]. intros H. simpl in H. assert (In r (registers m)) by (apply IH; lia). destruct b; [right|left]; eauto. }
      assert (Hnd : forall m, NoDup (registers m)).
      { clear. induction m as [|m IH]; cbn [registers]; [constructor; [intros []|constructor]|].
        assert (Hi : forall b, NoDup (map (cons b) (registers m))) by (intros b; apply FinFun.Injective_map_NoDup; [intros x y E; congruence|assumption]).
        pose proof (Hi false) as H1. pose proof (Hi true) as H2. revert H1. assert (Hd : forall x, In x (map (cons false) (registers m)) -> ~ In x (map (cons true) (registers m))).
        { intros x Hx Hy. apply in_map_iff in Hx. destruct Hx as (a & <- & _). apply in_map_iff in Hy. destruct Hy as (b & E & _). discriminate. }
        induction (map (cons false) (registers m)) as [|x X IHX]; intros H1; [exact H2|]. inversion H1; subst. cbn [app]. constructor.
        - rewrite in_app_iff. intros [H|H]; [contradiction|]. exact (Hd x (or_introl eq_refl) H).
        - apply IHX; [intros y Hy; apply Hd; now right|assumption]. }
      rewrite (Csuml_single _ _ (w_reg w')); [|apply Hnd|apply Hreg'; congruence|].
      + unfold entry. destruct (list_eq_dec bool_dec (w_reg w') (w_reg w')); congruence.
      + intros r _ Hne. unfold entry. destruct (list_eq_dec bool_dec (w_reg w') r); congruence.
    - assert (Hin : exists r, In r (registers (length r0))) by (generalize (length r0); induction n0 as [|m [r Hr']]; cbn [registers]; [exists []; now left|exists (false :: r); apply in_or_app; left; now apply in_map]).
      destruct Hin as [r1 Hr1]. apply (average_sum n _ psi r0 _ (fun r w => entry r i j w) _ _ r1 Hr1). intros r _.
      now apply (entry_average n L ps c p l psi r0 Hn HL Hc Hk Hs Hstop Hl).
  Qed.
End Circuit.
