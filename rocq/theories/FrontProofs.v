(** Calls of update_quantum_state. *)
From Coq Require Import FunctionalExtensionality.
From Verif Require Import FrontSpec.
Open Scope N_scope.
Open Scope host_scope.

(** ** Dictionaries and keywords *)
Lemma find_entry {T} (l : list (string * T)) k v : NoDup (map fst l) -> (table l k = Some v <-> In (k, v) l).
Proof.
  unfold table. induction l as [|[k' v'] l IH]; intros H; [split; [discriminate|intros []]|].
  inversion H as [|? ? Hn Hd]; subst. cbn [find fst snd]. destruct (String.eqb_spec k' k) as [<-|E].
  - split; [injection 1 as ->; now left|]. intros [F|F]; [now injection F as ->|]. exfalso. apply Hn. change k' with (fst (k', v)). now apply in_map.
  - rewrite (IH Hd). cbn [In]. split; [now right|]. intros [F|F]; [injection F as F _; congruence|assumption].
Qed.
Lemma entries_table {T} (l : list (string * T)) m : has_entries l m -> table l = m.
Proof.
  intros [Hd Hm]. apply functional_extensionality. intros k. destruct (table l k) as [v|] eqn:E.
  - apply find_entry in E; [|assumption]. apply Hm in E. now rewrite E.
  - destruct (m k) as [v|] eqn:F; [|reflexivity]. apply Hm in F. apply (find_entry l k v Hd) in F. congruence.
Qed.
Lemma add_all {T} (cast : pyval -> res T) (inj : T -> pyval) : (forall v, cast (inj v) = Ok v) ->
  forall l m, exists m', add_keywords cast false (map (fun e => (fst e, inj (snd e))) l) m = Ok m' /\
    (NoDup (map fst l) -> forall k, m' k = match table l k with Some v => Some v | None => m k end).
Proof.
  intros Hc. induction l as [|[k v] l IH]; intros m.
  - exists m. split; reflexivity.
  - cbn [map fst snd add_keywords]. rewrite Hc. destruct (IH (put k v m)) as (m' & E & H). exists m'. split; [exact E|].
    intros Hd k'. inversion Hd as [|? ? Hn Hd']; subst. rewrite (H Hd'). unfold table at 2. cbn [find fst snd].
    destruct (String.eqb_spec k k') as [<-|F].
    + destruct (table l k) as [v'|] eqn:G; [|unfold put; now rewrite String.eqb_refl].
      apply find_entry in G; [|assumption]. exfalso. apply Hn. change k with (fst (k, v')). now apply in_map.
    + fold (table l k'). destruct (table l k'); [reflexivity|]. unfold put. destruct (String.eqb_spec k' k); congruence.
Qed.
Lemma keywords_table {T} (cast : pyval -> res T) (inj : T -> pyval) l m : (forall v, cast (inj v) = Ok v) -> has_entries l m ->
  add_keywords cast false (map (fun e => (fst e, inj (snd e))) l) (fun _ => None) = Ok m.
Proof.
  intros Hc Hm. destruct (add_all cast inj Hc l (fun _ => None)) as (m' & -> & H). f_equal. rewrite <- (entries_table l m Hm).
  apply functional_extensionality. intros k. rewrite (H (proj1 Hm)). now destruct (table l k).
Qed.

(** ** Relations between programs *)
Lemma same_refl {W T} (p : host W T) : same_calls p p.
Proof. intros w o. reflexivity. Qed.
Lemma same_trans {W T} (p q r : host W T) : same_calls p q -> same_calls q r -> same_calls p r.
Proof. intros H1 H2 w o. now rewrite (H1 w o). Qed.
Lemma same_sym {W T} (p q : host W T) : same_calls p q -> same_calls q p.
Proof. intros H w o. symmetry. apply H. Qed.
Lemma lift_same {W T U} (x : res T) v (k : T -> host W U) : x = Ok v -> same_calls (hbind (hlift x) k) (k v).
Proof. intros -> w o. split; [intros (o1 & -> & H); exact H|intros H; eexists; split; [reflexivity|exact H]]. Qed.
Lemma lift_rejects {W T} (x : res T) (k : T -> host W unit) : x = Throw -> rejected (hbind (hlift x) k).
Proof. intros -> w. split; [intros o (o1 & -> & H); exact H|eexists; eexists; split; reflexivity]. Qed.
Lemma throw_rejects {W} : rejected (hthrow (W := W)).
Proof. intros w. now apply runs_throw. Qed.
Lemma same_rejects {W} (p q : host W unit) : same_calls p q -> rejected q -> rejected p.
Proof.
  intros H Hq w. destruct (Hq w) as [H1 [o H2]]. split; [intros o' Ho; apply H1; now apply H|]. exists o. now apply H.
Qed.
Lemma lift_throws_or {W T} (x : res T) (k : T -> host W unit) : x <> UB -> (forall v, rejected (k v)) -> rejected (hbind (hlift x) k).
Proof.
  intros Hx Hk. destruct x as [v| |]; [|now apply lift_rejects|congruence].
  eapply same_rejects; [now apply lift_same|apply Hk].
Qed.

Lemma alike_refl {W} (alike : W -> W -> Prop) o : (forall w, alike w w) -> ends_alike alike o o.
Proof. intros H. destruct o; cbn; auto. Qed.
Lemma rep_throw {W} (alike : W -> W -> Prop) : repeatable alike hthrow.
Proof. intros w w' o H ->. eexists. split; [reflexivity|exact H]. Qed.
Lemma rep_modify {W} (alike : W -> W -> Prop) f p : (forall w w', alike w w' -> alike (f w) (f w')) -> repeatable alike p ->
  repeatable alike (hmodify f;~ p).
Proof.
  intros Hf Hp w w' o H (o1 & -> & Ho). destruct (Hp _ _ _ (Hf _ _ H) Ho) as (o' & H1 & H2). exists o'. split; [|exact H2].
  eexists. split; [reflexivity|exact H1].
Qed.
Lemma rep_lift {W T} (alike : W -> W -> Prop) (x : res T) k : (forall v, repeatable alike (k v)) -> repeatable alike (hbind (hlift x) k).
Proof.
  intros Hk w w' o H (o1 & H1 & Ho). destruct x as [v| |]; cbn [hlift] in H1; red in H1; subst o1.
  - destruct (Hk v _ _ _ H Ho) as (o' & H1 & H2). exists o'. split; [|exact H2]. eexists. split; [reflexivity|exact H1].
  - subst o. exists (HThrown w'). split; [|exact H]. eexists. split; reflexivity.
  - subst o. exists HUndefined. split; [|exact I]. eexists. split; reflexivity.
Qed.
Lemma rep_check {W} (alike : W -> W -> Prop) b p : repeatable alike p -> repeatable alike (hcheck b;~ p).
Proof.
  intros Hp w w' o H (o1 & H1 & Ho). destruct b; unfold hcheck in H1; red in H1; subst o1.
  - destruct (Hp _ _ _ H Ho) as (o' & H1 & H2). exists o'. split; [|exact H2]. eexists. split; [reflexivity|exact H1].
  - subst o. exists (HThrown w'). split; [|exact H]. eexists. split; reflexivity.
Qed.
Lemma rep_get_regs k : (forall v, repeatable b_same_but_random (k v)) -> repeatable b_same_but_random (hbind (hget bw_regs) k).
Proof.
  intros Hk w w' o H (o1 & -> & Ho). destruct (Hk _ _ _ _ H Ho) as (o' & H1 & H2). exists o'. split; [|exact H2].
  eexists. split; [reflexivity|]. destruct H as [_ <-]. exact H1.
Qed.

Section Calls.
  Variables (engine : N -> nat -> R) (n B L : N).

  Lemma rep_seeded seed p : repeatable same_but_random (seeded engine seed p).
  Proof.
    intros w w' o (H1 & H2 & H3) (s & Hs & Ho). exists o. split; [|apply alike_refl; repeat split].
    exists s. split; [exact Hs|]. unfold with_rand in *. now rewrite <- H1, <- H2, <- H3.
  Qed.
  Lemma rep_b_seeded seed p : repeatable b_same_but_random (b_seeded engine seed p).
  Proof.
    intros w w' o (H1 & H2) (s & Hs & Ho). exists o. split; [|apply alike_refl; repeat split].
    exists s. split; [exact Hs|]. unfold bwith_rand in *. now rewrite <- H1, <- H2.
  Qed.
  Lemma keep_reg r w w' : same_but_random w w' -> same_but_random (set_reg r w) (set_reg r w').
  Proof. intros (H1 & H2 & H3). repeat split; assumption. Qed.
  Lemma keep_regs r w w' : b_same_but_random w w' -> b_same_but_random (bwith_regs r w) (bwith_regs r w').
  Proof. intros (H1 & H2). split; [assumption|reflexivity]. Qed.

  Lemma some_seeded p : some_seed (fun s => seeded engine s p).
  Proof. intros w o (s & _ & H). exists s, s. split; [reflexivity|exact H]. Qed.
  Lemma some_b_seeded p : some_seed (fun s => b_seeded engine s p).
  Proof. intros w o (s & _ & H). exists s, s. split; [reflexivity|exact H]. Qed.
  Lemma some_after {W T} (q : host W T) (call : T -> option N -> host W unit) :
    (forall v, some_seed (call v)) -> some_seed (fun s => hbind q (fun v => call v s)).
  Proof.
    intros H w o (o1 & H1 & Ho). destruct o1 as [v w1|w1|].
    - destruct (H v w1 o Ho) as [s Hs]. exists s. eexists. split; [exact H1|exact Hs].
    - exists 0. eexists. split; [exact H1|exact Ho].
    - exists 0. eexists. split; [exact H1|exact Ho].
  Qed.
  Lemma some_fixed {W} (p : host W unit) : some_seed (fun _ => p).
  Proof. intros w o H. exists 0. exact H. Qed.

  (** ** Parameters of circuits *)
  Lemma circuit_parameters c reg seed l ps : has_entries l ps ->
    same_calls (py_circuit engine n L c reg NoDict seed (numbers l)) (py_circuit engine n L c reg (SingleDict l) seed []) /\
    (reg = NoRegister -> same_calls (py_circuit engine n L c reg (SingleDict l) seed []) (circuit_call_default engine n L ps c seed)) /\
    (reg = OneRegister -> same_calls (py_circuit engine n L c reg (SingleDict l) seed []) (circuit_call engine n L ps c seed)).
  Proof.
    intros Hl. assert (K : same_calls (py_circuit engine n L c reg NoDict seed (numbers l))
      (match reg with NoRegister => circuit_call_default engine n L ps c seed | OneRegister => circuit_call engine n L ps c seed | BatchRegister => hthrow end)).
    { unfold py_circuit. eapply same_trans; [apply lift_same; reflexivity|]. cbv beta.
      eapply same_trans; [apply lift_same; apply (keywords_table cast_number PyNumber l ps); [reflexivity|exact Hl]|]. apply same_refl. }
    assert (D : same_calls (py_circuit engine n L c reg (SingleDict l) seed [])
      (match reg with NoRegister => circuit_call_default engine n L ps c seed | OneRegister => circuit_call engine n L ps c seed | BatchRegister => hthrow end)).
    { unfold py_circuit. eapply same_trans; [apply lift_same; reflexivity|]. cbv beta. rewrite (entries_table l ps Hl).
      eapply same_trans; [apply lift_same; reflexivity|]. apply same_refl. }
    split; [eapply same_trans; [exact K|apply same_sym; exact D]|]. split; intros ->; exact D.
  Qed.
  Lemma b_circuit_parameters c reg seed l ps : has_entries l ps ->
    same_calls (py_b_circuit engine n B L c reg NoDict seed (sequences l)) (py_b_circuit engine n B L c reg (BatchedDict l) seed []) /\
    (reg = NoRegister -> same_calls (py_b_circuit engine n B L c reg (BatchedDict l) seed []) (b_circuit_call_default engine n B L ps c seed)) /\
    (reg = BatchRegister -> same_calls (py_b_circuit engine n B L c reg (BatchedDict l) seed []) (b_circuit_call engine n B L ps c seed)).
  Proof.
    intros Hl. assert (K : same_calls (py_b_circuit engine n B L c reg NoDict seed (sequences l))
      (match reg with NoRegister => b_circuit_call_default engine n B L ps c seed | OneRegister => hthrow | BatchRegister => b_circuit_call engine n B L ps c seed end)).
    { unfold py_b_circuit. eapply same_trans; [apply lift_same; reflexivity|]. cbv beta.
      eapply same_trans; [apply lift_same; apply (keywords_table cast_sequence PySequence l ps); [reflexivity|exact Hl]|]. apply same_refl. }
    assert (D : same_calls (py_b_circuit engine n B L c reg (BatchedDict l) seed [])
      (match reg with NoRegister => b_circuit_call_default engine n B L ps c seed | OneRegister => hthrow | BatchRegister => b_circuit_call engine n B L ps c seed end)).
    { unfold py_b_circuit. eapply same_trans; [apply lift_same; reflexivity|]. cbv beta. rewrite (entries_table l ps Hl).
      eapply same_trans; [apply lift_same; reflexivity|]. apply same_refl. }
    split; [eapply same_trans; [exact K|apply same_sym; exact D]|]. split; intros ->; exact D.
  Qed.
  (** an empty dict of either kind *)
  Lemma circuit_no_parameters c reg seed :
    same_calls (py_circuit engine n L c reg (BatchedDict []) seed []) (py_circuit engine n L c reg NoDict seed []) /\
    same_calls (py_b_circuit engine n B L c reg (SingleDict []) seed []) (py_b_circuit engine n B L c reg NoDict seed []).
  Proof. split; apply same_refl. Qed.

  Lemma add_not_ub {T} (cast : pyval -> res T) given kw m : (forall v, cast v <> UB) -> add_keywords cast given kw m <> UB.
  Proof.
    intros Hc. revert m. induction kw as [|[k v] kw IH]; intros m; [discriminate|]. cbn [add_keywords]. destruct given; [discriminate|].
    specialize (Hc v). destruct (cast v) as [x| |]; [apply IH|discriminate|congruence].
  Qed.
  Lemma add_throws {T} (cast : pyval -> res T) given kw m k v : (forall v, cast v <> UB) -> In (k, v) kw -> (given = true \/ cast v = Throw) ->
    add_keywords cast given kw m = Throw.
  Proof.
    intros Hc. revert m. induction kw as [|[k' v'] kw IH]; intros m Hin Hv; [destruct Hin|]. cbn [add_keywords]. destruct given; [reflexivity|].
    destruct Hv as [Hv|Hv]; [discriminate|]. specialize (Hc v'). destruct (cast v') as [x| |] eqn:E; [|reflexivity|congruence].
    destruct Hin as [F|Hin]; [injection F as -> ->; cbn in E; congruence|]. apply IH; [assumption|now right].
  Qed.
  Lemma number_not_ub v : cast_number v <> UB.
  Proof. now destruct v. Qed.
  Lemma sequence_not_ub v : cast_sequence v <> UB.
  Proof. now destruct v. Qed.

  Lemma circuit_rejects c reg d seed kw :
    (d <> NoDict /\ kw <> []) \/ (exists e l, d = BatchedDict (e :: l)) \/ reg = BatchRegister \/
    (exists k v, In (k, v) kw /\ forall x, v <> PyNumber x) ->
    rejected (py_circuit engine n L c reg d seed kw).
  Proof.
    intros H. unfold py_circuit. destruct H as [H|[(e & l & ->)|H]]; [|now apply lift_rejects|];
      (apply lift_throws_or; [destruct d as [|[|]|]; discriminate|]; intros ps0).
    - destruct H as [Hd Hk]. apply lift_rejects. destruct kw as [|[k v] kw]; [congruence|].
      apply (add_throws _ _ _ _ k v); [apply number_not_ub|now left|]. left. destruct d; [congruence|reflexivity|reflexivity].
    - destruct H as [->|(k & v & Hin & Hv)].
      + apply lift_throws_or; [apply add_not_ub; apply number_not_ub|]. intros ps. apply throw_rejects.
      + apply lift_rejects. apply (add_throws _ _ _ _ k v); [apply number_not_ub|assumption|]. right.
        destruct v as [x| |]; [now specialize (Hv x)|reflexivity|reflexivity].
  Qed.
  Lemma b_circuit_rejects c reg d seed kw :
    (d <> NoDict /\ kw <> []) \/ (exists e l, d = SingleDict (e :: l)) \/ reg = OneRegister \/
    (exists k v, In (k, v) kw /\ forall x, v <> PySequence x) ->
    rejected (py_b_circuit engine n B L c reg d seed kw).
  Proof.
    intros H. unfold py_b_circuit. destruct H as [H|[(e & l & ->)|H]]; [|now apply lift_rejects|];
      (apply lift_throws_or; [destruct d as [| |[|]]; discriminate|]; intros ps0).
    - destruct H as [Hd Hk]. apply lift_rejects. destruct kw as [|[k v] kw]; [congruence|].
      apply (add_throws _ _ _ _ k v); [apply sequence_not_ub|now left|]. left. destruct d; [congruence|reflexivity|reflexivity].
    - destruct H as [->|(k & v & Hin & Hv)].
      + apply lift_throws_or; [apply add_not_ub; apply sequence_not_ub|]. intros ps. apply throw_rejects.
      + apply lift_rejects. apply (add_throws _ _ _ _ k v); [apply sequence_not_ub|assumption|]. right.
        destruct v as [|x|]; [reflexivity|now specialize (Hv x)|reflexivity].
  Qed.

  (** ** Seeds *)
  Lemma circuit_repeatable c reg d seed kw : repeatable same_but_random (py_circuit engine n L c reg d seed kw).
  Proof.
    unfold py_circuit. apply rep_lift. intros ps0. apply rep_lift. intros ps. destruct reg; [apply rep_seeded|apply rep_seeded|apply rep_throw].
  Qed.
  Lemma b_circuit_repeatable c reg d seed kw : repeatable b_same_but_random (py_b_circuit engine n B L c reg d seed kw).
  Proof.
    unfold py_b_circuit. apply rep_lift. intros ps0. apply rep_lift. intros ps. destruct reg; [|apply rep_throw|apply rep_b_seeded].
    unfold b_circuit_call_default. destruct (has_classical_instructions c); [apply rep_throw|].
    apply rep_modify; [intros; now apply keep_regs|apply rep_b_seeded].
  Qed.
  Lemma gate_repeatable g reg seed : repeatable same_but_random (py_gate engine n L g reg seed).
  Proof.
    destruct reg; cbn [py_gate]; [|apply rep_seeded|apply rep_throw].
    destruct seed; (apply rep_modify; [intros; now apply keep_reg|apply rep_seeded]).
  Qed.
  Lemma b_gate_repeatable g reg seed : repeatable b_same_but_random (py_b_gate engine n B L g reg seed).
  Proof.
    assert (K : forall s, repeatable b_same_but_random (b_gate_call engine n B L g s)).
    { intros s. apply rep_get_regs. intros v. apply rep_check. apply rep_b_seeded. }
    destruct reg; cbn [py_b_gate]; [|apply rep_throw|apply K].
    destruct seed; (apply rep_modify; [intros; now apply keep_regs|]); [apply K|apply rep_b_seeded].
  Qed.
  Lemma pgate_repeatable g v reg seed : repeatable same_but_random (py_pgate engine n L g v reg seed).
  Proof.
    destruct v; cbn [py_pgate]; [apply rep_throw| |apply rep_throw]. destruct reg; [|apply rep_seeded|apply rep_throw].
    destruct seed; (apply rep_modify; [intros; now apply keep_reg|apply rep_seeded]).
  Qed.
  Lemma b_pgate_repeatable g v reg seed : repeatable b_same_but_random (py_b_pgate engine n B L g v reg seed).
  Proof.
    assert (K : forall vs s, repeatable b_same_but_random (b_pgate_call engine n B L g vs s)).
    { intros vs s. apply rep_get_regs. intros r. apply rep_check. apply rep_check. apply rep_b_seeded. }
    destruct v; cbn [py_b_pgate]; [apply rep_throw|apply rep_throw|]. destruct reg; [|apply rep_throw|apply K].
    destruct seed; (apply rep_modify; [intros; now apply keep_regs|]); [apply K|apply rep_b_seeded].
  Qed.

  Lemma circuit_some c reg d kw : some_seed (fun s => py_circuit engine n L c reg d s kw).
  Proof.
    apply (some_after _ (fun ps0 s => _)). intros ps0. apply (some_after _ (fun ps s => _)). intros ps.
    destruct reg; [apply some_seeded|apply some_seeded|apply some_fixed].
  Qed.
  Lemma b_circuit_some c reg d kw : some_seed (fun s => py_b_circuit engine n B L c reg d s kw).
  Proof.
    apply (some_after _ (fun ps0 s => _)). intros ps0. apply (some_after _ (fun ps s => _)). intros ps.
    destruct reg; [|apply some_fixed|apply some_b_seeded]. unfold b_circuit_call_default. destruct (has_classical_instructions c); [apply some_fixed|].
    apply (some_after _ (fun _ s => _)). intros _. apply some_b_seeded.
  Qed.
  Lemma gate_some g reg : some_seed (py_gate engine n L g reg).
  Proof.
    destruct reg; [|apply some_seeded|apply some_fixed]. intros w o H. cbn [py_gate] in *.
    apply (some_after (hmodify (set_reg [])) (fun _ s => gate_call engine n L g s)); [intros _; apply some_seeded|exact H].
  Qed.
  Lemma registers_fit w : N.of_nat (length (br_regs (bw_regs (bwith_regs (breg_new 0 B) w)))) =? B = true.
  Proof. cbn. rewrite repeat_length, N2Nat.id. apply N.eqb_refl. Qed.
  Lemma b_gate_some g reg : some_seed (py_b_gate engine n B L g reg).
  Proof.
    assert (K : some_seed (b_gate_call engine n B L g)).
    { apply (some_after _ (fun v s => _)). intros v. apply (some_after _ (fun _ s => _)). intros _. apply some_b_seeded. }
    destruct reg; [|apply some_fixed|apply K]. intros w o (o1 & -> & H). apply some_b_seeded in H. destruct H as [s H].
    exists s. eexists. split; [reflexivity|]. cbv beta iota. unfold b_gate_call. eexists. split; [reflexivity|]. cbv beta iota.
    rewrite registers_fit. eexists. split; [reflexivity|exact H].
  Qed.
  Lemma pgate_some g v reg : some_seed (py_pgate engine n L g v reg).
  Proof.
    destruct v; [apply some_fixed| |apply some_fixed]. destruct reg; [|apply some_seeded|apply some_fixed]. intros w o H. cbn [py_pgate] in *.
    apply (some_after (hmodify (set_reg [])) (fun _ s => pgate_call engine n L g v s)); [intros _; apply some_seeded|exact H].
  Qed.
  Lemma b_pgate_some g v reg : (reg = NoRegister -> forall vs, v = Values vs -> N.of_nat (length vs) = B) ->
    some_seed (py_b_pgate engine n B L g v reg).
  Proof.
    intros Hv. destruct v as [| |vs]; [apply some_fixed|apply some_fixed|].
    destruct reg; [|apply some_fixed|].
    - intros w o (o1 & -> & H). apply some_b_seeded in H. destruct H as [s H].
      exists s. eexists. split; [reflexivity|]. cbv beta iota. unfold b_pgate_call. eexists. split; [reflexivity|]. cbv beta iota.
      rewrite registers_fit. eexists. split; [reflexivity|]. cbv beta iota. rewrite (Hv eq_refl vs eq_refl), N.eqb_refl. eexists. split; [reflexivity|exact H].
    - apply (some_after _ (fun r s => _)). intros r. apply (some_after _ (fun _ s => _)). intros _.
      apply (some_after _ (fun _ s => _)). intros _. apply some_b_seeded.
  Qed.

  (** ** Arguments of gates *)
  Lemma gate_rejects g seed : rejected (py_gate engine n L g BatchRegister seed) /\ rejected (py_b_gate engine n B L g OneRegister seed).
  Proof. split; apply throw_rejects. Qed.
  Lemma pgate_rejects g v reg seed : ((forall x, v <> OneValue x) \/ reg = BatchRegister) -> rejected (py_pgate engine n L g v reg seed).
  Proof. destruct v as [|x|]; [intros _; apply throw_rejects| |intros _; apply throw_rejects]. intros [H| ->]; [now specialize (H x)|apply throw_rejects]. Qed.
  Lemma b_pgate_rejects g v reg seed : ((forall x, v <> Values x) \/ reg = OneRegister) -> rejected (py_b_pgate engine n B L g v reg seed).
  Proof. destruct v as [| |x]; [intros _; apply throw_rejects|intros _; apply throw_rejects|]. intros [H| ->]; [now specialize (H x)|apply throw_rejects]. Qed.
  Lemma b_pgate_call_rejects g vs seed : N.of_nat (length vs) <> B -> rejected (b_pgate_call engine n B L g vs seed).
  Proof.
    intros H w. apply N.eqb_neq in H. unfold b_pgate_call. rewrite H. split.
    - intros o (o1 & -> & o2 & H2 & Ho). destruct (N.of_nat (length (br_regs (bw_regs w))) =? B); unfold hcheck in H2; red in H2; subst o2; [|exact Ho].
      destruct Ho as (o3 & -> & Ho). exact Ho.
    - exists (HThrown w). eexists. split; [reflexivity|]. cbv beta iota. destruct (N.of_nat (length (br_regs (bw_regs w))) =? B).
      + eexists. split; [reflexivity|]. cbv beta iota. eexists. split; reflexivity.
      + eexists. split; reflexivity.
  Qed.
  (** what happens to a list of the wrong length *)
  Lemma b_pgate_short known k b pcoef vs : within_bounds n b = true -> N.of_nat (length vs) < B ->
    breaks (py_b_pgate engine n B L (PRot known k b pcoef) (Values vs) NoRegister None).
  Proof.
    intros Hb Hv w. cbn [py_b_pgate]. unfold b_pgate_call_default. cbn [b_pgate_update]. unfold params_fit. rewrite Hb.
    apply N.leb_gt in Hv. rewrite Hv. split.
    - intros o (o1 & -> & s & _ & o2 & -> & o3 & -> & Ho). exact Ho.
    - eexists. eexists. split; [reflexivity|]. cbv beta iota. exists 0. split; [reflexivity|]. eexists. split; [reflexivity|]. cbv beta iota. eexists. split; reflexivity.
  Qed.
  Lemma b_pgate_length g vs s : N.of_nat (length vs) <> B -> 
    forall w, runs (py_b_pgate engine n B L g (Values vs) NoRegister (Some s)) w (fun o => exists w', o = HThrown w' /\ bw_amp w' = bw_amp w) /\
    runs (py_b_pgate engine n B L g (Values vs) BatchRegister (Some s)) w (fun o => o = HThrown w).
  Proof.
    intros H w. split; [|now apply b_pgate_call_rejects]. cbn [py_b_pgate]. destruct (b_pgate_call_rejects g vs (Some s) H (bwith_regs (breg_new 0 B) w)) as [H1 [o H2]].
    split; [|exists o; eexists; split; [reflexivity|exact H2]]. intros o' (o1 & -> & Ho). apply H1 in Ho. subst o'. eexists. split; reflexivity.
  Qed.
End Calls.
