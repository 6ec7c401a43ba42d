(** Noise simulation: the whole run. *)
From Verif Require Import NoiseSpec NoiseProofs NoiseProofs2 NoiseProofs3 NoiseProofs4 StateProofs3 CircuitProofs4.
From Coq Require Import ZifyN ZifyNat.
Local Open Scope nat_scope.

Lemma choice_list (P : nat -> (state -> state) -> Prop) size : (forall j, j < size -> exists f, P j f) -> exists F, forall j, j < size -> P j (F j).
Proof.
  induction size as [|size IH]; intros H.
  - exists (fun _ psi => psi). intros j Hj. lia.
  - destruct IH as (F & HF); [intros j Hj; apply H; lia|]. destruct (H size ltac:(lia)) as (f & Hf).
    exists (fun j => if j =? size then f else F j). intros j Hj. destruct (Nat.eqb_spec j size) as [->|]; [exact Hf|apply HF; lia].
Qed.
Lemma pos_length es : Forall (fun e : entry => 0 < e_cnt e) es -> length es <= sum (map e_cnt es).
Proof. induction 1; simpl; lia. Qed.
Lemma sizes_less n B B' L : sizes_ok n B L -> (B' <= B)%N -> sizes_ok n B' L.
Proof. intros (H1 & H2 & H3) H. split; [exact H1|]. split; [|exact H3]. etransitivity; [|exact H2]. apply N.mul_le_mono_r. exact H. Qed.

(** what the j-th alternative of a gate does *)
Definition alt (g : sgate) (j : nat) : state -> state := match way g j with Some f => f | None => fun psi => psi end.
(** the entries after the gates, when the draws are d *)
Fixpoint entries_after (gs : list sgate) (es : list entry) (d : nat -> nat) : list entry :=
  match gs with
  | [] => es
  | g :: gs => entries_after gs (next_entries (ways g) (alt g) (pairs_of (ways g) es d)) (fun k => d (sum (map e_cnt es) + k))
  end.

Section Whole.
  Variables (n L : N) (ps : string -> option R) (psi : state) (count : nat) (draws : nat -> nat).
  Hypothesis Hsizes : sizes_ok n (N.of_nat count) L.

  Lemma gate_spec gs i si g states es d w : level gs psi count draws es -> array n states es -> (forall k, d k = draws (length gs * count + k)) ->
    represents i si -> can_simulate i -> item_gate ps si = Some g -> Forall (fun q => (q < n)%N) (item_operands si) ->
    (forall k, k < count -> d k < ways g) ->
    runs (noise_gate n L ps i states (map e_cnt es) d) w
      (done (fun r _ => exists es', level (gs ++ [g]) psi count draws es' /\ array n (fst (fst r)) es' /\ snd (fst r) = map e_cnt es' /\
                        (forall k, snd r k = draws (length (gs ++ [g]) * count + k)) /\
                        es' = next_entries (ways g) (alt g) (pairs_of (ways g) es d) /\ snd r = (fun k => d (sum (map e_cnt es) + k)))).
  Proof.
    intros Hlv Harr Hd Hr Hc Hg HF Hsmall. destruct (item_choices n L ps i si g Hr Hc Hg HF) as (probs & gates & E & Hlen & Halt).
    set (F := alt g). assert (HF' : forall j, j < ways g -> exists c, nth_error gates j = Some c /\ way g j = Some (F j) /\ forall B, sizes_ok n B L -> updates_rows n L ps B c (F j)).
    { intros j Hj. destruct (Halt j Hj) as (c & f & H1 & H2 & H3). exists c. unfold F, alt. rewrite H2. auto. }
    pose proof (lv_sum _ _ _ _ _ Hlv) as Hsum. pose proof (pos_length es (lv_pos _ _ _ _ _ Hlv)) as Hle. rewrite Hsum in Hle.
    unfold noise_gate. rewrite E. cbn [hlift].
    eapply runs_bind_done with (P := fun t _ => t = (probs, gates)); [apply runs_ret; reflexivity|]. intros x w1 ->. cbn beta iota.
    rewrite Hlen. destruct (draw_rows_spec (ways g) (map e_cnt es) 0 d) as (ns & Er & Hns); [intros k Hk; apply Hsmall; lia|].
    rewrite Er. cbn [hlift]. eapply runs_bind_done with (P := fun t _ => t = (map (counters (ways g)) (split_draws (map e_cnt es) d), ns, fun k => d (sum (map e_cnt es) + k))); [apply runs_ret; reflexivity|]. intros y w2 ->. cbn beta iota.
    eapply runs_bind_done with (P := fun _ _ => True); [split; [intros o (junk & ->); exact I|exists (HDone states w2), states; reflexivity]|].
    intros junk w3 _.
    assert (Erows : map (counters (ways g)) (split_draws (map e_cnt es) d) = map snd (pairs_of (ways g) es d)).
    { unfold pairs_of. assert (Hl : length es = length (map (counters (ways g)) (split_draws (map e_cnt es) d))) by now rewrite map_length, split_length, map_length.
      revert Hl. generalize (map (counters (ways g)) (split_draws (map e_cnt es) d)). clear. induction es as [|e es IH]; intros [|b l] Hl; simpl in *; try discriminate; auto. f_equal. apply IH. lia. }
    rewrite Erows. assert (Hlp : length (pairs_of (ways g) es d) = length es) by (rewrite <- (pairs_fst (ways g) es d) at 2; now rewrite map_length).
    pose proof (next_count (ways g) F es d ltac:(intros k Hk; apply Hsmall; lia)) as Hnc.
    eapply runs_bind_done.
    { apply (alternatives_spec n L ps states (pairs_of (ways g) es d) ns gates F (seq 0 (ways g)) junk [] w3).
      - intros k e Hk. destruct k; discriminate.
      - intros j Hj. apply in_seq in Hj. destruct (HF' j ltac:(lia)) as (c & H1 & _ & H3). exists c. split; [exact H1|]. intros w4. rewrite Hlp.
        eapply runs_weaken; [apply (H3 (N.of_nat (length es))) with (states := states) (es := es)|].
        + apply (sizes_less n (N.of_nat count)); [exact Hsizes|lia].
        + reflexivity.
        + exact Harr.
        + intros [[] w5|w5|]; cbn [done]; auto. intros H k er Hk. apply H. rewrite <- (pairs_fst (ways g) es d). now apply map_nth_error.
      - cbn [length]. change (flat_map (fun j => column j (F j) (pairs_of (ways g) es d)) (seq 0 (ways g))) with (next_entries (ways g) F (pairs_of (ways g) es d)). lia. }
    intros [new counts] w4. cbv beta zeta. cbn [fst snd app].
    change (flat_map (fun j => column j (F j) (pairs_of (ways g) es d)) (seq 0 (ways g))) with (next_entries (ways g) F (pairs_of (ways g) es d)).
    intros [-> Ha]. apply runs_ret. cbn [done fst snd]. exists (next_entries (ways g) F (pairs_of (ways g) es d)). split; [|split; [exact Ha|split; [|split; [|split; reflexivity]]]].
    - apply level_next; auto. intros j Hj. destruct (HF' j Hj) as (c & _ & H2 & _). exact H2.
    - rewrite map_length, Hnc. simpl in Hns. rewrite Hns. now rewrite Nat.sub_diag, app_nil_r.
    - intros k. rewrite Hsum, Hd, app_length. simpl. f_equal. lia.
  Qed.
  Lemma gates_spec is sis : Forall2 represents is sis -> Forall can_simulate is -> forall gs gs2 states es d w, level gs psi count draws es -> array n states es ->
    (forall k, d k = draws (length gs * count + k)) -> Forall2 (fun si g => item_gate ps si = Some g) sis gs2 ->
    Forall (fun si => Forall (fun q => (q < n)%N) (item_operands si)) sis -> draws_fit (gs ++ gs2) count draws ->
    runs (noise_gates n L ps is states (map e_cnt es) d) w
      (done (fun r _ => exists es', level (gs ++ gs2) psi count draws es' /\ array n (fst r) es' /\ snd r = map e_cnt es' /\ es' = entries_after gs2 es d)).
  Proof.
    induction 1 as [|i si is sis Hr H IH]; intros Hcs gs gs2 states es d w Hlv Harr Hd H2 HF Hfit; inversion H2 as [|si' g sis' gs2' Hg H2']; subst; cbn [noise_gates].
    - apply runs_ret. cbn [done fst snd]. exists es. rewrite app_nil_r. refine (conj Hlv (conj Harr (conj eq_refl eq_refl))).
    - inversion Hcs as [|i' is' Hc Hcs']; subst. inversion HF as [|si' sis' HF1 HF2]; subst.
      eapply runs_bind_done; [apply (gate_spec gs i si g states es d w); auto|].
      + intros k Hk. rewrite Hd. apply (Hfit (length gs) g k); [|exact Hk]. rewrite nth_error_app2, Nat.sub_diag by lia. reflexivity.
      + intros [[states1 counts1] d1] w1. cbv beta. cbn [fst snd]. intros (es1 & Hl1 & Ha1 & -> & Hd1 & Ees & Ed).
        replace (gs ++ g :: gs2') with ((gs ++ [g]) ++ gs2') by now rewrite <- app_assoc. cbn [entries_after]. rewrite <- Ees, <- Ed. apply IH; auto. now rewrite <- app_assoc.
  Qed.
End Whole.

Lemma instantiate_gates ps p l : instantiate ps p = Some l -> Forall2 (fun si g => item_gate ps si = Some g) (map fst p) (map fst l).
Proof.
  revert l. induction p as [|[i c] p IH]; intros l H; cbn [instantiate map fst] in *.
  - injection H as <-. constructor.
  - destruct (item_gate ps i) as [g|] eqn:E; [|discriminate]. destruct (instantiate ps p) as [l'|]; [|discriminate]. injection H as <-. constructor; auto.
Qed.

Theorem noise_spec n L ps c p gs psi count draws w : sizes_ok n (N.of_nat count) L -> 0 < count -> circuit_is c p -> Forall can_simulate (c_gates c) ->
  Forall (fun q => (q < n)%N) (program_operands p) -> instantiate ps p = Some gs -> draws_fit (map fst gs) count draws ->
  runs (simulate_noise n L ps c psi count draws) w
    (done (fun result _ => exists samples paths, noise_result n (map fst gs) psi count draws samples paths result)).
Proof.
  intros Hs Hcount Hc Hcan HF Hi Hfit. unfold simulate_noise. rewrite (required_spec c p n Hc).
  replace (existsb (fun q => (n <=? q)%N) (program_operands p)) with false.
  2:{ symmetry. apply not_true_is_false. intros E. apply existsb_exists in E. destruct E as (q & Hq & Hlt). rewrite Forall_forall in HF. specialize (HF q Hq). lia. }
  cbn [negb hcheck]. eapply runs_bind_done with (P := fun _ _ => True); [apply runs_ret; exact I|]. intros [] w1 _.
  destruct Hc as [Hrep _]. assert (HFs : Forall (fun si => Forall (fun q => (q < n)%N) (item_operands si)) (map fst p)).
  { apply Forall_forall. intros si Hsi. apply in_map_iff in Hsi. destruct Hsi as ([si' cc] & <- & Hin). apply Forall_forall. intros q Hq.
    rewrite Forall_forall in HF. apply HF. unfold program_operands. apply in_flat_map. exists (si', cc). auto. }
  eapply runs_bind_done.
  { apply (gates_spec n L ps psi count draws Hs _ _ Hrep Hcan [] (map fst gs) psi [([], psi, count)] draws w1); auto.
    - now apply level_start.
    - intros [|[|k]] e Hk; simpl in Hk; try discriminate. injection Hk as <-. intros x Hx. unfold at_row, e_psi. cbn [fst snd]. now rewrite N.mul_0_l.
    - apply instantiate_gates. exact Hi. }
  intros [states counts] w2. cbv beta. cbn [fst snd app]. intros (es & Hlv & Harr & -> & _). apply runs_ret. cbn [done].
  exists (samples_of es), (map e_path es). pose proof Hlv as [H1 H2 H3 H4 H5]. split.
  - now rewrite samples_length.
  - apply Forall_forall. intros s Hin. apply in_flat_map in Hin. destruct Hin as (e & He & Hr). apply repeat_spec in Hr. subst s.
    rewrite Forall_forall in H5. exact (proj1 (H5 e He)).
  - exact H1.
  - exact H2.
  - rewrite map_map. cbn [snd]. rewrite <- H4. unfold sum. f_equal. change (fun x : nat * nat => snd x) with (@snd nat nat).
    generalize (map e_cnt es). intros l. generalize 0. induction l as [|m l IH]; intros k; simpl; [reflexivity|]. now rewrite IH.
  - intros s. unfold samples_of. rewrite in_flat_map, in_map_iff. split.
    + intros (e & He & Hr). apply repeat_spec in Hr. eauto.
    + intros (e & <- & He). exists e. split; [exact He|]. rewrite Forall_forall in H3. specialize (H3 e He). destruct (e_cnt e); [lia|]. simpl. auto.
  - assert (Hgen : forall k es', (forall j e, nth_error es' j = Some e -> nth_error es (k + j) = Some e) ->
      Forall2 (fun path r => snd r = count_occ (list_eq_dec Nat.eq_dec) (samples_of es) path /\
        exists phi, follow (map fst gs) path psi = Some phi /\ forall x, (x < 2 ^ n)%N -> fst r x = phi x)
        (map e_path es') (map (fun jm => (fun a => states (at_row n (N.of_nat (fst jm)) a), snd jm)) (combine (seq k (length (map e_cnt es'))) (map e_cnt es')))).
    { intros k es'. revert k. induction es' as [|e es' IH]; intros k Hk; [constructor|]. cbn [map length seq combine]. constructor.
      - cbn [fst snd]. specialize (Hk 0 e eq_refl). rewrite Nat.add_0_r in Hk. pose proof (nth_error_In _ _ Hk) as He. split; [symmetry; now apply occ_samples|].
        rewrite Forall_forall in H5. exists (e_psi e). split; [exact (proj2 (H5 e He))|]. intros x Hx. now apply (Harr k e Hk).
      - apply IH. intros j e' Hj. replace (S k + j) with (k + S j) by lia. now apply Hk. }
    apply (Hgen 0 es). auto.
Qed.
