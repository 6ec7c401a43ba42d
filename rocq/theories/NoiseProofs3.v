(** Noise simulation, gate by gate. *)
From Verif Require Import NoiseSpec NoiseProofs NoiseProofs2 StateProofs3 CircuitProofs CircuitProofs3 CircuitProofs4 CircuitProofs13 CircuitProofs14 CircuitProofs15.
From Coq Require Import FunctionalExtensionality ZifyN ZifyNat.
Local Open Scope nat_scope.

(** * Levels *)
Record level (gs : list sgate) (psi : state) (count : nat) (draws : nat -> nat) (es : list entry) : Prop := {
  lv_draws : forall t, t < length gs -> Permutation (map (fun s => nth t s 0) (samples_of es)) (map draws (seq (t * count) count));
  lv_paths : NoDup (map e_path es);
  lv_pos : Forall (fun e => 0 < e_cnt e) es;
  lv_sum : sum (map e_cnt es) = count;
  lv_follow : Forall (fun e => length (e_path e) = length gs /\ follow gs (e_path e) psi = Some (e_psi e)) es
}.
Lemma e_path_mk p s c : e_path (p, s, c) = p.
Proof. reflexivity. Qed.
Lemma samples_length es : length (samples_of es) = sum (map e_cnt es).
Proof. unfold samples_of. rewrite flat_map_length. f_equal. apply map_ext. intros e. apply repeat_length. Qed.
Lemma follow_snoc gs g j f : forall path psi phi, follow gs path psi = Some phi -> way g j = Some f -> follow (gs ++ [g]) (path ++ [j]) psi = Some (f phi).
Proof.
  induction gs as [|g0 gs IH]; intros [|i path] psi phi H Hw; simpl in *; try discriminate.
  - injection H as <-. now rewrite Hw.
  - destruct (way g0 i); [|discriminate]. now apply IH.
Qed.
Lemma NoDup_map_inj {A B} (f : A -> B) l x y : NoDup (map f l) -> In x l -> In y l -> f x = f y -> x = y.
Proof.
  induction l as [|a l IH]; simpl; intros H Hx Hy E; [contradiction|]. inversion H as [|b l' Hn Hd]; subst.
  destruct Hx as [->|Hx], Hy as [->|Hy]; auto; exfalso; apply Hn; [rewrite E|rewrite <- E]; now apply in_map.
Qed.
Lemma map_fst_combine {A B} (l : list A) : forall (l' : list B), length l = length l' -> map fst (combine l l') = l.
Proof. induction l as [|a l IH]; intros [|b l'] H; simpl in *; try discriminate; auto. f_equal. apply IH. lia. Qed.
Lemma pairs_fst size es d : map fst (pairs_of size es d) = es.
Proof. unfold pairs_of. apply map_fst_combine. now rewrite map_length, split_length, map_length. Qed.
Lemma in_next size F olds e : In e (next_entries size F olds) -> exists er i, In er olds /\ i < size /\ nth i (snd er) 0 <> 0 /\
  e = (e_path (fst er) ++ [i], F i (e_psi (fst er)), nth i (snd er) 0).
Proof.
  unfold next_entries, column. intros H. apply in_flat_map in H. destruct H as (i & Hi & H). apply in_flat_map in H. destruct H as (er & Her & H).
  apply in_seq in Hi. destruct (Nat.eqb_spec (nth i (snd er) 0) 0); [contradiction|]. destruct H as [<-|[]]. exists er, i. repeat split; auto. lia.
Qed.
Lemma next_nodup size F olds : NoDup (map (fun er => e_path (fst er)) olds) -> NoDup (map e_path (next_entries size F olds)).
Proof.
  intros Hn. unfold next_entries. rewrite flat_map_map. apply NoDup_flat.
  - apply seq_NoDup.
  - intros i _. unfold column. rewrite flat_map_map. apply NoDup_flat.
    + eapply NoDup_map_inv; eassumption.
    + intros er _. destruct (nth i (snd er) 0 =? 0); simpl; repeat constructor; auto.
    + intros x y b Hx Hy. destruct (nth i (snd x) 0 =? 0), (nth i (snd y) 0 =? 0); simpl; try contradiction. intros [E1|[]] [E2|[]].
      rewrite <- E2 in E1; rewrite ?e_path_mk in E1. apply app_inj_tail in E1. destruct E1 as [E1 _]. eapply NoDup_map_inj; eassumption.
  - intros i j b _ _. unfold column. rewrite !flat_map_map. intros Hi Hj. apply in_flat_map in Hi, Hj.
    destruct Hi as (x & Hx & Hi), Hj as (y & Hy & Hj). destruct (nth i (snd x) 0 =? 0), (nth j (snd y) 0 =? 0); simpl in *; try contradiction.
    destruct Hi as [E1|[]], Hj as [E2|[]]. rewrite <- E2 in E1; rewrite ?e_path_mk in E1. apply app_inj_tail in E1. exact (proj2 E1).
Qed.
Lemma extended_old es d t : Forall (fun e => t < length (e_path e)) es ->
  map (fun s => nth t s 0) (extended es d) = map (fun s => nth t s 0) (samples_of es).
Proof.
  unfold extended, samples_of. revert d. induction es as [|e es IH]; intros d H; simpl; [reflexivity|]. inversion H as [|e' es' He Hes]; subst.
  rewrite !map_app, IH by assumption. f_equal. rewrite !map_map. revert He. generalize (e_path e) (e_cnt e). clear. intros p m Hp.
  assert (Hg : forall s, map (fun x => nth t (p ++ [d x]) 0) (seq s m) = map (fun s => nth t s 0) (repeat p m)); [|apply Hg].
  induction m as [|m IH]; intros s; simpl; [reflexivity|]. rewrite app_nth1 by assumption. f_equal. apply IH.
Qed.
Lemma extended_new es d t : Forall (fun e => length (e_path e) = t) es ->
  map (fun s => nth t s 0) (extended es d) = map d (seq 0 (sum (map e_cnt es))).
Proof.
  rewrite <- split_concat. unfold extended. revert d. induction es as [|e es IH]; intros d H; simpl; [reflexivity|]. inversion H as [|e' es' He Hes]; subst.
  rewrite map_app, IH by assumption. f_equal. rewrite !map_map. apply map_ext. intros j. now rewrite app_nth2, Nat.sub_diag by lia.
Qed.
Lemma level_next gs psi count draws es g F d : level gs psi count draws es -> (forall k, d k = draws (length gs * count + k)) ->
  (forall i, i < count -> d i < ways g) -> (forall i, i < ways g -> way g i = Some (F i)) ->
  level (gs ++ [g]) psi count draws (next_entries (ways g) F (pairs_of (ways g) es d)).
Proof.
  intros [H1 H2 H3 H4 H5] Hd Hsmall Hway. rewrite <- H4 in Hsmall. pose proof (next_samples (ways g) F es d Hsmall) as HP. split.
  - intros t Ht. rewrite app_length in Ht. simpl in Ht. rewrite (Permutation_map _ HP). destruct (Nat.eq_dec t (length gs)) as [->|Hne].
    + rewrite extended_new; [|eapply Forall_impl; [|exact H5]; intros e He; exact (proj1 He)]. rewrite H4. apply Permutation_refl'.
      clear - Hd. assert (Hg : forall s m, map d (seq s m) = map draws (seq (length gs * count + s) m)).
      { intros s m. revert s. induction m as [|m IH]; intros s; simpl; [reflexivity|]. rewrite Hd, IH. now rewrite plus_n_Sm. }
      rewrite Hg. now rewrite Nat.add_0_r.
    + rewrite extended_old; [apply H1; lia|]. eapply Forall_impl; [|exact H5]. intros e [He _]. simpl. lia.
  - apply next_nodup. rewrite <- (map_map fst e_path), pairs_fst. exact H2.
  - apply Forall_forall. intros e He. apply in_next in He. destruct He as (er & i & _ & _ & Hne & ->). unfold e_cnt. simpl. lia.
  - rewrite <- samples_length, (Permutation_length HP). unfold extended. rewrite flat_map_length.
    rewrite (map_ext _ (fun eb => length (snd eb))) by (intros [e b]; apply map_length).
    rewrite <- H4. f_equal. rewrite <- (split_lengths (map e_cnt es) d) at 2. rewrite <- (map_map snd (@length nat)). f_equal.
    assert (Hl : length es = length (split_draws (map e_cnt es) d)) by now rewrite split_length, map_length.
    revert Hl. generalize (split_draws (map e_cnt es) d). clear. induction es as [|e es IH]; intros [|b l] Hl; simpl in *; try discriminate; auto.
    f_equal. apply IH. lia.
  - apply Forall_forall. intros e He. apply in_next in He. destruct He as ([e0 row] & i & Hin & Hi & _ & ->). unfold e_path at 1 3, e_psi at 2. cbn [fst snd].
    assert (He0 : In e0 es) by (rewrite <- (pairs_fst (ways g) es d); apply in_map_iff; exists (e0, row); auto).
    rewrite Forall_forall in H5. destruct (H5 e0 He0) as [Hl Hf]. split; [rewrite !app_length; simpl; lia|]. apply follow_snoc; [exact Hf|]. now apply Hway.
Qed.
Lemma level_start psi count draws : 0 < count -> level [] psi count draws [([], psi, count)].
Proof.
  intros H. split; cbn [length map].
  - intros t Ht. lia.
  - repeat constructor; auto.
  - repeat constructor. exact H.
  - unfold sum, e_cnt. simpl. lia.
  - repeat constructor.
Qed.
Lemma occ_samples es : NoDup (map e_path es) -> forall e, In e es -> count_occ (list_eq_dec Nat.eq_dec) (samples_of es) (e_path e) = e_cnt e.
Proof.
  assert (Happ : forall l1 l2 (x : list nat), count_occ (list_eq_dec Nat.eq_dec) (l1 ++ l2) x = count_occ (list_eq_dec Nat.eq_dec) l1 x + count_occ (list_eq_dec Nat.eq_dec) l2 x)
    by (intros; apply count_occ_app).
  assert (Hno : forall es x, ~ In x (map e_path es) -> count_occ (list_eq_dec Nat.eq_dec) (samples_of es) x = 0).
  { intros l x Hx. apply count_occ_not_In. intros Hin. apply Hx. apply in_flat_map in Hin. destruct Hin as (e & He & Hr). apply repeat_spec in Hr. subst x. now apply in_map. }
  induction es as [|e0 es IH]; intros Hn e He; [contradiction|]. inversion Hn as [|p l Hp Hl]; subst. unfold samples_of. cbn [flat_map]. rewrite Happ. fold (samples_of es).
  destruct He as [->|He].
  - rewrite (Hno es) by exact Hp. rewrite count_occ_repeat_eq by reflexivity. lia.
  - rewrite (IH Hl e He). rewrite count_occ_repeat_neq; [reflexivity|]. intros E. apply Hp. rewrite <- E. now apply in_map.
Qed.
