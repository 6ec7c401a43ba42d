(** One gate of the simulation. *)
From Verif Require Import NoiseSpec NoiseProofs StateProofs3 CircuitProofs13 CircuitProofs14 CircuitProofs15.
From Coq Require Import FunctionalExtensionality.
Local Open Scope nat_scope.

(** a way, the state it leads to, and how many samples took it *)
Definition entry : Type := (list nat * state * nat)%type.
Definition e_path (e : entry) : list nat := fst (fst e).
Definition e_psi (e : entry) : state := snd (fst e).
Definition e_cnt (e : entry) : nat := snd e.
Definition array (n : N) (new : state) (es : list entry) : Prop :=
  forall k e, nth_error es k = Some e -> forall x, (x < 2 ^ n)%N -> new (at_row n (N.of_nat k) x) = e_psi e x.
Definition column (i : nat) (f : state -> state) (olds : list (entry * list nat)) : list entry :=
  flat_map (fun er => if nth i (snd er) 0 =? 0 then [] else [(e_path (fst er) ++ [i], f (e_psi (fst er)), nth i (snd er) 0)]) olds.

Lemma array_snoc n new es row e : array n new es -> (forall x, (x < 2 ^ n)%N -> row x = e_psi e x) ->
  array n (put_row n (N.of_nat (length es)) row new) (es ++ [e]).
Proof.
  intros Ha Hr k e' Hk x Hx. unfold put_row. rewrite row_div, row_mod by assumption.
  destruct (Nat.lt_ge_cases k (length es)) as [Hlt|Hge].
  - rewrite nth_error_app1 in Hk by assumption. destruct (N.eqb_spec (N.of_nat k) (N.of_nat (length es))); [lia|]. now apply Ha.
  - rewrite nth_error_app2 in Hk by assumption. destruct (k - length es) as [|d] eqn:Ed; simpl in Hk; [|destruct d; discriminate].
    injection Hk as <-. replace k with (length es) by lia. rewrite N.eqb_refl. now apply Hr.
Qed.
Lemma insert_rows_spec n new_size i tmp f olds : forall j new es, array n new es ->
  (forall k er, nth_error olds k = Some er -> forall x, (x < 2 ^ n)%N -> tmp (at_row n (N.of_nat (j + k)) x) = f (e_psi (fst er)) x) ->
  length es + length (column i f olds) <= new_size ->
  exists new', insert_rows n new_size i tmp (map snd olds) j (new, map e_cnt es) = Ok (new', map e_cnt (es ++ column i f olds)) /\
    array n new' (es ++ column i f olds).
Proof.
  induction olds as [|[e row] olds IH]; intros j new es Ha Ht Hl.
  - exists new. unfold column. simpl. rewrite app_nil_r. auto.
  - assert (Ht' : forall k er, nth_error olds k = Some er -> forall x, (x < 2 ^ n)%N -> tmp (at_row n (N.of_nat (S j + k)) x) = f (e_psi (fst er)) x).
    { intros k er Hk. replace (S j + k) with (j + S k) by lia. now apply Ht. }
    cbn [map snd insert_rows]. unfold column in *. cbn [flat_map fst snd] in Hl |- *. destruct (nth i row 0 =? 0) eqn:E0.
    + cbn [app] in *. now apply IH.
    + cbn [app length] in Hl |- *. rewrite map_length. destruct (Nat.leb_spec new_size (length es)); [lia|].
      replace (map e_cnt es ++ [nth i row 0]) with (map e_cnt (es ++ [(e_path e ++ [i], f (e_psi e), nth i row 0)])) by now rewrite map_app.
      destruct (IH (S j) (put_row n (N.of_nat (length es)) (fun x => tmp (at_row n (N.of_nat j) x)) new) (es ++ [(e_path e ++ [i], f (e_psi e), nth i row 0)])) as (new' & E & Ha').
      * apply array_snoc; [assumption|]. intros x Hx. cbn [e_psi fst snd]. specialize (Ht 0 _ eq_refl x Hx). rewrite Nat.add_0_r in Ht. exact Ht.
      * exact Ht'.
      * rewrite app_length. simpl. lia.
      * exists new'. rewrite E, <- app_assoc in *. cbn [app] in *. auto.
Qed.

Section Gate.
  Variables (n L : N) (ps : string -> option R).
  Lemma alternatives_spec states olds new_size gates F is : forall new es w, array n new es ->
    (forall i, In i is -> exists g, nth_error gates i = Some g /\ forall w,
       runs (noise_update n L ps (N.of_nat (length olds)) g) (with_states (N.of_nat (length olds)) states w)
         (done (fun _ w' => forall k er, nth_error olds k = Some er -> forall x, (x < 2 ^ n)%N ->
            bw_amp w' (at_row n (N.of_nat k) x) = F i (e_psi (fst er)) x))) ->
    length es + length (flat_map (fun i => column i (F i) olds) is) <= new_size ->
    runs (noise_alternatives n L ps states (map snd olds) new_size gates is (new, map e_cnt es)) w
      (done (fun r _ => let es' := es ++ flat_map (fun i => column i (F i) olds) is in snd r = map e_cnt es' /\ array n (fst r) es')).
  Proof.
    induction is as [|i is IH]; intros new es w Ha Hg Hl; cbn [noise_alternatives flat_map] in *.
    - apply runs_ret. cbn [done fst snd]. rewrite app_nil_r. auto.
    - destruct (Hg i (or_introl eq_refl)) as (g & -> & Hrun). rewrite app_length in Hl. rewrite map_length.
      eapply runs_bind_done with (P := fun _ w' => w' = with_states (N.of_nat (length olds)) states w); [apply runs_modify; reflexivity|].
      intros [] w1 ->. eapply runs_bind_done; [apply Hrun|]. intros [] w2 H2. cbv beta in H2.
      eapply runs_bind_done with (P := fun t w' => t = bw_amp w2); [apply runs_get; reflexivity|]. intros tmp w3 ->.
      destruct (insert_rows_spec n new_size i (bw_amp w2) (F i) olds 0 new es Ha) as (new' & E & Ha'); [exact H2|lia|].
      rewrite E. cbn [hlift]. eapply runs_bind_done with (P := fun t w' => t = (new', map e_cnt (es ++ column i (F i) olds))); [apply runs_ret; reflexivity|].
      intros acc w4 ->. eapply runs_weaken; [apply IH; [exact Ha'| |]|].
      + intros i' Hi'. apply Hg. right. exact Hi'.
      + rewrite app_length. lia.
      + intros [r w5|w5|]; cbn [done]; auto. now rewrite <- app_assoc.
  Qed.
End Gate.

(** ** Bookkeeping *)
Definition samples_of (es : list entry) : list (list nat) := flat_map (fun e => repeat (e_path e) (e_cnt e)) es.
Definition next_entries (size : nat) (F : nat -> state -> state) (olds : list (entry * list nat)) : list entry :=
  flat_map (fun i => column i (F i) olds) (seq 0 size).
Definition pairs_of (size : nat) (es : list entry) (d : nat -> nat) : list (entry * list nat) :=
  combine es (map (counters size) (split_draws (map e_cnt es) d)).
(** every sample followed by its draw *)
Definition extended (es : list entry) (d : nat -> nat) : list (list nat) :=
  flat_map (fun eb => map (fun j => e_path (fst eb) ++ [j]) (snd eb)) (combine es (split_draws (map e_cnt es) d)).

Lemma combine_map_r {A B T} (f : B -> T) (l : list A) : forall (l' : list B), combine l (map f l') = map (fun ab => (fst ab, f (snd ab))) (combine l l').
Proof. induction l as [|a l IH]; intros [|b l']; simpl; auto. now rewrite IH. Qed.
Lemma flat_map_of_map {A B T} (f : A -> B) (g : B -> list T) l : flat_map g (map f l) = flat_map (fun x => g (f x)) l.
Proof. induction l; simpl; auto. now rewrite IHl. Qed.

Definition next_of (F : nat -> state -> state) (er : entry * list nat) (i : nat) : list entry :=
  if nth i (snd er) 0 =? 0 then [] else [(e_path (fst er) ++ [i], F i (e_psi (fst er)), nth i (snd er) 0)].
Lemma next_swapped size F olds : Permutation (next_entries size F olds) (flat_map (fun er => flat_map (next_of F er) (seq 0 size)) olds).
Proof. exact (flat_map_swap (fun i er => next_of F er i) (seq 0 size) olds). Qed.

Lemma next_count size F es d : (forall i, i < sum (map e_cnt es) -> d i < size) ->
  length (next_entries size F (pairs_of size es d)) = sum (map (fun b => positives (counters size b)) (split_draws (map e_cnt es) d)).
Proof.
  intros Hd. rewrite (Permutation_length (next_swapped size F (pairs_of size es d))).
  rewrite flat_map_length. unfold pairs_of. rewrite combine_map_r, map_map. cbn [fst snd].
  rewrite (map_ext _ (fun ab => positives (counters size (snd ab)))).
  - rewrite <- (map_map snd (fun b => positives (counters size b))). f_equal. f_equal.
    assert (Hl : length es = length (split_draws (map e_cnt es) d)) by now rewrite split_length, map_length.
    revert Hl. generalize (split_draws (map e_cnt es) d). clear. induction es as [|e es IH]; intros [|b l] Hl; simpl in *; try discriminate; auto.
    f_equal. apply IH. lia.
  - intros [e b]. cbn [fst snd]. assert (Hl : size = length (counters size b)) by (unfold counters; now rewrite map_length, seq_length).
    rewrite Hl at 2. apply (pos_flat (fun i => (e_path e ++ [i], F i (e_psi e), nth i (counters size b) 0)) (counters size b)).
Qed.
Lemma split_small counts size : forall d, (forall i, i < sum counts -> d i < size) -> Forall (Forall (fun x => x < size)) (split_draws counts d).
Proof.
  induction counts as [|m r IH]; intros d Hd; simpl; constructor.
  - apply Forall_forall. intros x Hx. apply in_map_iff in Hx. destruct Hx as (i & <- & Hi). apply in_seq in Hi. apply Hd. simpl. lia.
  - apply IH. intros i Hi. apply Hd. simpl. lia.
Qed.
Lemma next_samples size F es d : (forall i, i < sum (map e_cnt es) -> d i < size) ->
  Permutation (samples_of (next_entries size F (pairs_of size es d))) (extended es d).
Proof.
  intros Hd. unfold samples_of. rewrite (next_swapped size F (pairs_of size es d)). unfold extended.
  rewrite flat_map_flat_map. unfold pairs_of. rewrite combine_map_r, flat_map_of_map. cbn [fst snd].
  apply flat_map_perm. intros [e b] Hin. cbn [fst snd]. apply in_combine_r in Hin.
  pose proof (split_small _ _ _ Hd) as Hs. rewrite Forall_forall in Hs. specialize (Hs b Hin).
  rewrite flat_map_flat_map. rewrite <- (repeat_count (fun j => e_path e ++ [j]) size b Hs). apply Permutation_refl'.
  apply flat_map_ext_in'. intros i Hi. apply in_seq in Hi. unfold next_of. cbn [fst snd]. rewrite counters_nth by lia. destruct (occ b i) eqn:E; [reflexivity|]. simpl. unfold e_path, e_cnt. simpl. now rewrite app_nil_r.
Qed.
