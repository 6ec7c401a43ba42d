(** Counting the draws of one gate. *)
From Verif Require Import NoiseSpec.
From Coq Require Import FunctionalExtensionality.
Local Open Scope nat_scope.

Definition occ : list nat -> nat -> nat := count_occ Nat.eq_dec.
Definition positives (row : list nat) : nat := length (filter (fun x => negb (x =? 0)) row).
(** the draws of the states, one block each *)
Fixpoint split_draws (counts : list nat) (d : nat -> nat) : list (list nat) :=
  match counts with [] => [] | m :: r => map d (seq 0 m) :: split_draws r (fun k => d (m + k)) end.
Definition counters (size : nat) (block : list nat) : list nat := map (occ block) (seq 0 size).

Lemma bump_length row j : length (bump row j) = length row.
Proof. revert j; induction row as [|x row IH]; intros [|j]; simpl; auto. Qed.
Lemma bump_nth row j k : j < length row -> nth k (bump row j) 0 = nth k row 0 + (if j =? k then 1 else 0).
Proof.
  revert j k; induction row as [|x row IH]; intros [|j] [|k] H; simpl in *; try lia. rewrite IH by lia. reflexivity.
Qed.
Lemma bump_pos row j : j < length row -> positives (bump row j) = positives row + (if nth j row 0 =? 0 then 1 else 0).
Proof.
  unfold positives. revert j; induction row as [|x row IH]; intros [|j] H; simpl in *; try lia.
  - destruct x; simpl; lia.
  - destruct (x =? 0); simpl; rewrite IH by lia; reflexivity.
Qed.
Lemma draw_row_spec m : forall row ns d, (forall i, i < m -> d i < length row) ->
  exists row' ns', draw_row m row ns d = Ok (row', ns', fun k => d (m + k)) /\ length row' = length row /\
    (forall j, nth j row' 0 = nth j row 0 + occ (map d (seq 0 m)) j) /\ ns' + positives row = ns + positives row'.
Proof.
  induction m as [|m IH]; intros row ns d Hd; simpl.
  - exists row, ns. repeat split; intros; auto.
  - pose proof (Hd 0 ltac:(lia)) as H0. destruct (Nat.leb_spec (length row) (d 0)); [lia|].
    destruct (IH (bump row (d 0)) (if nth (d 0) row 0 =? 0 then S ns else ns) (fun k => d (S k))) as (row' & ns' & E & Hl & Hn & Hp).
    { intros i Hi. rewrite bump_length. apply Hd. lia. }
    exists row', ns'. rewrite E. split; [|split; [|split]].
    + repeat f_equal.
    + now rewrite Hl, bump_length.
    + intros j. rewrite Hn, bump_nth by assumption. rewrite <- seq_shift, map_map. unfold occ. simpl.
      destruct (Nat.eq_dec (d 0) j) as [->|Hne]; [rewrite Nat.eqb_refl|rewrite (proj2 (Nat.eqb_neq _ _) Hne)]; lia.
    + rewrite bump_pos in Hp by assumption. destruct (nth (d 0) row 0 =? 0); lia.
Qed.
Lemma nth_repeat0 s j : nth j (repeat 0 s) 0 = 0.
Proof. revert j; induction s as [|s IH]; intros [|j]; simpl; auto. Qed.
Lemma pos_repeat0 s : positives (repeat 0 s) = 0.
Proof. induction s; simpl; auto. Qed.
Lemma counters_nth size b j : j < size -> nth j (counters size b) 0 = occ b j.
Proof. intros H. unfold counters. rewrite (nth_indep _ 0 (occ b 0)) by (rewrite map_length, seq_length; lia). rewrite map_nth, seq_nth by lia. reflexivity. Qed.
Definition sum (l : list nat) : nat := fold_right Nat.add 0 l.
Lemma draw_rows_spec size counts : forall ns d, (forall i, i < sum counts -> d i < size) ->
  exists ns', draw_rows size counts ns d = Ok (map (counters size) (split_draws counts d), ns', fun k => d (sum counts + k)) /\
    ns' = ns + sum (map (fun b => positives (counters size b)) (split_draws counts d)).
Proof.
  induction counts as [|m counts IH]; intros ns d Hd; simpl.
  - exists ns. split; [reflexivity|lia].
  - destruct (draw_row_spec m (repeat 0 size) ns d) as (row & ns1 & E & Hl & Hn & Hp).
    { intros i Hi. rewrite repeat_length. apply Hd. simpl. lia. }
    rewrite E. cbn [bindR]. destruct (IH ns1 (fun k => d (m + k))) as (ns2 & E2 & Hns2).
    { intros i Hi. apply Hd. simpl. lia. }
    rewrite E2. cbn [bindR]. assert (Er : row = counters size (map d (seq 0 m))).
    { apply nth_ext with (d := 0) (d' := 0); [unfold counters; now rewrite Hl, repeat_length, map_length, seq_length|].
      intros j Hj. rewrite Hl, repeat_length in Hj. rewrite Hn, nth_repeat0, counters_nth by assumption. reflexivity. }
    exists ns2. rewrite Er. split.
    + repeat f_equal. apply functional_extensionality. intros k. f_equal. lia.
    + rewrite pos_repeat0 in Hp. rewrite Er in Hp. lia.
Qed.
Lemma split_length counts d : length (split_draws counts d) = length counts.
Proof. revert d; induction counts as [|m r IH]; intros d; simpl; auto. Qed.
Lemma split_concat counts : forall d, concat (split_draws counts d) = map d (seq 0 (sum counts)).
Proof.
  induction counts as [|m r IH]; intros d; simpl; [reflexivity|]. rewrite IH, seq_app, map_app. f_equal. simpl.
  assert (H : forall s k, map (fun j => d (m + j)) (seq k s) = map d (seq (m + k) s)).
  { induction s as [|s IHs]; intros k; simpl; [reflexivity|]. f_equal. rewrite IHs. now rewrite plus_n_Sm. }
  rewrite H. now rewrite Nat.add_0_r.
Qed.
Lemma split_lengths counts : forall d, map (@length nat) (split_draws counts d) = counts.
Proof. induction counts as [|m r IH]; intros d; simpl; [reflexivity|]. now rewrite map_length, seq_length, IH. Qed.

(** ** Exchanging loops *)
Lemma flat_map_nil {A B} (l : list A) : flat_map (fun _ => @nil B) l = [].
Proof. induction l; simpl; auto. Qed.
Lemma flat_map_app_fun {A B} (f g : A -> list B) l : Permutation (flat_map (fun x => f x ++ g x) l) (flat_map f l ++ flat_map g l).
Proof.
  induction l as [|x l IH]; simpl; [constructor|]. rewrite IH, <- !app_assoc. apply Permutation_app_head.
  rewrite !app_assoc. apply Permutation_app_tail. apply Permutation_app_comm.
Qed.
Lemma flat_map_swap {A B T} (F : A -> B -> list T) (la : list A) (lb : list B) :
  Permutation (flat_map (fun a => flat_map (F a) lb) la) (flat_map (fun b => flat_map (fun a => F a b) la) lb).
Proof.
  induction la as [|a la IH]; simpl.
  - rewrite flat_map_nil. constructor.
  - rewrite IH. symmetry. apply (flat_map_app_fun (F a)).
Qed.
Lemma flat_map_perm {A B} (f g : A -> list B) l : (forall x, In x l -> Permutation (f x) (g x)) -> Permutation (flat_map f l) (flat_map g l).
Proof.
  induction l as [|x l IH]; simpl; intros H; [constructor|]. rewrite (H x) by auto. apply Permutation_app_head. apply IH. auto.
Qed.
Lemma flat_map_length {A B} (f : A -> list B) l : length (flat_map f l) = sum (map (fun x => length (f x)) l).
Proof. induction l; simpl; auto. rewrite app_length. lia. Qed.
Lemma flat_map_map {A B T} (f : A -> list B) (g : B -> T) l : map g (flat_map f l) = flat_map (fun x => map g (f x)) l.
Proof. induction l; simpl; auto. now rewrite map_app, IHl. Qed.
Lemma flat_map_flat_map {A B T} (f : A -> list B) (g : B -> list T) l : flat_map g (flat_map f l) = flat_map (fun x => flat_map g (f x)) l.
Proof. induction l; simpl; auto. now rewrite flat_map_app, IHl. Qed.
Lemma flat_map_ext_in' {A B} (f g : A -> list B) l : (forall x, In x l -> f x = g x) -> flat_map f l = flat_map g l.
Proof. induction l as [|x l IH]; simpl; intros H; [reflexivity|]. rewrite H by auto. f_equal. apply IH. auto. Qed.
Lemma repeat_count_aux {T} (f : nat -> T) x size : forall s, s <= x < s + size ->
  forall b, Permutation (f x :: flat_map (fun j => repeat (f j) (occ b j)) (seq s size)) (flat_map (fun j => repeat (f j) (occ (x :: b) j)) (seq s size)).
Proof.
  induction size as [|size IH]; intros s Hs b; [lia|]. cbn [seq flat_map].
  destruct (Nat.eq_dec s x) as [->|Hne].
  - assert (E : occ (x :: b) x = S (occ b x)) by (unfold occ; cbn [count_occ]; destruct (Nat.eq_dec x x); [reflexivity|congruence]).
    rewrite E. cbn [repeat app]. apply perm_skip. apply Permutation_app_head.
    apply Permutation_refl'. apply flat_map_ext_in'. intros j Hj. apply in_seq in Hj. unfold occ. cbn [count_occ]. destruct (Nat.eq_dec x j); [lia|reflexivity].
  - assert (E : occ (x :: b) s = occ b s) by (unfold occ; cbn [count_occ]; destruct (Nat.eq_dec x s); [congruence|reflexivity]).
    rewrite E, Permutation_middle. apply Permutation_app_head. apply IH. lia.
Qed.
(** A list of small numbers, sorted by value. *)
Lemma repeat_count {T} (f : nat -> T) size b : Forall (fun x => x < size) b ->
  Permutation (flat_map (fun j => repeat (f j) (occ b j)) (seq 0 size)) (map f b).
Proof.
  induction 1 as [|x b Hx Hb IH]; cbn [map].
  - rewrite (flat_map_ext_in' _ (fun _ => [])) by reflexivity. now rewrite flat_map_nil.
  - rewrite <- (repeat_count_aux f x size 0) by lia. now apply perm_skip.
Qed.
Lemma pos_flat {T} (f : nat -> T) row : length (flat_map (fun i => if nth i row 0 =? 0 then [] else [f i]) (seq 0 (length row))) = positives row.
Proof.
  rewrite flat_map_length. assert (H : forall s, sum (map (fun x => length (if nth (x - s) row 0 =? 0 then [] else [f x])) (seq s (length row))) = positives row).
  { induction row as [|x row IH]; intros s; [reflexivity|]. cbn [length seq map sum fold_right]. unfold positives. cbn [filter]. rewrite Nat.sub_diag. cbn [nth].
    specialize (IH (S s)). unfold sum in IH.
    rewrite (map_ext_in _ (fun x0 => length (if nth (x0 - S s) row 0 =? 0 then [] else [f x0]))).
    - rewrite IH. destruct (x =? 0); reflexivity.
    - intros a Ha. apply in_seq in Ha. replace (a - s) with (S (a - S s)) by lia. reflexivity. }
  rewrite <- (H 0). f_equal. apply map_ext. intros a. now rewrite Nat.sub_0_r.
Qed.
Lemma NoDup_flat {A B} (f : A -> list B) l : NoDup l -> (forall x, In x l -> NoDup (f x)) ->
  (forall x y b, In x l -> In y l -> In b (f x) -> In b (f y) -> x = y) -> NoDup (flat_map f l).
Proof.
  induction 1 as [|x l Hx Hl IH]; intros H1 H2; simpl; [constructor|].
  assert (Hd : forall b, In b (f x) -> ~ In b (flat_map f l)).
  { intros b Hb Hc. apply in_flat_map in Hc. destruct Hc as (y & Hy & Hyb). apply Hx. rewrite (H2 x y b); simpl; auto. }
  assert (Hr : NoDup (flat_map f l)).
  { apply IH; [intros; apply H1; simpl; auto|]. intros u v b Hu Hv. apply H2; simpl; auto. }
  assert (Hf : NoDup (f x)) by (apply H1; simpl; auto). clear - Hd Hr Hf. induction Hf as [|b r Hb Hr' IH]; simpl; [assumption|].
  constructor.
  - rewrite in_app_iff. intros [H|H]; [contradiction|]. apply (Hd b); simpl; auto.
  - apply IH. intros c Hc. apply Hd. simpl. auto.
Qed.
