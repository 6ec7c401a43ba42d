From Verif Require Import Random.
From Coq Require Import Lia ZifyN ZifyNat.
Local Open Scope nat_scope.

Lemma put_length {T} (l : list T) i x : length (put l i x) = length l.
Proof. revert i; induction l as [|y l IH]; intros [|i]; simpl; auto. Qed.
Lemma put_nth {T} (l : list T) i x k : i < length l -> nth_error (put l i x) k = if k =? i then Some x else nth_error l k.
Proof. revert i k; induction l as [|y l IH]; intros [|i] [|k] H; simpl in *; try lia; auto. apply IH. lia. Qed.
Lemma put_split {T} (l1 l2 : list T) y x : put (l1 ++ y :: l2) (length l1) x = l1 ++ x :: l2.
Proof. induction l1; simpl; auto. now rewrite IHl1. Qed.
Lemma swap_length {T} (l : list T) i j : length (swap l i j) = length l.
Proof. unfold swap. destruct (nth_error l i), (nth_error l j); rewrite ?put_length; auto. Qed.
Lemma swap_nth {T} (l : list T) i j k : i < length l -> j < length l ->
  nth_error (swap l i j) k = if k =? j then nth_error l i else if k =? i then nth_error l j else nth_error l k.
Proof.
  intros Hi Hj. unfold swap. destruct (nth_error l i) as [x|] eqn:Ei; [|apply nth_error_None in Ei; lia]. destruct (nth_error l j) as [y|] eqn:Ej; [|apply nth_error_None in Ej; lia].
  rewrite put_nth by now rewrite put_length. destruct (Nat.eqb_spec k j); [reflexivity|]. rewrite put_nth by assumption. reflexivity.
Qed.
Lemma nth_error_eq {T} (l l' : list T) : (forall k, nth_error l k = nth_error l' k) -> l = l'.
Proof.
  revert l'; induction l as [|x l IH]; intros [|y l'] H; auto; try (specialize (H 0); discriminate).
  pose proof (H 0) as H0. injection H0 as ->. f_equal. apply IH. intros k. exact (H (S k)).
Qed.
Lemma swap_perm {T} (l : list T) i j : i < length l -> j < i -> Permutation l (swap l i j).
Proof.
  intros Hi Hj. destruct (nth_error l i) as [x|] eqn:Ei; [|apply nth_error_None in Ei; lia]. apply nth_error_split in Ei. destruct Ei as (l1 & l2 & -> & E1).
  assert (Hj1 : j < length l1) by lia. destruct (nth_error l1 j) as [y|] eqn:Ej; [|apply nth_error_None in Ej; lia]. apply nth_error_split in Ej. destruct Ej as (l3 & l4 & -> & E3).
  assert (E : swap ((l3 ++ y :: l4) ++ x :: l2) i j = (l3 ++ x :: l4) ++ y :: l2).
  { unfold swap. rewrite <- E1. rewrite nth_error_app2, Nat.sub_diag by lia. simpl. rewrite nth_error_app1 by (rewrite app_length; simpl; lia). rewrite <- E3.
    rewrite nth_error_app2, Nat.sub_diag by lia. simpl. rewrite put_split. rewrite <- !app_assoc. simpl. now rewrite put_split. }
  rewrite E, <- !app_assoc. simpl. apply Permutation_app_head. transitivity (y :: x :: l4 ++ l2).
  - apply perm_skip. symmetry. apply Permutation_middle.
  - transitivity (x :: y :: l4 ++ l2); [apply perm_swap|]. apply perm_skip. apply Permutation_middle.
Qed.
Lemma drawn_small mt i : N.to_nat (int32 mt mod (N.of_nat i + 1)) <= i.
Proof. assert (H : (int32 mt mod (N.of_nat i + 1) < N.of_nat i + 1)%N) by (apply N.mod_lt; lia). lia. Qed.
Lemma shuffle_perm k : forall l mt, k <= length l -> Permutation l (shuffle k l mt).
Proof.
  induction k as [|i IH]; intros l mt Hk; [apply Permutation_refl|]. cbn [shuffle]. set (j := N.to_nat _). pose proof (drawn_small mt i : j <= i) as Hj.
  destruct (Nat.eqb_spec i j); [apply IH; lia|]. transitivity (swap l i j); [apply swap_perm; lia|]. apply IH. rewrite swap_length. lia.
Qed.
Theorem permutation_perm n mt : Permutation (permutation n mt) (seq 0 n).
Proof. symmetry. apply shuffle_perm. now rewrite seq_length. Qed.

(** ** Every permutation *)
Definition prepend (x : N) (mt : engine) : engine := fun k => match k with O => x | S k => mt k end.
Lemma skipn_eq {T} (l l' : list T) k : (forall m, k <= m -> nth_error l m = nth_error l' m) -> length l = length l' -> skipn k l = skipn k l'.
Proof.
  intros H Hl. apply nth_error_eq. intros m. assert (E : forall (r : list T), nth_error (skipn k r) m = nth_error r (k + m)).
  { clear. intros r. revert r. induction k as [|k IH]; intros r; [reflexivity|]. destruct r; simpl; [now destruct m|apply IH]. }
  rewrite !E. apply H. lia.
Qed.
Lemma shuffle_reaches k : (N.of_nat k <= 4294967295)%N -> forall l t, Permutation l t -> k <= length l -> (forall m, k <= m -> nth_error l m = nth_error t m) ->
  exists mt, engine_ok mt /\ shuffle k l mt = t.
Proof.
  induction k as [|i IH]; intros Hk l t Hp Hl Ht.
  - exists (fun _ => 0%N). split; [intros k; apply N.neq_0_lt_0; apply N.pow_nonzero; discriminate|]. simpl. apply nth_error_eq. intros m. apply Ht. lia.
  - assert (Hlt : length l = length t) by now apply Permutation_length.
    assert (Hf : Permutation (firstn (S i) l) (firstn (S i) t)).
    { apply Permutation_app_inv_r with (l := skipn (S i) l). rewrite firstn_skipn. rewrite (skipn_eq l t (S i) Ht Hlt). now rewrite firstn_skipn. }
    destruct (nth_error t i) as [x|] eqn:Ex; [|apply nth_error_None in Ex; lia].
    assert (Hin : In x (firstn (S i) l)).
    { apply (Permutation_in x (Permutation_sym Hf)). apply (nth_error_In _ i). rewrite <- (firstn_skipn (S i) t), nth_error_app1 in Ex; [exact Ex|]. rewrite firstn_length. lia. }
    apply In_nth_error in Hin. destruct Hin as (j & Hj). assert (Hji : j < S i).
    { apply Nat.lt_le_trans with (length (firstn (S i) l)); [apply nth_error_Some; congruence|apply firstn_le_length]. }
    assert (Hjl : nth_error l j = Some x). { rewrite <- (firstn_skipn (S i) l), nth_error_app1; [exact Hj|]. rewrite firstn_length. lia. }
    set (l' := if i =? j then l else swap l i j).
    assert (Hp' : Permutation l' t).
    { unfold l'. destruct (Nat.eqb_spec i j); [exact Hp|]. transitivity l; [|exact Hp]. symmetry. apply swap_perm; lia. }
    destruct (IH ltac:(lia) l' t Hp') as (mt & Hok & Hs).
    + unfold l'. destruct (i =? j); rewrite ?swap_length; lia.
    + intros m Hm. unfold l'. destruct (Nat.eqb_spec i j) as [->|Hne].
      * destruct (Nat.eq_dec m j) as [->|]; [congruence|]. apply Ht. lia.
      * rewrite swap_nth by lia. destruct (Nat.eqb_spec m j); [lia|]. destruct (Nat.eqb_spec m i) as [->|]; [congruence|]. apply Ht. lia.
    + exists (prepend (N.of_nat j) mt). split.
      * intros [|k]; cbn [prepend]; [|apply Hok]. change (2 ^ 64)%N with 18446744073709551616%N. lia.
      * cbn [shuffle]. unfold int32 at 1. unfold int32 at 1. cbn [prepend].
        assert (Ej : N.to_nat ((N.of_nat j mod 4294967295) mod (N.of_nat i + 1)) = j) by (rewrite (N.mod_small (N.of_nat j)) by lia; rewrite N.mod_small by lia; lia).
        rewrite Ej. exact Hs.
Qed.
Theorem permutation_reaches n t : (N.of_nat n <= 4294967295)%N -> Permutation t (seq 0 n) -> exists mt, engine_ok mt /\ permutation n mt = t.
Proof.
  intros Hn Hp. apply shuffle_reaches; [exact Hn|now symmetry|now rewrite seq_length|]. intros m Hm.
  rewrite (proj2 (nth_error_None (seq 0 n) m)) by (rewrite seq_length; lia). symmetry. apply nth_error_None. rewrite (Permutation_length Hp), seq_length. lia.
Qed.

(** ** Large permutations *)
Lemma shuffle_keeps k : forall l mt m, k <= m -> k <= length l -> nth_error (shuffle k l mt) m = nth_error l m.
Proof.
  induction k as [|i IH]; intros l mt m Hm Hl; [reflexivity|]. cbn [shuffle]. set (j := N.to_nat _). pose proof (drawn_small mt i : j <= i) as Hj.
  destruct (Nat.eqb_spec i j); [apply IH; lia|]. rewrite IH by (rewrite ?swap_length; lia). rewrite swap_nth by lia.
  destruct (Nat.eqb_spec m j); [lia|]. destruct (Nat.eqb_spec m i); [lia|]. reflexivity.
Qed.
Theorem permutation_identity_missed n mt : (4294967296 <= N.of_nat n)%N -> permutation n mt <> seq 0 n.
Proof.
  intros Hn E. destruct n as [|i]; [lia|]. unfold permutation in E. cbn [shuffle] in E. set (j := N.to_nat (int32 mt mod (N.of_nat i + 1))) in E.
  assert (Hj : j < i).
  { unfold j. assert (H : (int32 mt < 4294967295)%N) by (unfold int32; apply N.mod_lt; discriminate). rewrite N.mod_small by lia. lia. }
  destruct (Nat.eqb_spec i j); [lia|]. apply (f_equal (fun l => nth_error l i)) in E. rewrite shuffle_keeps in E by (rewrite ?swap_length, ?seq_length; lia).
  rewrite swap_nth in E by (rewrite seq_length; lia). destruct (Nat.eqb_spec i j); [lia|]. rewrite Nat.eqb_refl in E.
  rewrite (nth_error_nth' _ 0), (nth_error_nth' _ 0) in E by (rewrite seq_length; lia). rewrite !seq_nth in E by lia. injection E. lia.
Qed.
Lemma reverse_three : permutation 3 (fun k => match k with O => 0 | _ => 1 end)%N = [2; 1; 0].
Proof. reflexivity. Qed.
