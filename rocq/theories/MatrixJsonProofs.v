From Verif Require Export MatrixJson JsonProofs4.
From Coq Require Import ZifyBool ZifyN ZifyNat.

(** A matrix in compressed row storage: as many values as columns, rows inside them, fewer than 2^31 rows. *)
Definition stored (A : csr) : Prop := csr_rows A < 2 ^ 31 /\ length (csr_col_idx A) = length (csr_vals A) /\
  forall r, r < csr_rows A -> nth (N.to_nat (r + 1)) (csr_row_ptr A) 0 <= N.of_nat (length (csr_vals A)).

Lemma slice_entries {X Y} (d : X) (e : Y) (k : nat) : forall (l : list X) (l' : list Y) b, length l = length l' -> (b + k <= length l)%nat ->
  firstn k (skipn b (combine l l')) = map (fun i => (nth (b + i) l d, nth (b + i) l' e)) (seq 0 k).
Proof.
  induction k as [|k IH]; intros l l' b Hl Hb; [reflexivity|].
  assert (Hlen : (b < length (combine l l'))%nat) by (rewrite combine_length, <- Hl, Nat.min_id; lia).
  destruct (skipn b (combine l l')) as [|x r] eqn:E; [apply (f_equal (@length _)) in E; rewrite skipn_length in E; cbn in E; lia|].
  cbn [firstn seq map]. f_equal.
  - pose proof (f_equal (fun z => nth 0 z (d, e)) E) as E0. cbn beta iota in E0. rewrite Nat.add_0_r.
    assert (G : forall (z : list (X * Y)) n, nth 0 (skipn n z) (d, e) = nth n z (d, e)).
    { intros z n. revert z. induction n as [|n IHn]; intros [|y z]; try reflexivity. cbn [skipn]. rewrite IHn. reflexivity. }
    rewrite G in E0. cbn [nth] in E0. rewrite <- E0. now apply combine_nth.
  - assert (Er : r = skipn (S b) (combine l l')).
    { pose proof (f_equal (@tl _) E) as E1. cbn [tl] in E1. rewrite <- E1. clear. generalize (combine l l'). induction b as [|b IHb]; intros [|y z]; try reflexivity. cbn [skipn]. rewrite IHb. destruct z; reflexivity. }
    rewrite Er, IH by lia. rewrite <- seq_shift, map_map. apply map_ext. intros i. now replace (b + S i)%nat with (S b + i)%nat by lia.
Qed.
Lemma row_entries_same A r : stored A -> r < csr_rows A -> csr_row_entries A r = csr_entries A r.
Proof.
  intros (_ & Hl & Hp) Hr. specialize (Hp r Hr). unfold csr_row_entries, csr_entries, seqN. cbv zeta. set (b := nth (N.to_nat r) _ _). set (e := nth (N.to_nat (r + 1)) _ _) in *.
  destruct (N.le_gt_cases e b) as [H|H]; [replace (e - b) with 0 by lia; reflexivity|].
  rewrite (slice_entries 0 C0) by (exact Hl || lia). rewrite map_map. apply map_ext. intros i. do 2 f_equal; lia.
Qed.
Lemma collectR_app {A B} (f : A -> res B) l : forall l' x y, collectR f l = Ok x -> collectR f l' = Ok y -> collectR f (l ++ l') = Ok (x ++ y).
Proof.
  induction l as [|a l IH]; intros l' x y Hx Hy; [injection Hx as <-; exact Hy|]. cbn [collectR app] in *. inv_bind Hx. inv_bind Hx. injection Hx as <-.
  rewrite E. cbn [bindR]. rewrite (IH _ _ _ E0 Hy). reflexivity.
Qed.
Definition row_triplets (A : csr) (r : N) : list (N * N * C) := map (fun e => (r, fst e, snd e)) (csr_entries A r).
Lemma read_triplet rows cols r c v : rows <= 2 ^ 31 -> cols <= 2 ^ 31 -> r < rows -> c < cols ->
  triplet_from_json rows cols (JObject [("row", JUnsigned r); ("col", JUnsigned c); ("val", complex_to_json v)]) = Ok (r, c, v).
Proof.
  intros Hr Hc H1 H2. unfold triplet_from_json.
  change (const_index _ "row") with (Ok (JUnsigned r)). change (const_index _ "col") with (Ok (JUnsigned c)). change (const_index _ "val") with (Ok (complex_to_json v)).
  cbn [bindR]. unfold triplet_index. cbn [get_u64 bindR]. cbv zeta.
  rewrite !N.mod_small by (change (2 ^ 31) with 2147483648 in *; change (2 ^ 32) with 4294967296; lia).
  replace ((r <? 2 ^ 31) && (r <? rows)) with true by lia. cbn [bindR]. replace ((c <? 2 ^ 31) && (c <? cols)) with true by lia. cbn [bindR].
  rewrite read_complex. reflexivity.
Qed.
Lemma read_rows A l : stored A -> csr_ok A -> (forall r, In r l -> r < csr_rows A) ->
  collectR (triplet_from_json (csr_rows A) (csr_rows A))
    (flat_map (fun r => map (fun e => JObject [("row", JUnsigned r); ("col", JUnsigned (fst e)); ("val", complex_to_json (snd e))]) (csr_row_entries A r)) l)
  = Ok (flat_map (row_triplets A) l).
Proof.
  intros HA Hok. induction l as [|r l IH]; intros Hl; [reflexivity|]. cbn [flat_map]. apply collectR_app; [|apply IH; intros; apply Hl; now right].
  assert (Hr : r < csr_rows A) by (apply Hl; now left). rewrite row_entries_same by assumption. unfold row_triplets.
  destruct (Hok r Hr) as [_ Hc]. destruct HA as [HA _]. revert Hc. generalize (csr_entries A r). clear -HA Hr. intros es Hc. induction Hc as [|e es He Hes IHes]; [reflexivity|].
  cbn [map collectR]. rewrite read_triplet by (assumption || (apply N.lt_le_incl; assumption)). cbn [bindR]. rewrite IHes. reflexivity.
Qed.
Lemma rows_at A r c l : NoDup l -> Csuml (fun t => if (fst (fst t) =? r) && (snd (fst t) =? c) then snd t else C0) (flat_map (row_triplets A) l)
  = if existsb (N.eqb r) l then csr_sum A r c else C0.
Proof.
  induction 1 as [|q l Hq Hl IH]; [reflexivity|]. cbn [flat_map existsb]. rewrite Csuml_app, IH. unfold row_triplets. rewrite Csuml_map. cbn [fst snd].
  destruct (N.eqb_spec r q) as [->|Hne].
  - replace (existsb (N.eqb q) l) with false. 2:{ symmetry. apply not_true_iff_false. intros H. apply existsb_exists in H. destruct H as (x & Hx & E). apply N.eqb_eq in E. now subst x. }
    cbn [orb]. rewrite N.eqb_refl. cbn [andb]. unfold csr_sum. match goal with |- (?x + C0)%C = _ => destruct x eqn:E end. rewrite <- E. rewrite E. c_eq; ring.
  - cbn [orb]. rewrite Csuml_zero. { destruct (existsb _ _); [destruct (csr_sum A r c)|]; c_eq; ring. } intros e _. destruct (N.eqb_spec q r) as [->|]; [now contradict Hne|reflexivity].
Qed.
Theorem read_sparse A : stored A -> csr_ok A -> exists S, sparse_from_json (sparse_to_json A) = Ok S /\ sp_rows S = csr_rows A /\ sp_cols S = csr_rows A /\
  forall r c, r < csr_rows A -> sp_at S r c = csr_sum A r c.
Proof.
  intros HA Hok. exists (Sparse (csr_rows A) (csr_rows A) (flat_map (row_triplets A) (seqN (csr_rows A)))). split.
  - unfold sparse_from_json, sparse_to_json. 
    match goal with |- context [JArray ?x] => set (ts := x) end.
    change (const_index _ "rows") with (Ok (JUnsigned (csr_rows A))). change (const_index _ "cols") with (Ok (JUnsigned (csr_rows A))). change (const_index _ "triplets") with (Ok (JArray ts)).
    cbn [bindR get_u64]. change (elements (JArray ts)) with ts. unfold ts. rewrite read_rows; [reflexivity|assumption|assumption|]. intros r Hr. now apply in_seqN in Hr.
  - cbn [sp_rows sp_cols]. repeat split. intros r c Hr. unfold sp_at. cbn [sp_triplets]. rewrite rows_at.
    + replace (existsb (N.eqb r) (seqN (csr_rows A))) with true; [reflexivity|]. symmetry. apply existsb_exists. exists r. split; [now apply in_seqN|apply N.eqb_refl].
    + unfold seqN. apply FinFun.Injective_map_NoDup; [intros x y; apply Nat2N.inj|apply seq_NoDup].
Qed.
Definition read_matrix_back := read_matrix.
Lemma stored_example : stored (Csr 2 [0; 1; 2] [1; 0] [Ci; C1]) /\ csr_ok (Csr 2 [0; 1; 2] [1; 0] [Ci; C1]).
Proof.
  split; [split; [reflexivity|split; [reflexivity|]]|]; intros r Hr; assert (r = 0 \/ r = 1) as [-> | ->] by (simpl in Hr; lia); vm_compute;
    try discriminate; (split; [repeat constructor; simpl; intuition discriminate|repeat constructor]).
Qed.
