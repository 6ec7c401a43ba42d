(** C01, C02: index enumeration and index-list conversions. *)
From Verif Require Import BitsProofs KernelsProofs.
From Coq Require Import Permutation Sorted ZifyBool ZifyN ZifyNat.

Lemma enumeration_exact n B mask : n <= 64 -> B * 2 ^ n <= two64 -> mask < 2 ^ n ->
  Permutation (map (fun it => insert_zero_at_mask_positions it mask) (seqN (N.shiftr (B * 2 ^ n) (popcount mask))))
              (filter (fun i => N.land i mask =? 0) (seqN (B * 2 ^ n))).
Proof.
  intros Hn HB Hm.
  assert (Hm64 : mask < two64). { unfold two64. eapply N.lt_le_trans; [exact Hm|]. apply N.pow_le_mono_r; lia. }
  assert (Hp : popcount mask <= n). { rewrite <- bits_length. apply incr_length_le; [apply bits_incr|now apply bits_lt]. }
  rewrite shiftr_flat by assumption. apply NoDup_Permutation.
  - apply NoDup_map_inj.
    + intros x y Hx Hy. rewrite in_seqN in Hx, Hy. now apply (insert_zero_inj mask x y n B).
    + apply NoDup_seqN.
  - apply NoDup_filter, NoDup_seqN.
  - intros i. rewrite in_map_iff, filter_In, in_seqN. split.
    + intros (x & <- & Hx). rewrite in_seqN in Hx.
      destruct (insert_zero_range mask x n B Hm HB Hm64 Hx) as [H1 H2]. rewrite H2. now split.
    + intros [Hi Hz]. apply N.eqb_eq in Hz.
      destruct (insert_zero_surj mask i n B Hm HB Hm64 Hi Hz) as [H1 H2].
      eexists. split; [exact H2|]. now apply in_seqN.
Qed.

Lemma enumeration_one_exact n k : n <= 63 -> k < n ->
  Permutation (map (fun it => insert_zero_to_basis_index it k) (seqN (N.shiftr (2 ^ n) 1)))
              (filter (fun i => negb (N.testbit i k)) (seqN (2 ^ n))).
Proof.
  intros Hn Hk. pose proof (enumeration_exact n 1 (2 ^ k) ltac:(lia)) as H.
  assert (Hk' : 2 ^ k < 2 ^ n) by (apply N.pow_lt_mono_r; lia).
  assert (Hn' : 2 ^ n < two64) by (unfold two64; apply N.pow_lt_mono_r; lia).
  specialize (H ltac:(lia) Hk'). rewrite N.mul_1_l in H.
  assert (Ep : popcount (2 ^ k) = 1) by (rewrite <- bits_length, bits_pow2; reflexivity).
  rewrite Ep in H.
  rewrite (map_ext_in _ (fun it => insert_zero_at_mask_positions it (2 ^ k))).
  - rewrite (filter_ext_in _ (fun i => N.land i (2 ^ k) =? 0)); [exact H|].
    intros i _. destruct (N.eqb_spec (N.land i (2 ^ k)) 0) as [E|E].
    + assert (E' : N.testbit (N.land i (2 ^ k)) k = false) by (rewrite E; apply N.bits_0).
      rewrite N.land_spec, N.pow2_bits_true, andb_true_r in E'. now rewrite E'.
    + destruct (N.testbit i k) eqn:T; [reflexivity|]. exfalso. apply E. bitwise j.
      destruct (N.eqb_spec j k); subst; [now rewrite T|]. now rewrite andb_false_r.
  - intros it Hit. apply in_seqN in Hit.
    assert (Hit' : it < 1 * 2 ^ (n - popcount (2 ^ k))).
    { rewrite Ep. rewrite N.mul_1_l. replace (2 ^ n) with (1 * 2 ^ n) in Hit by lia.
      rewrite shiftr_flat in Hit by lia. lia. }
    rewrite (insert_zero_spec (2 ^ k) it n 1) by lia. rewrite bits_pow2. simpl.
    apply insert_zero_to_basis_index_ins1; [lia|].
    pose proof (ins_list_bound [k] it n 1) as Hb. simpl in Hb.
    eapply N.lt_trans; [|exact Hn']. eapply N.lt_le_trans; [apply Hb|lia].
    + repeat constructor. + repeat constructor; assumption. + rewrite Ep in Hit'. exact Hit'.
Qed.

Lemma incr_sorted l : incr l -> StronglySorted N.lt l.
Proof. trivial. Qed.

Lemma vector_to_mask_accepts l :
  (exists m, vector_to_mask l = Ok m) <-> (Forall (fun q => q < 64) l /\ NoDup l).
Proof.
  split.
  - intros [m H]. apply vector_to_mask_ok in H. tauto.
  - intros [HF HD]. destruct (vector_to_mask_aux_accept l 0 ltac:(unfold two64; lia) HF HD) as [r Hr].
    + intros; apply N.bits_0.
    + exists r. exact Hr.
Qed.
Lemma vector_to_mask_rejects l :
  vector_to_mask l = Throw <-> ~ (Forall (fun q => q < 64) l /\ NoDup l).
Proof.
  rewrite <- vector_to_mask_accepts. destruct (vector_to_mask_cases l) as [[m H]|H]; rewrite H.
  - split; [discriminate|]. intros HH. exfalso. apply HH. eauto.
  - split; [|reflexivity]. intros _ [m Hm]. discriminate.
Qed.
Lemma list_mask_list l m : vector_to_mask l = Ok m ->
  StronglySorted N.lt (mask_to_vector m) /\ Permutation (mask_to_vector m) l.
Proof.
  intros H. rewrite mask_to_vector_bits by now apply vector_to_mask_u64 in H. split.
  - apply bits_incr.
  - now apply vector_to_mask_bits.
Qed.

Lemma combine_map {A B} (f : A -> B) l : combine l (map f l) = map (fun x => (x, f x)) l.
Proof. induction l; simpl; congruence. Qed.
Lemma combine_map_self (l vs : list N) : length vs = length l -> NoDup l ->
  forall f, (forall k v, In (k, v) (combine l vs) -> f k = v) -> combine l vs = map (fun x => (x, f x)) l.
Proof.
  revert vs. induction l as [|x l IH]; intros [|v vs] HL HD f Hf; try discriminate; [reflexivity|].
  simpl in *. inversion HD; subst. rewrite (Hf x v) by now left. f_equal. apply IH; auto.
Qed.
Lemma control_values_read_back l vs cm vm : length vs = length l -> Forall (fun v => v < 2) vs ->
  vector_to_mask l = Ok cm -> vector_to_mask_values l vs = Ok vm ->
  Permutation (combine (mask_to_vector cm) (mask_to_values cm vm)) (combine l vs).
Proof.
  intros HL HV Hc Hv. pose proof (vector_to_mask_u64 _ _ Hc) as Hu.
  rewrite mask_to_vector_bits, mask_to_values_bits by assumption.
  pose proof Hc as Hc'. apply vector_to_mask_ok in Hc'. destruct Hc' as (HF & HD & _).
  rewrite combine_map.
  rewrite (combine_map_self l vs HL HD (fun k => N.b2n (N.testbit vm k))).
  - apply Permutation_map. now apply vector_to_mask_bits.
  - intros k v Hin. eapply vector_to_mask_values_read; eassumption.
Qed.
Lemma control_values_accepts l vs : Forall (fun q => q < 64) l -> length vs = length l ->
  ((exists vm, vector_to_mask_values l vs = Ok vm) <-> Forall (fun v => v = 0 \/ v = 1) vs) /\
  (vector_to_mask_values l vs = Throw <-> ~ Forall (fun v => v = 0 \/ v = 1) vs).
Proof.
  intros HF HL.
  assert (E : Forall (fun v => v = 0 \/ v = 1) vs <-> Forall (fun v => v < 2) vs).
  { rewrite !Forall_forall. split; intros H x Hx; specialize (H x Hx); lia. }
  rewrite E. clear E.
  assert (DD : Forall (fun v => v < 2) vs \/ ~ Forall (fun v => v < 2) vs).
  { destruct (forallb (fun v => v <? 2) vs) eqn:E; [left|right]; rewrite Forall_forall.
    - rewrite forallb_forall in E. intros x Hx. specialize (E x Hx). lia.
    - intros H. rewrite (proj2 (forallb_forall _ vs)) in E; [discriminate|]. intros x Hx. specialize (H x Hx). lia. }
  destruct DD as [HV|HV].
  - destruct (vector_to_mask_values_ok l vs HF HL HV) as (r & Hr & _). rewrite Hr. split; split; auto; try discriminate; eauto.
    intros; contradiction.
  - rewrite (vector_to_mask_values_throw l vs HF HL HV). split; split; auto; try contradiction.
    intros [vm Hvm]; discriminate.
Qed.
Lemma resize_spec l vs :
  resize_and_check_control_values l vs =
    match vs with
    | [] => Ok (repeat 1 (length l))
    | _ => if (length vs =? length l)%nat then Ok vs else Throw
    end.
Proof.
  unfold resize_and_check_control_values. destruct vs as [|v vs].
  - rewrite repeat_length, Nat.eqb_refl. reflexivity.
  - rewrite Nat.eqb_sym. reflexivity.
Qed.
