(** Partial traces. *)
From Verif Require Export DensityProofs6.
From Coq Require Import ZifyBool ZifyN ZifyNat Permutation FunctionalExtensionality.

Lemma below_full l i : Forall (fun q => q < i) l -> below i l = N.of_nat (length l).
Proof.
  intros H. unfold below. f_equal. f_equal. induction H; [reflexivity|]. cbn [filter].
  replace (x <? i) with true by lia. congruence.
Qed.
Lemma pow2_le64 b : b <= 64 -> 1 * 2 ^ b <= two64.
Proof. intros H. rewrite N.mul_1_l. unfold two64. apply N.pow_le_mono_r; lia. Qed.
(** inserting zeros at the positions of a mask puts the bits at the other positions *)
Lemma deposit b t m r : b <= 64 -> t < 2 ^ b -> m < 2 ^ b -> m < two64 -> (forall k, k < b -> N.testbit m k = negb (N.testbit t k)) ->
  r < 2 ^ popcount t -> popcount t + popcount m = b /\ insert_zero_at_mask_positions r m = scatter (bits t) r 0.
Proof.
  intros Hb Ht Hm Hm64 Hc Hr.
  assert (Hp : popcount t + popcount m = b).
  { rewrite <- !bits_length. rewrite <- (below_full (bits t) b) by now apply bits_lt.
    rewrite <- (below_full (bits m) b) by now apply bits_lt. now apply below_compl. }
  split; [exact Hp|].
  assert (Hr' : r < 1 * 2 ^ (b - popcount m)).
  { rewrite N.mul_1_l. replace (b - _) with (popcount t) by lia. assumption. }
  rewrite (insert_zero_spec _ r b 1) by (try assumption; now apply pow2_le64).
  apply N.bits_inj. intro i. destruct (N.testbit t i) eqn:Et.
  - apply in_bits in Et. apply In_nth_error in Et. destruct Et as [k Hk].
    rewrite (scatter_in _ _ _ k i (bits_NoDup t) Hk).
    pose proof (nth_error_below _ _ _ (bits_incr t) Hk) as Hw.
    assert (Hi : In i (bits t)) by (eapply nth_error_In; eassumption). apply in_bits in Hi.
    assert (Hin : i < b). { destruct (N.lt_ge_cases i b); [assumption|]. rewrite (testbit_high t b) in Hi by assumption. discriminate. }
    rewrite below_ins.
    + f_equal. pose proof (below_compl t m i) as Hcc. rewrite Hw in Hcc.
      assert (E : N.of_nat k + below i (bits m) = i) by (apply Hcc; intros j Hj; apply Hc; lia). lia.
    + apply bits_incr.
    + rewrite in_bits, Hc, Hi by assumption. discriminate.
  - rewrite scatter_out by (rewrite in_bits, Et; discriminate). rewrite N.bits_0.
    destruct (N.lt_ge_cases i b) as [Hi|Hi].
    + apply ins_list_zero; [apply bits_incr|]. apply in_bits. now rewrite Hc, Et.
    + apply testbit_high with (n := b); [|assumption].
      rewrite <- (N.mul_1_l (2 ^ b)). apply ins_list_bound; [apply bits_incr|now apply bits_lt|].
      rewrite bits_length. exact Hr'.
Qed.

Lemma incr_seqN n : incr (seqN n).
Proof.
  unfold seqN. generalize 0%nat as a. induction (N.to_nat n) as [|m IH]; intros a; cbn [seq map]; constructor; [apply IH|].
  apply Forall_forall. intros x Hx. apply in_map_iff in Hx as (b & <- & Hb). apply in_seq in Hb. lia.
Qed.
Lemma in_rest n qs q : In q (rest_of n qs) <-> q < n /\ ~ In q qs.
Proof.
  unfold rest_of. rewrite filter_In, in_seqN, negb_true_iff. split; intros [H1 H2]; (split; [exact H1|]).
  - intros Hin. apply not_true_iff_false in H2. apply H2. apply existsb_exists. exists q. split; [exact Hin|apply N.eqb_refl].
  - apply not_true_iff_false. intros E. apply existsb_exists in E as (x & Hx & E). apply N.eqb_eq in E as ->. contradiction.
Qed.
Lemma rest_NoDup n qs : NoDup (rest_of n qs).
Proof. apply NoDup_filter, NoDup_seqN. Qed.
Lemma rest_length n qs : NoDup qs -> Forall (fun q => q < n) qs -> N.of_nat (length (rest_of n qs)) + N.of_nat (length qs) = n.
Proof.
  intros Hnd HF. rewrite <- Nat2N.inj_add, <- app_length. rewrite (Permutation_length (l' := seqN n)); [rewrite length_seqN; lia|].
  apply NoDup_Permutation; [|apply NoDup_seqN|].
  - apply NoDup_app_intro; [apply rest_NoDup|exact Hnd|]. intros x Hx. now apply in_rest in Hx.
  - intros x. rewrite in_app_iff, in_rest, in_seqN. rewrite Forall_forall in HF. split; [intros [[H _]|H]; auto|].
    intros Hx. destruct (in_dec_N x qs); auto.
Qed.
Lemma rest_lt n qs : Forall (fun q => q < n) (rest_of n qs).
Proof. apply Forall_forall. intros q Hq. now apply in_rest in Hq. Qed.
Lemma joint_lt n qs i z : NoDup qs -> Forall (fun q => q < n) qs -> joint n qs i z < 2 ^ n.
Proof. intros Hnd HF. unfold joint. apply scatter_lt; auto. apply scatter_lt; [apply rest_NoDup|apply rest_lt|apply pow2_pos]. Qed.
Lemma joint_rest n qs i z : i < 2 ^ N.of_nat (length (rest_of n qs)) -> gather (rest_of n qs) (joint n qs i z) = i.
Proof.
  intros Hi. unfold joint. rewrite (gather_inj_ext _ _ (scatter (rest_of n qs) i 0)) by (intros q Hq; apply scatter_out; now apply in_rest in Hq).
  apply gather_scatter; [apply rest_NoDup|exact Hi].
Qed.
Lemma joint_traced n qs i z : NoDup qs -> z < 2 ^ N.of_nat (length qs) -> gather qs (joint n qs i z) = z.
Proof. intros Hnd Hz. unfold joint. now apply gather_scatter. Qed.
Lemma joint_split n qs x : NoDup qs -> x < 2 ^ n -> joint n qs (gather (rest_of n qs) x) (gather qs x) = x.
Proof.
  intros Hnd Hx. unfold joint. transitivity (scatter qs (gather qs x) x); [|now apply scatter_gather].
  apply scatter_ext; [exact Hnd|]. intros q Hq. destruct (N.lt_ge_cases q n) as [Hn|Hn].
  - rewrite <- (scatter_gather (rest_of n qs) x) at 2 by apply rest_NoDup.
    assert (Hr : In q (rest_of n qs)) by now apply in_rest. apply In_nth_error in Hr as [k Hk].
    now rewrite !(scatter_in _ _ _ k q (rest_NoDup n qs) Hk).
  - rewrite scatter_out by (intros Hr; apply in_rest in Hr; lia). now rewrite N.bits_0, (testbit_high x n).
Qed.
Lemma scatter_perm l l' z x : NoDup l -> Permutation l l' -> scatter l' (gather l' (scatter l z 0)) x = scatter l z x.
Proof.
  intros Hnd HP. assert (Hnd' : NoDup l') by (eapply Permutation_NoDup; eassumption).
  apply N.bits_inj. intros i. destruct (in_dec_N i l) as [Hi|Hi].
  - assert (Hi' : In i l') by (eapply Permutation_in; eassumption). apply In_nth_error in Hi as [k Hk]. apply In_nth_error in Hi' as [k' Hk'].
    rewrite (scatter_in _ _ _ k i Hnd Hk), (scatter_in _ _ _ k' i Hnd' Hk'), gather_tb, Hk'. now rewrite (scatter_in _ _ _ k i Hnd Hk).
  - rewrite !scatter_out; [reflexivity|exact Hi|]. intros H. apply Hi. eapply Permutation_in; [apply Permutation_sym; exact HP|exact H].
Qed.
Lemma scatter_inj l z z' x : NoDup l -> z < 2 ^ N.of_nat (length l) -> z' < 2 ^ N.of_nat (length l) -> scatter l z x = scatter l z' x -> z = z'.
Proof. intros Hnd Hz Hz' E. rewrite <- (gather_scatter l z x), <- (gather_scatter l z' x) by assumption. now rewrite E. Qed.
Lemma scatter_perm_sum l l' x y (F : N -> N -> C) : NoDup l -> Permutation l l' ->
  Csum (2 ^ N.of_nat (length l)) (fun z => F (scatter l z x) (scatter l z y)) =
  Csum (2 ^ N.of_nat (length l')) (fun z => F (scatter l' z x) (scatter l' z y)).
Proof.
  intros Hnd HP. assert (Hnd' : NoDup l') by (eapply Permutation_NoDup; eassumption).
  rewrite <- (Csum_reindex (2 ^ N.of_nat (length l)) (2 ^ N.of_nat (length l')) (fun z => gather l' (scatter l z 0))
                (fun z => F (scatter l' z x) (scatter l' z y))).
  - apply Csum_ext. intros z _. now rewrite !scatter_perm.
  - intros z _. apply gather_lt.
  - intros z z' Hz Hz' E. apply (scatter_inj l z z' 0); auto. rewrite <- (scatter_perm l l' z 0), <- (scatter_perm l l' z' 0) by assumption. now rewrite E.
  - intros z Hz. exists (gather l (scatter l' z 0)). split; [apply gather_lt|].
    rewrite (scatter_perm l' l z 0) by (auto using Permutation_sym). now apply gather_scatter.
Qed.
Lemma rest_perm n qs qs' : Permutation qs qs' -> rest_of n qs = rest_of n qs'.
Proof.
  intros HP. unfold rest_of. apply filter_ext. intros q. f_equal. apply eq_true_iff_eq. rewrite !existsb_exists.
  split; intros (x & Hx & E); exists x; (split; [|exact E]); [eapply Permutation_in; [exact HP|exact Hx]|
    eapply Permutation_in; [apply Permutation_sym; exact HP|exact Hx]].
Qed.
Lemma ptrace_perm n qs qs' M : NoDup qs -> Permutation qs qs' -> forall i j, ptrace n qs M i j = ptrace n qs' M i j.
Proof. intros Hnd HP i j. unfold ptrace, joint. rewrite <- (rest_perm n qs qs' HP). now apply scatter_perm_sum. Qed.

(** ** The kernel *)
Lemma run_sum_reads l : forall acc cont m, run1 baddr_eqb (sum_reads l acc cont) m = run1 baddr_eqb (cont (acc + Csuml m l)%C) m.
Proof.
  induction l as [|a l IH]; intros acc cont m; cbn [sum_reads run1 Csuml fold_right].
  - f_equal. f_equal. ring.
  - rewrite IH. f_equal. f_equal. change (fold_right _ _ l) with (Csuml m l). ring.
Qed.
Lemma foot_sum_reads (R W : bool * (N * N) -> Prop) l : forall acc cont, (forall a, In a l -> R a) -> (forall v, foot R W (cont v)) ->
  foot R W (sum_reads l acc cont).
Proof.
  induction l as [|a l IH]; intros acc cont Hl Hc; cbn [sum_reads foot]; [apply Hc|]. split; [apply Hl; now left|].
  intros v. apply IH; [|exact Hc]. intros b Hb. apply Hl. now right.
Qed.
Section Trace.
  Context (n : N) (qs : list N) (mask : N).
  Context (Hn : n < 32) (Hq : Forall (fun q => q < n) qs) (Hnd : NoDup qs) (Hm : vector_to_mask qs = Ok mask).
  Let k := N.of_nat (length qs).
  Let rq := n - k.
  Lemma pt_k : N.of_nat (length (rest_of n qs)) + k = n.
  Proof using All. apply rest_length; assumption. Qed.
  Lemma pt_mask_lt : mask < 2 ^ n.
  Proof using All.
    apply vector_to_mask_ok in Hm as (_ & _ & HT). apply lt_pow2_testbit. intros i Hi. apply not_true_iff_false. intros E. apply HT in E.
    rewrite Forall_forall in Hq. specialize (Hq i E). lia.
  Qed.
  Lemma pt_rest_bits : bits (outer_mask n mask) = rest_of n qs.
  Proof using All.
    apply bits_unique.
    - apply incr_filter. apply incr_seqN.
    - intros i. rewrite in_rest, outer_tb by (try apply pt_mask_lt; lia). rewrite andb_true_iff, N.ltb_lt, negb_true_iff.
      apply vector_to_mask_ok in Hm as (_ & _ & HT). rewrite <- HT. now rewrite not_true_iff_false.
  Qed.
  Lemma pt_base i : i < 2 ^ rq -> insert_zero_at_mask_positions i mask = scatter (rest_of n qs) i 0.
  Proof using All.
    intros Hi. rewrite <- pt_rest_bits. apply (deposit n).
    - lia.
    - apply outer_lt; [lia|apply pt_mask_lt].
    - apply pt_mask_lt.
    - exact (vector_to_mask_u64 _ _ Hm).
    - intros b Hb. rewrite outer_tb by (try apply pt_mask_lt; lia). replace (b <? n) with true by lia. cbn [andb]. now rewrite negb_involutive.
    - rewrite <- bits_length, pt_rest_bits. pose proof pt_k. replace (N.of_nat (length (rest_of n qs))) with rq by (unfold rq; lia). exact Hi.
  Qed.
  Lemma pt_offset z : z < 2 ^ k -> insert_zero_at_mask_positions z (not64 mask) = scatter (bits mask) z 0.
  Proof using All.
    intros Hz. pose proof (vector_to_mask_u64 _ _ Hm) as H64. assert (Hn64 : not64 mask < two64).
    { change two64 with (2 ^ 64). apply lt_pow2_testbit. intros i Hi. rewrite not64_testbit. replace (i <? 64) with false by lia.
      rewrite xorb_false_r. now apply (lt_two64_tb mask). }
    apply (deposit 64); try assumption; [lia| |].
    - intros b Hb. rewrite not64_testbit. replace (b <? 64) with true by lia. apply xorb_true_r.
    - rewrite <- bits_length, (Permutation_length (vector_to_mask_bits _ _ Hm)). exact Hz.
  Qed.
  Lemma pt_index i z : i < 2 ^ rq -> z < 2 ^ k ->
    N.lor (insert_zero_at_mask_positions i mask) (insert_zero_at_mask_positions z (not64 mask)) = scatter (bits mask) z (scatter (rest_of n qs) i 0).
  Proof using All.
    intros Hi Hz. rewrite pt_base, pt_offset by assumption. rewrite N.lor_comm. apply (scatter_lor mask).
    - apply N.bits_inj. intros b. rewrite N.land_spec, N.bits_0. destruct (N.testbit mask b) eqn:E; [|now rewrite andb_false_r].
      rewrite scatter_out; [now rewrite N.bits_0|]. intros Hr. apply in_rest in Hr as [_ Hr]. apply Hr.
      apply vector_to_mask_ok in Hm as (_ & _ & HT). now apply HT.
    - rewrite <- bits_length, (Permutation_length (vector_to_mask_bits _ _ Hm)). exact Hz.
  Qed.
  Lemma pt_sum i j (M : matrix) : i < 2 ^ rq -> j < 2 ^ rq ->
    Csum (2 ^ k) (fun z => M (N.lor (insert_zero_at_mask_positions i mask) (insert_zero_at_mask_positions z (not64 mask)))
                             (N.lor (insert_zero_at_mask_positions j mask) (insert_zero_at_mask_positions z (not64 mask)))) = ptrace n qs M i j.
  Proof using All.
    intros Hi Hj. unfold ptrace, joint. fold k. pose proof (vector_to_mask_bits _ _ Hm) as HP.
    rewrite <- (scatter_perm_sum (bits mask) qs _ _ M (bits_NoDup mask) HP). rewrite (Permutation_length HP). fold k.
    apply Csum_ext. intros z Hz. now rewrite !pt_index.
  Qed.

  Let valid (a : bool * (N * N)) : bool := if fst a then (fst (snd a) <? 2 ^ rq) && (snd (snd a) <? 2 ^ rq) else d_valid n (snd a).
  Lemma pt_body rank : rank < 2 ^ rq * 2 ^ rq ->
    let i := rank / 2 ^ rq in let j := rank mod 2 ^ rq in
    k_body (partial_trace_kernel mask (2 ^ k) (2 ^ rq) rq) rank =
    sum_reads (map (fun z => let x := insert_zero_at_mask_positions z (not64 mask) in
                             (false, (N.lor (insert_zero_at_mask_positions i mask) x, N.lor (insert_zero_at_mask_positions j mask) x))) (seqN (2 ^ k))) C0
      (fun sum => Wr (true, (i, j)) sum Ret).
  Proof using Hn.
    intros Hr i j. unfold partial_trace_kernel. cbn [k_body]. rewrite N.shiftr_div_pow2. fold i.
    assert (H64 : 2 ^ rq < two64) by (unfold two64; apply N.pow_lt_mono_r; unfold rq; lia).
    rewrite sub64_pred by (try apply pow2_pos; exact H64).
    replace (2 ^ rq - 1) with (N.ones rq) by (rewrite N.ones_equiv; lia). rewrite N.land_ones. reflexivity.
  Qed.
  Lemma pt_kernel raw junk :
    kcomputes baddr_eqb valid (partial_trace_kernel mask (2 ^ k) (2 ^ rq) rq)
      (fun a => if fst a then junk (snd a) else raw (snd a))
      (fun a => if fst a then (if (fst (snd a) <? 2 ^ rq) && (snd (snd a) <? 2 ^ rq)
                               then ptrace n qs (fun i j => raw (i, j)) (fst (snd a)) (snd (snd a)) else junk (snd a)) else raw (snd a)).
  Proof using All.
    pose proof (pow2_pos rq) as Hp. pose proof pt_k as Hk.
    assert (Hit : k_iters (partial_trace_kernel mask (2 ^ k) (2 ^ rq) rq) = 2 ^ rq * 2 ^ rq).
    { cbn [k_iters partial_trace_kernel]. unfold mul64, wrap. apply N.mod_small. rewrite <- N.pow_add_r. unfold two64. apply N.pow_lt_mono_r; unfold rq; lia. }
    assert (Hdm : forall i j, i < 2 ^ rq -> j < 2 ^ rq -> (i * 2 ^ rq + j) / 2 ^ rq = i /\ (i * 2 ^ rq + j) mod 2 ^ rq = j).
    { intros i j Hi Hj. rewrite N.div_add_l, N.div_small by lia. split; [lia|]. rewrite N.add_comm, N.mod_add, N.mod_small; lia. }
    unfold kcomputes. rewrite Hit. eapply par_computes_ext; cycle 1.
    - apply (owned_par_computes _ _ _ baddr_eqb_spec valid (2 ^ rq * 2 ^ rq) _ _
        (fun a => negb (fst a) && d_valid n (snd a)) (fun a => fst a && ((fst (snd a) <? 2 ^ rq) && (snd (snd a) <? 2 ^ rq)))
        (fun a => fst (snd a) * 2 ^ rq + snd (snd a))).
      + intros [x [i j]]. unfold valid. cbn [fst snd]. destruct x; cbn [negb andb]; [|discriminate]. intros H. split; [exact H|]. split; [|reflexivity].
        apply andb_prop in H as [H1 H2]. apply N.ltb_lt in H1, H2. nia.
      + intros [x [i j]]. unfold valid. cbn [fst snd]. destruct x; cbn [negb andb]; [discriminate|]. intros H. exact H.
      + intros g Hg. rewrite (pt_body g Hg). cbv zeta. set (i := g / 2 ^ rq). set (j := g mod 2 ^ rq).
        assert (Hi : i < 2 ^ rq) by (apply N.div_lt_upper_bound; lia). assert (Hj : j < 2 ^ rq) by (apply N.mod_lt; lia).
        apply foot_sum_reads.
        * intros a Ha. left. apply in_map_iff in Ha as (z & <- & Hz). apply in_seqN in Hz. cbn [fst snd negb andb].
          rewrite !pt_index by assumption. pose proof (vector_to_mask_bits _ _ Hm) as HP.
          assert (HF : Forall (fun q => q < n) (bits mask)) by (eapply Permutation_Forall; [apply Permutation_sym; exact HP|exact Hq]).
          apply valid_in; (apply scatter_lt; [apply bits_NoDup|exact HF|]; apply scatter_lt; [apply rest_NoDup|apply rest_lt|apply pow2_pos]).
        * intros v. split; [|exact I]. cbn [fst snd andb]. apply N.ltb_lt in Hi as Hi', Hj as Hj'. rewrite Hi', Hj'. split; [reflexivity|].
          unfold i, j. rewrite (N.div_mod g (2 ^ rq)) at 3 by lia. lia.
    - intros [x [i j]]. cbn [fst snd]. destruct x; cbn [andb]; [|reflexivity].
      destruct ((i <? 2 ^ rq) && (j <? 2 ^ rq)) eqn:E; [|reflexivity]. apply andb_prop in E as [Hi Hj]. apply N.ltb_lt in Hi, Hj.
      rewrite pt_body by nia. cbv zeta. destruct (Hdm i j Hi Hj) as [-> ->]. rewrite run_sum_reads. cbn [run1]. unfold upd.
      destruct (baddr_eqb_spec (true, (i, j)) (true, (i, j))); [|congruence]. rewrite Csuml_map.
      rewrite <- (pt_sum i j (fun i j => raw (i, j)) Hi Hj). unfold Csum. cbn [fst snd]. ring.
  Qed.
End Trace.

Lemma fold_max_lt qs n : qs <> [] -> (fold_right N.max 0 qs < n <-> Forall (fun q => q < n) qs).
Proof.
  intros Hne. assert (G : forall l, 0 < n -> (fold_right N.max 0 l < n <-> Forall (fun q => q < n) l)).
  { intros l Hn. induction l as [|q l IH]; cbn [fold_right]; [split; [constructor|auto]|]. split.
    - intros H. constructor; [lia|]. apply IH. lia.
    - intros H. inversion H; subst. apply IH in H3. lia. }
  destruct (N.eq_dec n 0) as [->|Hn]; [|apply G; lia]. split; [lia|]. intros H. destruct qs; [congruence|]. inversion H. lia.
Qed.
Lemma scatter_seqN n i : i < 2 ^ n -> scatter (seqN n) i 0 = i.
Proof.
  intros Hi. rewrite <- (scatter_gather (seqN n) i) at 2 by apply NoDup_seqN. rewrite gather_seqN, N.mod_small by assumption.
  apply scatter_ext; [apply NoDup_seqN|]. intros q Hq. rewrite in_seqN in Hq. rewrite N.bits_0, (testbit_high i n); [reflexivity|assumption|lia].
Qed.
Lemma ptrace_nil n M : mat_eq (2 ^ n) (ptrace n [] M) M.
Proof.
  intros i j Hi Hj. unfold ptrace. cbn [length N.of_nat]. rewrite N.pow_0_r. rewrite Csum_1. unfold joint. cbn [scatter].
  assert (E : rest_of n [] = seqN n). { unfold rest_of. cbn [existsb negb]. induction (seqN n) as [|a l IH]; [reflexivity|]. cbn [filter]. now rewrite IH. }
  now rewrite E, !scatter_seqN.
Qed.
(** C35 *)
Lemma partial_trace_ok n qs w : n < 32 -> NoDup qs -> Forall (fun q => q < n) qs ->
  creates (n - N.of_nat (length qs)) (get_partial_trace n qs) w (ptrace n qs (rho w)) (d_herm w).
Proof.
  intros Hn Hnd HF. destruct qs as [|q qs'].
  - unfold creates, get_partial_trace. apply runs_get. cbn [done]. split; [reflexivity|]. split; [|reflexivity].
    cbn [length N.of_nat]. rewrite N.sub_0_r. apply mat_eq_sym, ptrace_nil.
  - set (qs := q :: qs') in *. unfold creates, get_partial_trace. fold qs. change (match qs with [] => _ | _ => ?x end) with x. cbv iota beta.
    assert (Hmax : n <=? fold_right N.max 0 qs = false) by (apply N.leb_gt, fold_max_lt; [discriminate|exact HF]). rewrite Hmax.
    assert (HF64 : Forall (fun q => q < 64) qs) by (eapply Forall_impl; [|exact HF]; cbv beta; lia).
    destruct (proj2 (vector_to_mask_accepts qs) (conj HF64 Hnd)) as [mask Hm]. rewrite Hm. cbn [hlift].
    eapply yields_bind; [now apply runs_ret|]. rewrite (mask_popcount _ _ Hm), N.eqb_refl. cbn [negb].
    set (k := N.of_nat (length qs)) in *. assert (Hk : k <= n) by (pose proof (rest_length n qs Hnd HF); fold k in H; lia).
    rewrite shl64_1 by lia. replace (2 ^ n / 2 ^ k) with (2 ^ (n - k)) by (rewrite N.pow_sub_r by lia; reflexivity).
    assert (G : forall junk, _) by (intros junk; exact (kcomputes_list_run baddr_eqb _ [_] _ _ (ex_intro _ _ (conj (pt_kernel n qs mask Hn HF Hnd Hm (d_raw w) junk) (fun a => eq_refl))))).
    split.
    + intros o (scheds & junk & Ho). destruct (G junk) as [H1 _]. specialize (H1 scheds).
      change (fun a b : bool * (N * N) => Bool.eqb (fst a) (fst b) && pair_eqb (snd a) (snd b)) with baddr_eqb in Ho. fold k in H1.
      destruct (run_kernels _ _ _ _ _); try contradiction. subst. cbn [done]. split; [reflexivity|]. split; [|reflexivity].
      intros i j Hi Hj. rewrite rho_DM. cbn [fst snd]. fold k. apply N.ltb_lt in Hi, Hj. rewrite Hi, Hj. reflexivity.
    + destruct (G (fun _ => C0)) as [_ (s & r & H2)]. eexists. exists s, (fun _ => C0). fold k in H2.
      change (fun a b : bool * (N * N) => Bool.eqb (fst a) (fst b) && pair_eqb (snd a) (snd b)) with baddr_eqb. rewrite H2. reflexivity.
Qed.
Lemma partial_trace_throws n qs w : n < 64 -> ~ (NoDup qs /\ Forall (fun q => q < n) qs) -> refuses (get_partial_trace n qs) w.
Proof.
  intros Hn H. destruct qs as [|q qs']; [exfalso; apply H; split; constructor|].
  set (qs := q :: qs') in *. unfold refuses, get_partial_trace. fold qs. change (match qs with [] => _ | _ => ?x end) with x. cbv iota beta.
  destruct (N.leb_spec n (fold_right N.max 0 qs)) as [L|L]; [now apply runs_throw|].
  apply fold_max_lt in L; [|discriminate]. assert (E : vector_to_mask qs = Throw).
  { apply vector_to_mask_rejects. intros [_ Hnd]. apply H. now split. }
  rewrite E. cbn [hlift]. eapply runs_bind; [now apply runs_throw with (Q := fun o => o = HThrown w)| | |]; cbv beta; try discriminate. now intros ? [= ->].
Qed.

(** ** What it means *)
Lemma joint_sum n qs (F : N -> C) : NoDup qs -> Forall (fun q => q < n) qs ->
  Csum (2 ^ (n - N.of_nat (length qs))) (fun i => Csum (2 ^ N.of_nat (length qs)) (fun z => F (joint n qs i z))) = Csum (2 ^ n) F.
Proof.
  intros Hnd HF. set (k := N.of_nat (length qs)). pose proof (rest_length n qs Hnd HF) as Hk. fold k in Hk.
  replace (n - k) with (N.of_nat (length (rest_of n qs))) by lia. set (m := N.of_nat (length (rest_of n qs))) in *.
  unfold Csum. rewrite <- (Csuml_list_prod (fun a => F (joint n qs (fst a) (snd a)))).
  rewrite <- (Csuml_map (fun a => joint n qs (fst a) (snd a)) F). apply Csuml_perm. apply NoDup_Permutation.
  - apply Prelude.NoDup_map_inj; [|apply NoDup_list_prod; apply NoDup_seqN]. intros [i z] [i' z'] Hi Hi' E.
    apply in_prod_iff in Hi as [Hi Hz], Hi' as [Hi' Hz']. apply in_seqN in Hi, Hz, Hi', Hz'. cbn [fst snd] in E.
    f_equal; [rewrite <- (joint_rest n qs i z), <- (joint_rest n qs i' z') by assumption|
              rewrite <- (joint_traced n qs i z), <- (joint_traced n qs i' z') by assumption]; now rewrite E.
  - apply NoDup_seqN.
  - intros x. rewrite in_map_iff, in_seqN. split.
    + intros ([i z] & <- & _). now apply joint_lt.
    + intros Hx. exists (gather (rest_of n qs) x, gather qs x). cbn [fst snd]. split; [now apply joint_split|].
      apply in_prod_iff. rewrite !in_seqN. split; apply gather_lt.
Qed.
Lemma ptrace_trace n qs M : NoDup qs -> Forall (fun q => q < n) qs -> trace (2 ^ (n - N.of_nat (length qs))) (ptrace n qs M) = trace (2 ^ n) M.
Proof. intros Hnd HF. unfold trace, ptrace. exact (joint_sum n qs (fun x => M x x) Hnd HF). Qed.
Lemma ptrace_hermitian n qs M : NoDup qs -> Forall (fun q => q < n) qs -> hermitian (2 ^ n) M ->
  hermitian (2 ^ (n - N.of_nat (length qs))) (ptrace n qs M).
Proof.
  intros Hnd HF H i j _ _. unfold mat_adj, ptrace. rewrite Csum_conj. apply Csum_ext. intros z _. apply H; now apply joint_lt.
Qed.
Lemma ptrace_psd n qs M : NoDup qs -> Forall (fun q => q < n) qs -> psd n M -> psd (n - N.of_nat (length qs)) (ptrace n qs M).
Proof.
  intros Hnd HF H phi. set (k := N.of_nat (length qs)). set (m := n - k).
  pose (chi z x := if gather qs x =? z then phi (gather (rest_of n qs) x) else C0).
  pose proof (rest_length n qs Hnd HF) as Hk. fold k in Hk. assert (Hm : N.of_nat (length (rest_of n qs)) = m) by (unfold m; lia).
  assert (Hs : forall z (G : N -> C), z < 2 ^ k -> Csum (2 ^ n) (fun x => (G x * (if gather qs x =? z then C1 else C0))%C) = Csum (2 ^ m) (fun i => G (joint n qs i z))).
  { intros z G Hz. rewrite <- (joint_sum n qs _ Hnd HF). fold k m. apply Csum_ext. intros i Hi. rewrite (Csum_single _ _ z); [|exact Hz|].
    - rewrite joint_traced, N.eqb_refl by assumption. ring.
    - intros z' Hz' Hne. rewrite joint_traced by assumption. destruct (N.eqb_spec z' z); [contradiction|]. ring. }
  assert (E : inner m phi (mat_vec (2 ^ m) (ptrace n qs M) phi) = Csum (2 ^ k) (fun z => inner n (chi z) (mat_vec (2 ^ n) M (chi z)))).
  { transitivity (Csum (2 ^ k) (fun z => Csum (2 ^ m) (fun i => Csum (2 ^ m) (fun j => (Cconj (phi i) * M (joint n qs i z) (joint n qs j z) * phi j)%C)))).
    - unfold inner, mat_vec, ptrace. fold k. rewrite Csum_swap. apply Csum_ext. intros i Hi. rewrite Csum_swap, <- Csum_mul_l. apply Csum_ext. intros j Hj.
      rewrite <- Csum_mul_r, <- Csum_mul_l. apply Csum_ext. intros; ring.
    - apply Csum_ext. intros z Hz. unfold inner.
      rewrite (Csum_ext (2 ^ n) _ (fun x => (Cconj (phi (gather (rest_of n qs) x)) * mat_vec (2 ^ n) M (chi z) x) * (if gather qs x =? z then C1 else C0))%C).
      2:{ intros x Hx. unfold chi at 1. destruct (gather qs x =? z); [ring|]. rewrite Cconj_0. ring. }
      rewrite Hs by assumption. apply Csum_ext. intros i Hi. rewrite joint_rest by (rewrite Hm; exact Hi). unfold mat_vec.
      rewrite (Csum_ext (2 ^ n) _ (fun x => (M (joint n qs i z) x * phi (gather (rest_of n qs) x)) * (if gather qs x =? z then C1 else C0))%C).
      2:{ intros x Hx. unfold chi. destruct (gather qs x =? z); ring. }
      rewrite Hs by assumption. rewrite <- Csum_mul_l. apply Csum_ext. intros j Hj. rewrite joint_rest by (rewrite Hm; exact Hj). ring. }
  rewrite E. clear E Hs. assert (Hz : forall z, (0 <= fst (inner n (chi z) (mat_vec (2 ^ n) M (chi z))))%R /\ snd (inner n (chi z) (mat_vec (2 ^ n) M (chi z))) = 0%R) by (intros z; apply H).
  set (f := fun z => inner n (chi z) (mat_vec (2 ^ n) M (chi z))). change (forall z, (0 <= fst (f z))%R /\ snd (f z) = 0%R) in Hz. clearbody f. unfold Csum.
  induction (seqN (2 ^ k)) as [|z l [IH1 IH2]]; cbn [Csuml fold_right fst snd]; [split; [apply Rle_refl|reflexivity]|]. destruct (Hz z) as [Z1 Z2].
  change (fold_right _ _ l) with (Csuml f l). unfold Cadd. cbn [fst snd]. split; lra.
Qed.
Lemma ptrace_product n qs M A B : NoDup qs -> Forall (fun q => q < n) qs ->
  (forall i j z z', i < 2 ^ (n - N.of_nat (length qs)) -> j < 2 ^ (n - N.of_nat (length qs)) -> z < 2 ^ N.of_nat (length qs) -> z' < 2 ^ N.of_nat (length qs) ->
     M (joint n qs i z) (joint n qs j z') = (A i j * B z z')%C) ->
  mat_eq (2 ^ (n - N.of_nat (length qs))) (ptrace n qs M) (fun i j => (trace (2 ^ N.of_nat (length qs)) B * A i j)%C).
Proof.
  intros Hnd HF H i j Hi Hj. unfold ptrace, trace. rewrite <- Csum_mul_r. apply Csum_ext. intros z Hz. rewrite H by assumption. ring.
Qed.
(** the diagonal of the reduced matrix: the probabilities of the remaining qubits *)
Lemma ptrace_marginal n qs M i : NoDup qs -> Forall (fun q => q < n) qs -> i < 2 ^ (n - N.of_nat (length qs)) ->
  fst (ptrace n qs M i i) = diag_prob n (fun x => gather (rest_of n qs) x =? i) M.
Proof.
  intros Hnd HF Hi. set (k := N.of_nat (length qs)) in *. pose proof (rest_length n qs Hnd HF) as Hk. fold k in Hk.
  assert (Hi' : i < 2 ^ N.of_nat (length (rest_of n qs))) by (replace (N.of_nat (length (rest_of n qs))) with (n - k) by lia; exact Hi).
  unfold ptrace. fold k. transitivity (Rsuml (fun z => fst (M (joint n qs i z) (joint n qs i z))) (seqN (2 ^ k))).
  { unfold Csum. induction (seqN (2 ^ k)) as [|z l IH]; [reflexivity|]. cbn [Csuml fold_right Rsuml]. change (fold_right _ _ l) with (Csuml (fun z => M (joint n qs i z) (joint n qs i z)) l) at 1.
    unfold Cadd. cbn [fst]. rewrite IH. reflexivity. }
  rewrite <- (Rsuml_map (fun z => joint n qs i z) (fun x => fst (M x x))). apply Rsuml_perm. apply NoDup_Permutation.
  - apply Prelude.NoDup_map_inj; [|apply NoDup_seqN]. intros z z' Hz Hz' E. apply in_seqN in Hz, Hz'.
    rewrite <- (joint_traced n qs i z), <- (joint_traced n qs i z') by assumption. now rewrite E.
  - apply NoDup_filter, NoDup_seqN.
  - intros x. rewrite in_map_iff, filter_In, in_seqN, N.eqb_eq. split.
    + intros (z & <- & Hz). apply in_seqN in Hz. split; [now apply joint_lt|now apply joint_rest].
    + intros [Hx E]. exists (gather qs x). rewrite in_seqN. split; [|apply gather_lt]. rewrite <- E. now apply joint_split.
Qed.
