(** The amplitudes a kernel stores are numbers of the type. *)
From Verif Require Export FloatMeasureSpec FloatProofs20.
From Verif Require Import FloatProofs6 CircuitProofs.
From Coq Require Import Lia Lra ZifyN ZifyNat.
Open Scope R_scope.

Section Keeps.
  Context {V A : Type} (eqb : A -> A -> bool) (P : V -> Prop).
  Fixpoint keeps (p : prog V A) : Prop :=
    match p with
    | Ret => True
    | Rd _ k => forall v, P v -> keeps (k v)
    | Wr _ v q => P v /\ keeps q
    end.
  Lemma exec_keeps valid n sched : forall ths log m m', (forall i, keeps (ths i)) -> (forall a, valid a = true -> P (m a)) ->
    exec V A eqb valid n sched ths log m = Finished m' -> forall a, valid a = true -> P (m' a).
  Proof.
    induction sched as [|t rest IH]; intros ths log m m' Ht Hm H; cbn in H.
    - destruct (forallb _ _); [|discriminate]. injection H as <-. exact Hm.
    - destruct (t <? n)%N; [|exact (IH _ _ _ _ Ht Hm H)]. pose proof (Ht t) as Hk. destruct (ths t) as [|a k|a v q].
      + exact (IH _ _ _ _ Ht Hm H).
      + destruct (valid a) eqn:Ha; [|discriminate]. cbn in H. destruct (existsb _ _); [discriminate|]. refine (IH _ _ _ _ _ Hm H). intros i. unfold set_thread. destruct (i =? t)%N; [apply Hk; auto|apply Ht].
      + destruct (valid a) eqn:Ha; [|discriminate]. cbn in H. destruct (existsb _ _); [discriminate|]. destruct Hk as [Hv Hq]. refine (IH _ _ _ _ _ _ H).
        * intros i. unfold set_thread. destruct (i =? t)%N; [exact Hq|apply Ht].
        * intros b Hb. unfold upd. destruct (eqb b a); auto.
  Qed.
End Keeps.
Definition kernel_keeps {A} (P : C -> Prop) (k : kernel A) : Prop := forall i, keeps P (k_body k i).
Lemma kernels_keep {A} (eqb : A -> A -> bool) valid P ks : Forall (kernel_keeps P) ks -> forall scheds m m', (forall a, valid a = true -> P (m a)) ->
  run_kernels eqb valid ks scheds m = Finished m' -> forall a, valid a = true -> P (m' a).
Proof.
  induction 1 as [|k ks Hk _ IH]; intros scheds m m' Hm H; cbn in H; [injection H as <-; exact Hm|]. destruct scheds as [|s ss]; [discriminate|].
  destruct (parallel_for _ _ _ _ _ _) as [m1| | |] eqn:E; try discriminate. refine (IH ss m1 m' _ H). unfold parallel_for in E. exact (exec_keeps _ _ _ _ _ _ _ _ _ Hk Hm E).
Qed.
Lemma plan_keeps D P p junk scheds psi r : match p with InPlace ks => Forall (kernel_keeps P) ks | Buffered ks => Forall (kernel_keeps P) ks end ->
  (forall a, P (junk a)) -> (forall a, (a < D)%N -> P (psi a)) -> run_plan D p junk scheds psi = Finished r -> forall a, (a < D)%N -> P (r a).
Proof.
  intros Hp Hj Hs H a Ha. destruct p as [ks|ks]; cbn in H.
  - refine (kernels_keep _ _ P ks Hp scheds psi r _ H a _); [|lia]. intros b Hb. apply Hs. lia.
  - destruct (run_kernels _ _ _ _ _) as [m| | |] eqn:E; try discriminate. injection H as <-. destruct (N.ltb_spec a D); [|lia].
    refine (kernels_keep _ _ P ks Hp scheds _ m _ E (true, a) _); [|cbn; lia]. intros [[|] b] Hb; cbn in *; [apply Hj|apply Hs; lia].
Qed.

Section Held.
  Variables (u eta : R) (A : arith).
  Hypothesis HA : accurate u eta A.
  Notation H := (held_number A).
  Lemma held_0 : H C0. Proof. split; apply (acc_zero _ _ _ HA). Qed.
  Lemma held_pair x y : H (a_rnd A x, a_rnd A y). Proof. split; apply (acc_idem _ _ _ HA). Qed.
  Lemma two_rnd plus place x y z w : exists r, two_products A plus place x y z w = a_rnd A r.
  Proof. unfold two_products. destruct (a_fuse _ _ _ _ _ _); eexists; reflexivity. Qed.
  Lemma held_two p1 p2 i1 i2 x y z w x' y' z' w' : H (two_products A p1 i1 x y z w, two_products A p2 i2 x' y' z' w').
  Proof. destruct (two_rnd p1 i1 x y z w) as (r & ->). destruct (two_rnd p2 i2 x' y' z' w') as (r' & ->). apply held_pair. Qed.
  Lemma held_mul i x y : H (f_mul A i x y). Proof. apply held_two. Qed.
  Lemma held_simd_mul i x y : H (f_simd_mul A i x y). Proof. apply held_two. Qed.
  Lemma held_add x y : H (f_add A x y). Proof. apply held_pair. Qed.
  Lemma held_tree t x : H (f_tree A t x).
  Proof.
    destruct t as [l|a b]; [|apply held_add]. cbn. generalize held_0. generalize C0 as z. induction l as [|i l IH]; intros z Hz; cbn; [exact Hz|]. apply IH, held_add.
  Qed.
  Lemma keeps_load k a (cont : list C -> cprog) : (forall vs, Forall H vs -> keeps H (cont vs)) -> keeps H (load_lanes k a cont).
  Proof. revert a cont. induction k as [|k IH]; intros a cont Hc; cbn; [now apply Hc|]. intros v Hv. apply IH. intros vs Hvs. apply Hc. now constructor. Qed.
  Lemma keeps_store a vs (p : cprog) : Forall H vs -> keeps H p -> keeps H (store_lanes a vs p).
  Proof. intros Hv Hp. revert a. induction Hv as [|v vs Hv _ IH]; intros a; cbn; [exact Hp|]. split; [exact Hv|apply IH]. Qed.
  Lemma keeps_row n D L a (p : cprog) : keeps H p -> keeps H (lanes_in_row n D L a p).
  Proof. intros Hp. unfold lanes_in_row. destruct (_ <=? _)%N; [exact Hp|]. cbn. auto. Qed.
  Lemma map_simd i m l : Forall H (map (f_simd_mul A i m) l). Proof. apply Forall_forall. intros z Hz. apply in_map_iff in Hz. destruct Hz as (v & <- & _). apply held_simd_mul. Qed.
  Lemma map2_add l l' : Forall H (map2C (f_add A) l l'). Proof. apply Forall_forall. intros z Hz. unfold map2C in Hz. apply in_map_iff in Hz. destruct Hz as (v & <- & _). apply held_add. Qed.
  Lemma keeps_mul_at i a c (p : cprog) : keeps H p -> keeps H (f_mul_at A i a c p). Proof. intros Hp. cbn. intros v _. split; [apply held_mul|exact Hp]. Qed.
  Lemma keeps_swap a b (p : cprog) : keeps H p -> keeps H (swap_at a b p).
  Proof. intros Hp. unfold swap_at. cbn. intros v Hv v' Hv'. auto. Qed.
  Lemma keeps_reads l : forall vs (cont : list C -> prog C addr2), (forall vs, keeps H (cont vs)) -> keeps H (f_reads l vs cont).
  Proof. induction l as [|a l IH]; intros vs cont Hc; cbn; [apply Hc|]. intros v _. now apply IH. Qed.

  Ltac kk := repeat first [exact I | apply keeps_mul_at | apply keeps_swap | apply held_add | apply held_mul | progress cbn beta iota delta [keeps k_body] | progress intros | split].
  Lemma one_keeps n D L t c cv M : kernel_keeps H (f_one_gate A n D L t c cv M).
  Proof.
    intros i. unfold f_one_gate. destruct (use_simd _ _ _); cbn [k_body f_one_simd f_one_scalar].
      - apply keeps_row, keeps_row, keeps_load. intros v0 _. apply keeps_load. intros v1 _. apply keeps_store; [apply map2_add|]. apply keeps_store; [apply map2_add|exact I].
      - kk.
  Qed.
  Lemma std1_keeps n D L k t c cv : kernel_keeps H (f_std1_kernel A n D L k t c cv).
  Proof.
    destruct k; cbn [f_std1_kernel]; try apply one_keeps; intros i; cbn [x_gate f_y_gate f_phase_gate f_diagonal_gate k_body]; kk.
  Qed.
  Lemma zero_keeps n D L c cv m : kernel_keeps H (f_zero_gate A n D L c cv m).
  Proof.
    intros i. unfold f_zero_gate. destruct (use_simd _ _ _); cbn [k_body f_zero_simd f_zero_scalar]; [|kk].
    apply keeps_row, keeps_load. intros v _. apply keeps_store; [apply map_simd|exact I].
  Qed.
  Lemma init_keeps D c cv : kernel_keeps H (multi_init D c cv).
  Proof. intros i. cbn [multi_init k_body]. destruct (_ =? _)%N; cbn; auto. split; [exact held_0|exact I]. Qed.
  Lemma dot_keeps l (cont : C -> prog C addr2) : (forall z, H z -> keeps H (cont z)) -> keeps H (f_dot_prog A l cont).
  Proof. intros Hc. unfold f_dot_prog. apply keeps_reads. intros vs. apply Hc. apply held_tree. Qed.
  Lemma update_keeps n D L g p : f_update_plan A n D L g = Ok p ->
    match p with InPlace ks => Forall (kernel_keeps H) ks | Buffered ks => Forall (kernel_keeps H) ks end.
  Proof.
    intros E. assert (Hc : forall (b : bool) q, (if b then Ok q else Throw) = Ok p -> q = p) by (intros [|] q Hq; [now injection Hq|discriminate]).
    destruct g; cbn [f_update_plan] in E; try (apply Hc in E; subst p); try (injection E as <-).
    - constructor.
    - constructor; [apply zero_keeps|constructor].
    - constructor; [apply std1_keeps|constructor].
    - constructor; [|constructor]. intros i. cbn [swap_gate k_body]. kk.
    - constructor; [|constructor]. intros i. cbn [f_ecr_gate k_body]. kk.
    - apply Forall_forall. intros k Hk. apply in_map_iff in Hk. destruct Hk as ((x & y) & <- & _). intros i. cbn [permutation_step k_body]. kk.
    - constructor; [|constructor]. intros i. unfold f_apply_pauli. destruct (_ =? 0)%N; cbn [k_body]; [destruct (parity _)|]; kk.
    - constructor; [|constructor]. intros i. unfold f_apply_pauli_rotation. destruct (_ =? 0)%N; cbn [k_body]; [destruct (parity _)|]; kk.
    - repeat match type of E with (if ?b then _ else _) = _ => match b with _ && _ => destruct b end end; apply Hc in E; subst p.
      + constructor; [apply zero_keeps|constructor].
      + constructor; [apply one_keeps|constructor].
      + constructor; [|constructor]. intros i. cbn [f_two_gate k_body]. kk.
      + constructor; [apply init_keeps|]. constructor; [|constructor]. intros i. cbn [f_multi_update k_body]. apply dot_keeps. intros z Hz. cbn. auto.
    - constructor; [apply init_keeps|]. constructor; [|constructor]. intros i. cbn [f_sparse_update k_body]. apply dot_keeps. intros z Hz. cbn. auto.
  Qed.
End Held.
