(** Noise simulation: what is rejected, an example, and conditions. *)
From Verif Require Import NoiseSpec NoiseProofs5 CircuitProofs9 CircuitProofs10 OptimizeProofs10.
From Coq Require Import ZifyN ZifyNat Lra.
Local Open Scope nat_scope.

Theorem noise_rejects n L ps c psi count draws w : (n < required_n_qubits c)%N \/ (exists t bit reset, In (IGate (CMeas t bit reset)) (c_gates c)) ->
  forall r w', ~ simulate_noise n L ps c psi count draws w (HDone r w').
Proof.
  intros H r w' (o1 & Ho1 & Hk). destruct (N.leb_spec (required_n_qubits c) n) as [Hle|Hgt]; cbn [hcheck] in Ho1; [|rewrite Ho1 in Hk; discriminate].
  destruct H as [H|(t & bit & reset & Hin)]; [lia|]. rewrite Ho1 in Hk. destruct Hk as (o2 & Ho2 & Hk). clear Ho1.
  assert (Hg : forall is states counts d w o, In (IGate (CMeas t bit reset)) is -> noise_gates n L ps is states counts d w o -> forall x w', o <> HDone x w').
  { clear. induction is as [|i is IH]; intros states counts d w o Hin Ho x w' ->; [contradiction|]. cbn [noise_gates] in Ho. destruct Ho as (o1 & H1 & Hk).
    destruct Hin as [->|Hin].
    - destruct H1 as (o2 & H2 & Hk2). cbn [noise_choices hlift] in H2. rewrite H2 in Hk2. rewrite Hk2 in Hk. discriminate.
    - destruct o1 as [[[s1 c1] d1] w1|w1|]; try discriminate. exact (IH _ _ _ _ _ Hin Hk x w' eq_refl). }
  destruct o2 as [x w2|w2|]; try discriminate. exact (Hg _ _ _ _ _ _ Hin Ho2 x w2 eq_refl).
Qed.

(** H(0), a probabilistic gate {1/4: H(0), 3/4: I}, RX(1) by theta *)
Definition ex_noise : circuit :=
  Circuit [IGate (CElem (true, ex_H)); IGate (CProb true [1 / 4; 3 / 4]%R [CElem (true, ex_H); noise_I]); IParam ex_RX "theta"] [None; None; None].
Definition ex_noise_gates (v : R) : list sgate :=
  [act_of (Call1 GH 0 [] []); Choice (combine [1 / 4; 3 / 4]%R [act_of (Call1 GH 0 [] []); act_of CallI]); act_of (pcall_at (PCallRot RotX 1 1 [] []) v)].
Definition ex_noise_program : program :=
  [(SFixed (act_of (Call1 GH 0 [] [])), None); (SFixed (Choice (combine [1 / 4; 3 / 4]%R [act_of (Call1 GH 0 [] []); act_of CallI])), None);
   (SKeyed "theta" (fun v => act_of (pcall_at (PCallRot RotX 1 1 [] []) v)), None)].
Lemma noise_example : sizes_ok 2 (N.of_nat 1000) 8 /\ circuit_is ex_noise ex_noise_program /\ Forall can_simulate (c_gates ex_noise) /\
  Forall (fun ic => snd ic = None) ex_noise_program /\ Forall (fun q => (q < 2)%N) (program_operands ex_noise_program) /\
  (exists gs, instantiate (fun _ => Some 1%R) ex_noise_program = Some gs /\ map fst gs = ex_noise_gates 1) /\
  draws_fit (ex_noise_gates 1) 1000 (fun k => if Nat.eqb (k / 1000) 1 then k mod 2 else 0).
Proof.
  split; [split; [reflexivity|split; [vm_compute; discriminate|right; exists 3%N; split; [reflexivity|reflexivity]]]|].
  split; [|split; [|split; [|split; [|split]]]].
  - split; [|reflexivity]. cbn [map fst ex_noise_program ex_noise c_gates]. apply Forall2_cons; [|apply Forall2_cons; [|apply Forall2_cons; [|apply Forall2_nil]]].
    + apply represents_gate. exact (noise1_stands GH 0 eq_refl).
    + apply represents_gate. apply stands_choice; [|reflexivity|].
      * split; [discriminate|]. split; [repeat (apply Forall_cons; [lra|]); apply Forall_nil|]. unfold Rsuml. simpl. replace (_ - 1)%R with 0%R by field. rewrite Rabs_R0. lra.
      * apply Forall2_cons; [exact (noise1_stands GH 0 eq_refl)|]. apply Forall2_cons; [apply stands_act; apply (acts_factory true); [exact I|reflexivity]|apply Forall2_nil].
    + apply represents_param. apply (pstands_factory true); [exact I|reflexivity].
  - repeat apply Forall_cons; try exact I; [|apply Forall_nil]. split; [reflexivity|]. repeat constructor.
  - repeat constructor.
  - repeat constructor.
  - eexists. split; reflexivity.
  - intros t g i Ht Hi. destruct t as [|[|[|t]]]; [| | |destruct t; discriminate]; injection Ht as <-; cbn [ways act_of pcall_at combine length].
    + rewrite Nat.div_small by lia. simpl. lia.
    + destruct (Nat.eqb _ 1); [|lia]. apply Nat.mod_upper_bound. discriminate.
    + replace ((2 * 1000 + i) / 1000) with 2; [simpl; lia|]. apply (Nat.div_unique _ 1000 2 i); lia.
Qed.

(** X(0) under a condition that never holds is applied all the same. *)
Theorem noise_conditions : exists n L ps c p gs psi, sizes_ok n 1 L /\ circuit_is c p /\ Forall can_simulate (c_gates c) /\
  Forall (fun q => (q < n)%N) (program_operands p) /\ instantiate ps p = Some gs /\
  (forall us r o, run_program watch_all n ps p us (SState psi r) o -> o = SDone (SState psi r)) /\
  forall w, runs (simulate_noise n L ps c psi 1 (fun _ => 0)) w
    (done (fun result _ => exists phi, result = [(phi, 1)] /\ phi 0%N <> psi 0%N)).
Proof.
  set (never := (fun _ => Ok false) : cond). set (c := Circuit [IGate (CElem (true, gate_x0))] [Some never]).
  set (p := [(SFixed act_x0, Some never)] : program). set (psi := (fun x => if (x =? 0)%N then C1 else C0) : state).
  exists 1%N, 1%N, (fun _ => None), c, p, [(act_x0, Some never)], psi.
  assert (Hs : sizes_ok 1 (N.of_nat 1) 1) by (split; [reflexivity|split; [vm_compute; discriminate|right; exists 0%N; split; [reflexivity|reflexivity]]]).
  assert (Hc : circuit_is c p).
  { split; [|reflexivity]. apply Forall2_cons; [|apply Forall2_nil]. apply represents_gate. apply stands_act. apply (acts_factory false); [exact I|exact made_x0]. }
  assert (Hcan : Forall can_simulate (c_gates c)) by repeat constructor.
  assert (HF : Forall (fun q => (q < 1)%N) (program_operands p)) by repeat constructor.
  split; [exact Hs|]. split; [exact Hc|]. split; [exact Hcan|]. split; [exact HF|]. split; [reflexivity|]. split.
  - intros us r o Hr. unfold run_program in Hr. cbn [existsb program_operands flat_map p fst item_operands act_x0 act_of operands call_operands app instantiate item_gate] in Hr.
    change (if false then us = [] /\ o = SThrown (SState psi r) else exec_list watch_all 1 [(act_x0, Some never)] [] us (SState psi r) o) in Hr. cbn iota in Hr.
    inversion Hr as [|g c0 r0 ms us0 s o0 Hh He| | | | |]; subst; try discriminate. inversion He. reflexivity.
  - intros w. eapply runs_weaken; [apply (noise_spec 1 1 (fun _ => None) c p [(act_x0, Some never)] psi 1 (fun _ => 0) w Hs ltac:(lia) Hc Hcan HF eq_refl)|].
    + intros [|t] g i Ht Hi; [injection Ht as <-; cbn; lia|destruct t; discriminate].
    + intros [result w'|w'|]; cbn [done]; try contradiction. intros (samples & paths & [H1 H2 H3 H4 H5 H6 H7]).
      destruct samples as [|s [|]]; try discriminate H1. specialize (H3 0 ltac:(simpl; lia)). cbn [map seq] in H3.
      apply Permutation_length_1 in H3. inversion H2 as [|s' l' Hs' _]; subst. destruct s as [|j [|]]; try discriminate Hs'. cbn [nth] in H3. subst j.
      assert (Hp : paths = [[0]]).
      { destruct paths as [|p1 paths]; [destruct (proj1 (H6 [0])); simpl; auto|]. destruct (proj2 (H6 p1)) as [<-|[]]; [simpl; auto|]. destruct paths as [|p2 paths]; [reflexivity|].
        destruct (proj2 (H6 p2)) as [<-|[]]; [simpl; auto|]. inversion H4 as [|x l Hx _]; subst. exfalso. apply Hx. simpl. auto. }
      subst paths. inversion H7 as [|path r0 l l' (Hc1 & phi & Hf & Hphi) Hnil]; subst. inversion Hnil; subst. destruct r0 as [phi' m]. cbn [fst snd] in *.
      exists phi'. cbn in Hc1. subst m. split; [reflexivity|]. rewrite Hphi by reflexivity. cbn [follow map fst act_x0 act_of way] in Hf. injection Hf as <-.
      intros E. pose proof (eq_trans (eq_sym (proj1 (x_at psi))) E) as E'. unfold psi in E'. cbn in E'. injection E'. lra.
Qed.
