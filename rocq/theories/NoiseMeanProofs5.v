(** simulate_noise and running the circuit have the same averages; an example. *)
From Verif Require Import NoiseProofs NoiseProofs2 NoiseProofs3 NoiseProofs4 NoiseProofs5 NoiseProofs6 NoiseProofs7 NoiseMeanProofs NoiseMeanProofs2 NoiseMeanProofs3 NoiseMeanProofs4.
From Verif Require Import CircuitProofs4 CircuitProofs6 CircuitProofs7 CircuitProofs8 CircuitProofs10 OptimizeProofs10 ChannelProofs3 ChannelProofs4 ChannelProofs5.
From Verif Require Import NoiseMeanSpec.
From Coq Require Import FunctionalExtensionality Lia Lra.
Local Open Scope nat_scope.

Lemma instantiate_conds ps p : forall gs, Forall (fun ic => snd ic = None) p -> instantiate ps p = Some gs -> Forall (fun gc => snd gc = None) gs.
Proof.
  induction p as [|[i cc] p IH]; intros gs HF H; cbn [instantiate] in H; [injection H as <-; constructor|]. inversion HF as [|? ? Hc HF']; subst. cbn [snd] in Hc. subst cc.
  destruct (item_gate ps i); [|discriminate]. destruct (instantiate ps p) as [l|]; [|discriminate]. injection H as <-. constructor; [reflexivity|]. now apply IH.
Qed.
Lemma ways_bits l : (forall j, j < length l -> exists f, way (Choice l) j = Some f) -> bits_exist 0 (Choice l).
Proof.
  cbn [bits_exist way]. induction l as [|[pr g] l IH]; intros Hw; cbn [fold_right snd]; [exact I|]. split.
  - destruct (Hw 0 ltac:(simpl; lia)) as (f & E). cbn [nth_error] in E. destruct g; try discriminate. exact I.
  - apply IH. intros j Hj. apply (Hw (S j)). simpl. lia.
Qed.
Lemma simple_orderly gs : Forall simple (map fst gs) -> Forall (fun gc => snd gc = None) gs -> orderly 0 [] gs.
Proof.
  induction gs as [|[g c] gs IH]; intros Hs HN; cbn [orderly]; [exact I|]. inversion Hs as [|? ? [(_ & _ & _ & Hm) Hw] Hs']; subst. inversion HN as [|? ? Hc HN']; subst. cbn [snd] in Hc. subst c. cbn [fst] in *.
  split; [|split; [|split; [reflexivity|]]].
  - destruct g as [qs f|q b r|l]; [exact I|exfalso; now apply (Hm q b r)|]. now apply ways_bits.
  - intros r _. exists true. reflexivity.
  - replace (unreset_after g []) with (@nil N); [now apply IH|]. destruct g as [|q b r|]; try reflexivity. exfalso. now apply (Hm q b r).
Qed.
Theorem noise_agrees n L ps c p gs psi count i j : sizes_ok n (N.of_nat count) L -> 0 < count -> circuit_is c p -> Forall can_simulate (c_gates c) ->
  Forall (fun ic => snd ic = None) p -> Forall (fun q => (q < n)%N) (program_operands p) -> instantiate ps p = Some gs -> norm_kept n ps p -> sqnorm n psi = 1%R ->
  (forall l cc, In (Choice l, cc) gs -> Rsuml fst l = 1%R) -> (i < 2 ^ n)%N -> (j < 2 ^ n)%N ->
  exists v, averaged (draws_list gs) (run_gives n (circuit_update n L ps c) psi [] (fun w => w_amp w i * Cconj (w_amp w j))%C) v /\
            noise_expects n L ps c psi count (tally (fun phi => phi i * Cconj (phi j))%C) (Cscale (INR count) v).
Proof.
  intros Hs H0 Hc Hcan HN HF Hi Hk Hpsi Hone Hii Hj.
  pose proof (all_simple n L ps c p gs count Hc Hcan HF Hi) as Hsim. pose proof (instantiate_conds ps p gs HN Hi) as HNs.
  pose proof (orderly_never_stops n ps p gs psi [] HF Hi Hk Hpsi (simple_orderly gs Hsim HNs)) as Hst. pose proof Hs as (Hn & _ & HL).
  eexists. split; [exact (state_average n L ps c p gs psi [] Hn HL Hc Hk Hpsi Hst Hi i j Hii Hj)|].
  cbn [length registers Csuml fold_right].
  replace (channels gs (pure psi []) [] i j + C0)%C with (channels (map (fun g => (normalised (fst g), None)) gs) (pure psi []) [] i j).
  - apply (noise_channel n L ps c p gs psi count Hs H0 Hc Hcan HF Hi i j Hii Hj).
  - replace (map (fun g : sgate * option cond => (normalised (fst g), None)) gs) with gs; [ring|]. clear - HNs Hone. induction gs as [|[g cc] gs IH]; [reflexivity|].
    inversion HNs as [|? ? Hc HNs']; subst. cbn [snd] in Hc. subst cc. cbn [map fst]. f_equal; [|apply IH; [intros l cc H; apply (Hone l cc); now right|exact HNs']].
    f_equal. destruct g as [| |l]; try reflexivity. cbn [normalised]. rewrite (Hone l None) by now left. f_equal. clear. induction l as [|[pr g] l IH]; [reflexivity|]. cbn [map fst snd]. rewrite <- IH. f_equal. f_equal. lra.
Qed.

(** Bit-flip noise *)
Definition flip_gate (p : R) : sgate := Choice [(p, act_of (Call1 GX 0 [] [])); (1 - p, act_of CallI)]%R.
Lemma flip_is vf p g : (0 <= p <= 1)%R -> make_bit_flip vf 0 p = Ok g ->
  circuit_is (add_gate c_new g) [(SFixed (flip_gate p), None)] /\ Forall can_simulate (c_gates (add_gate c_new g)) /\
  Forall (fun q => (q < 1)%N) (program_operands [(SFixed (flip_gate p), None)]) /\ instantiate (fun _ => None) [(SFixed (flip_gate p), None)] = Some [(flip_gate p, None)].
Proof.
  intros Hp Hm. destruct (bit_flip_ok vf 0 p eq_refl Hp) as (g' & E & Hst). rewrite Hm in E. injection E as <-. split; [split; [|reflexivity]|split; [|split]].
  - apply Forall2_cons; [|apply Forall2_nil]. apply represents_gate. exact Hst.
  - unfold make_bit_flip in Hm. rewrite noise1_ok in Hm by reflexivity. cbn [bindR] in Hm.
    apply (factory_elementary [p; 1 - p]%R [(true, EStd GX (GBase (2 ^ 0) 0 0)); (true, EI)]) in Hm. subst g.
    apply Forall_cons; [|apply Forall_nil]. split; [reflexivity|]. repeat constructor.
  - repeat constructor.
  - reflexivity.
Qed.
Theorem flips_mean L vf p g count : lanes_ok L -> 0 < count -> (N.of_nat count * 2 <= 2 ^ 64)%N -> (0 <= p <= 1)%R -> make_bit_flip vf 0 p = Ok g ->
  noise_expects 1 L (fun _ => None) (add_gate c_new g) ex_zero count (tally (fun phi => phi 1%N * Cconj (phi 1%N))%C) ((INR count * p)%R, 0%R).
Proof.
  intros HL H0 Hb Hp Hm. destruct (flip_is vf p g Hp Hm) as (Hc & Hcan & HF & Hi).
  pose proof (noise_mean 1 L (fun _ => None) _ _ [(flip_gate p, None)] ex_zero count (conj eq_refl (conj Hb HL)) H0 Hc Hcan HF Hi (fun phi => phi 1%N * Cconj (phi 1%N))%C) as H.
  assert (HQ : of_states 1 (fun phi => phi 1%N * Cconj (phi 1%N))%C) by (intros a b Hab; rewrite (Hab 1%N) by reflexivity; reflexivity). specialize (H HQ).
  replace ((INR count * p)%R, 0%R) with (Cscale (INR count) (one_sample (map fst [(flip_gate p, @None cond)]) ex_zero (fun phi => phi 1%N * Cconj (phi 1%N))%C)); [exact H|].
  unfold one_sample. cbn [map fst flip_gate chances expectation discrete length seq Csuml fold_right nth].
  assert (E1 : ended [flip_gate p] ex_zero [0] 1%N = C1).
  { unfold ended. cbn [follow way nth_error flip_gate act_of]. exact (proj2 (x_at ex_zero)). }
  assert (E2 : ended [flip_gate p] ex_zero [1] 1%N = C0).
  { unfold ended. cbn [follow way nth_error flip_gate act_of]. unfold apply_mat. cbn. apply Csuml_zero. intros. ring. }
  rewrite E1, E2. unfold discrete. cbn [map nth]. unfold Rsuml. cbn [fold_right]. replace (p + (1 - p + 0))%R with 1%R by ring. apply C_eq; cbn; field.
Qed.
