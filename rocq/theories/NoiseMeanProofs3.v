(** simulate_noise draws independent samples. *)
From Verif Require Import NoiseProofs NoiseProofs2 NoiseProofs3 NoiseProofs5 NoiseMeanProofs NoiseMeanProofs2.
From Verif Require Import NoiseMeanSpec.
From Coq Require Import FunctionalExtensionality Lia Lra.
Local Open Scope nat_scope.

Section Circuit.
  Context (n L : N) (ps : string -> option R) (c : circuit) (p : program) (gs : list (sgate * option cond)) (psi : state) (count : nat).
  Context (Hs : sizes_ok n (N.of_nat count) L) (Hcount : 0 < count) (Hc : circuit_is c p) (Hcan : Forall can_simulate (c_gates c))
    (HF : Forall (fun q => (q < n)%N) (program_operands p)) (Hi : instantiate ps p = Some gs).
  Let sgs := map fst gs.

  Lemma chances_one : Forall (fun d => Rsuml (fun p => p) d = 1%R) (map chances sgs).
  Proof.
    destruct (circuit_laws ps c p gs count Hc Hcan Hi) as [_ Hok]. apply Forall_forall. intros d Hd. apply in_map_iff in Hd. destruct Hd as (g & <- & Hg).
    rewrite Forall_forall in Hok. exact (proj1 (proj2 (Hok g Hg))).
  Qed.
  Theorem noise_independent H : of_collections n H ->
    noise_expects n L ps c psi count (fun result => H (listed result))
      (independently count (expectation (map chances sgs)) (fun paths => H (map (ended sgs psi) paths))).
  Proof.
    intros [HP HE]. unfold noise_expects. destruct (circuit_laws ps c p gs count Hc Hcan Hi) as [El Hok]. rewrite El.
    set (laws := flat_map (fun g => repeat (chances g) count) (map fst gs)).
    exists (fun js => H (map (ended sgs psi) (samples_of (entries_after sgs [([], psi, count)] (fun k => nth k js 0))))). split.
    - intros draws w Hd. assert (Hfit : draws_fit (map fst gs) count draws).
      { intros t g i Ht Hii. specialize (Hd _ _ (nth_laws count _ t g i Ht Hii)). rewrite Forall_forall in Hok. rewrite (proj1 (Hok g (nth_error_In _ _ Ht))) in Hd. exact Hd. }
      eapply runs_weaken; [apply (noise_listed n L ps c p gs psi count draws w); assumption|]. intros [r w'|w'|]; cbn [done]; auto. intros Ha.
      rewrite (HE _ _ Ha). f_equal. f_equal. f_equal. assert (Hsum : sum (map e_cnt [([], psi, count)]) = count) by (unfold e_cnt; simpl; lia).
      assert (Hlen : length laws = length (map fst gs) * count).
      { unfold laws. clear. induction (map fst gs) as [|g l IH]; simpl; [reflexivity|]. now rewrite app_length, repeat_length, IH. }
      apply entries_ext; rewrite Hsum.
      + intros k Hk. fold sgs in Hlen. symmetry. rewrite (nth_indep _ 0 (draws 0)) by (rewrite map_length, seq_length; lia). rewrite map_nth, seq_nth by lia. reflexivity.
      + exact Hfit.
    - rewrite <- spread_start, <- stages_spread. change (repeat [] count) with (repeat (e_path ([], psi, count)) (e_cnt ([], psi, count))).
      rewrite <- (app_nil_r (repeat _ _)). change (repeat (e_path ([], psi, count)) (e_cnt ([], psi, count)) ++ []) with (samples_of [([], psi, count)]).
      apply (entries_stages count (fun S => H (map (ended sgs psi) S))).
      + intros S S' Hp. apply HP. now apply Permutation_map.
      + eapply Forall_impl; [|exact Hok]. intros g Hg. exact (proj1 Hg).
      + unfold e_cnt. simpl. lia.
  Qed.

  Lemma expects_as f g v v' : (forall result, f result = g result) -> v = v' -> noise_expects n L ps c psi count f v -> noise_expects n L ps c psi count g v'.
  Proof.
    intros Hfg <- (V & H1 & H2). exists V. split; [|exact H2]. intros draws w Hd. eapply runs_weaken; [apply (H1 draws w Hd)|].
    intros [r w'|w'|]; cbn [done]; auto. now rewrite Hfg.
  Qed.
  Lemma tally_listed Q result : tally Q result = Csuml Q (listed result).
  Proof.
    unfold tally, listed. induction result as [|[phi m] result IH]; [reflexivity|]. cbn [flat_map fst snd]. rewrite Csuml_app, <- IH.
    cbn [Csuml fold_right fst snd]. f_equal. induction m as [|m IHm]; cbn [repeat Csuml fold_right]; [simpl; Csolve|]. unfold Csuml in IHm. rewrite <- IHm, S_INR. Csolve.
  Qed.
  Lemma sum_of Q : of_states n Q -> forall l l', Forall2 (fun a b => forall x, (x < 2 ^ n)%N -> a x = b x) l l' -> Csuml Q l = Csuml Q l'.
  Proof. intros HQ. induction 1 as [|a b l l' Hab H IH]; [reflexivity|]. cbn [Csuml fold_right]. f_equal; [now apply HQ|exact IH]. Qed.
  Lemma sum_map Q paths : Csuml Q (map (ended sgs psi) paths) = Csuml (fun path => Q (ended sgs psi path)) paths.
  Proof. apply Csuml_map. Qed.

  Theorem noise_mean Q : of_states n Q -> noise_expects n L ps c psi count (tally Q) (Cscale (INR count) (one_sample sgs psi Q)).
  Proof.
    intros HQ. eapply (expects_as (fun result => Csuml Q (listed result))); [intros r; symmetry; apply tally_listed| |apply noise_independent].
    - unfold one_sample. rewrite <- (ind_sum _ chances_one). f_equal. apply functional_extensionality. intros paths. apply sum_map.
    - split; [intros l l' Hp; now apply Csuml_perm|now apply sum_of].
  Qed.
  Theorem noise_product Q Q' : of_states n Q -> of_states n Q' -> noise_expects n L ps c psi count (fun result => tally Q result * tally Q' result)%C
    (Cscale (INR count) (one_sample sgs psi (fun phi => Q phi * Q' phi)%C) + Cscale (INR count * (INR count - 1)) (one_sample sgs psi Q * one_sample sgs psi Q'))%C.
  Proof.
    intros HQ HQ'. eapply (expects_as (fun result => Csuml Q (listed result) * Csuml Q' (listed result))%C); [intros r; rewrite <- !tally_listed; reflexivity| |apply (noise_independent (fun l => Csuml Q l * Csuml Q' l)%C)].
    - unfold one_sample. rewrite <- (ind_product _ chances_one). f_equal. apply functional_extensionality. intros paths. rewrite !sum_map. reflexivity.
    - split; [intros l l' Hp; f_equal; now apply Csuml_perm|intros l l' Hl; f_equal; [now apply (sum_of Q HQ)|now apply (sum_of Q' HQ')]].
  Qed.
End Circuit.

Lemma expects_unique n L ps c psi count f v v' : noise_expects n L ps c psi count f v -> noise_expects n L ps c psi count f v' -> v = v'.
Proof.
  intros (V & H1 & <-) (V' & H1' & <-). apply exp_ext. intros js Hjs.
  assert (Hd : forall k d, nth_error (noise_laws c count) k = Some d -> nth k js 0 < length d).
  { clear - Hjs. induction Hjs as [|d j laws js Hj H IH]; intros [|k] d' Hk; simpl in Hk; try discriminate; [injection Hk as <-; exact Hj|exact (IH k d' Hk)]. }
  assert (El : map (fun k => nth k js 0) (seq 0 (length (noise_laws c count))) = js) by (rewrite <- (fits_length _ _ Hjs); apply map_nth_seq).
  set (w := with_states 0 psi (BWorld psi (BReg [] 0%N) (fun _ => 0%R))).
  specialize (H1 (fun k => nth k js 0) w Hd). specialize (H1' (fun k => nth k js 0) w Hd). rewrite El in H1, H1'.
  destruct H1 as [Ha (o & Ho)]. destruct H1' as [Ha' _]. specialize (Ha o Ho). specialize (Ha' o Ho). destruct o as [r w'|w'|]; cbn [done] in *; try contradiction. congruence.
Qed.
