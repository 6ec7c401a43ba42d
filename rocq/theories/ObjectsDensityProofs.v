(** C66: the flag of a density matrix with two names. *)
From Verif Require Export ObjectsDensity DensitySpec.

Theorem flag_refuted n w v : 0 < n -> v <> Cconj (dp_raw w (1, 0)) ->
  runs (on_first (set_coherence_at n 0 1 v)) w (done (fun _ w' =>
    ~ hermitian (2 ^ n) (fun i j => dp_raw w' (i, j)) /\ dp_first w' = false /\ dp_second w' = dp_second w)).
Proof.
  intros Hn Hv. assert (H2 : 2 <= 2 ^ n) by (change 2 with (2 ^ 1) at 1; apply N.pow_le_mono_r; lia).
  assert (E : runs (set_coherence_at n 0 1 v) (DM (dp_raw w) (dp_first w)) (done (fun _ w' => d_raw w' (0, 1) = v /\ d_raw w' (1, 0) = dp_raw w (1, 0) /\ d_herm w' = false))).
  { unfold set_coherence_at. destruct (N.leb_spec (2 ^ n) 0); [lia|]. destruct (N.leb_spec (2 ^ n) 1); [lia|]. cbn [orb]. apply runs_modify. cbn. rewrite andb_false_r. auto. }
  destruct E as [E1 [o1 Ho1]]. split; [|eexists; exists o1; split; [exact Ho1|reflexivity]]. intros o (o' & Ho' & ->). specialize (E1 o' Ho'). destruct o' as [t w'|w'|]; cbn [done] in *; try contradiction.
  destruct E1 as (A1 & A2 & A3). cbn [dp_raw dp_first dp_second]. split; [|split; [exact A3|reflexivity]]. intros Hh. specialize (Hh 0 1 ltac:(lia) ltac:(lia)). unfold mat_adj in Hh. cbn in Hh. rewrite A1, A2 in Hh. congruence.
Qed.
