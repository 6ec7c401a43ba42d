(** Calls and gate objects on other qubits. *)
From Coq Require Import Permutation FunctionalExtensionality.
From Verif Require Import PlaceProofs PlaceSpec DensityProofs7 PauliProofs GradientProofs GatesProofs3 GatesProofs5 GatesProofs6 GatesProofs7 GatesProofs8 GatesProofs9 CircuitProofs CircuitProofs3.

Section Calls.
  Variables (n : N) (qs : list N).
  Hypothesis Hfit : fits_into n qs.
  Hypothesis Hn : n < 64.
  Let m := N.of_nat (length qs).

  Lemma move_values cs vs : with_values (map (spot qs) cs) vs = map (fun c => (spot qs (fst c), snd c)) (with_values cs vs).
  Proof.
    unfold with_values. rewrite map_length. generalize (map (fun v => v =? 1) (match vs with [] => repeat 1 (length cs) | _ :: _ => vs end)).
    induction cs as [|c cs IH]; intros l; cbn [map combine]; [reflexivity|]. destruct l; cbn [map combine fst snd]; [reflexivity|]. now rewrite IH.
  Qed.
  Lemma move_controls k : call_controls (move qs k) = map (fun c => (spot qs (fst c), snd c)) (call_controls k).
  Proof. destruct k; cbn [move call_controls map fst snd]; try apply move_values; reflexivity. Qed.
  Lemma operands_split k : Forall (fun q => q < m) (call_operands k) ->
    Forall (fun q => q < m) (call_targets k) /\ Forall (fun c => fst c < m) (call_controls k).
  Proof. unfold call_operands. rewrite Forall_app, Forall_map. auto. Qed.
  Lemma move_operands k : may_move qs k -> forall q, In q (call_operands (move qs k)) <-> exists i, In i (call_operands k) /\ q = spot qs i.
  Proof.
    intros [HF Hp] q. unfold call_operands. rewrite move_controls, map_map, in_app_iff. cbn [fst].
    assert (Ht : In q (call_targets (move qs k)) <-> exists i, In i (call_targets k) /\ q = spot qs i).
    { apply operands_split in HF as [HF _].
      assert (Hmap : forall l, In q (map (spot qs) l) <-> exists i, In i l /\ q = spot qs i).
      { intros l. rewrite in_map_iff. split; intros (i & A & B); exists i; auto. }
      destruct k; cbn [move call_targets] in *; try (rewrite <- (Hmap _); reflexivity).
      - rewrite <- Hmap. rewrite (map_ext_in _ (fun i => i)); [now rewrite map_id|]. intros i Hi. apply Hp. now apply in_seqN.
      - rewrite in_bits. unfold move_pauli. cbn [p_bf p_pf]. rewrite N.lor_spec, orb_true_iff.
        assert (Hb : p_bf p < 2 ^ m) by (apply mask_fits; intros i E; rewrite Forall_forall in HF; apply HF, in_bits; rewrite N.lor_spec, E; reflexivity).
        assert (Hq : p_pf p < 2 ^ m) by (apply mask_fits; intros i E; rewrite Forall_forall in HF; apply HF, in_bits; rewrite N.lor_spec, E; apply orb_true_r).
        rewrite !(scatter_mask n qs Hfit) by assumption. split.
        + intros [(j & E & ->)|(j & E & ->)]; exists j; (split; [apply in_bits; rewrite N.lor_spec, E|reflexivity]); [reflexivity|apply orb_true_r].
        + intros (j & E & ->). apply in_bits in E. rewrite N.lor_spec, orb_true_iff in E. destruct E as [E|E]; eauto.
      - rewrite in_bits. unfold move_pauli. cbn [p_bf p_pf]. rewrite N.lor_spec, orb_true_iff.
        assert (Hb : p_bf p < 2 ^ m) by (apply mask_fits; intros i E; rewrite Forall_forall in HF; apply HF, in_bits; rewrite N.lor_spec, E; reflexivity).
        assert (Hq : p_pf p < 2 ^ m) by (apply mask_fits; intros i E; rewrite Forall_forall in HF; apply HF, in_bits; rewrite N.lor_spec, E; apply orb_true_r).
        rewrite !(scatter_mask n qs Hfit) by assumption. split.
        + intros [(j & E & ->)|(j & E & ->)]; exists j; (split; [apply in_bits; rewrite N.lor_spec, E|reflexivity]); [reflexivity|apply orb_true_r].
        + intros (j & E & ->). apply in_bits in E. rewrite N.lor_spec, orb_true_iff in E. destruct E as [E|E]; eauto. }
    rewrite Ht, in_map_iff. split.
    - intros [(i & A & B)|([i v] & A & B)]; [exists i; rewrite in_app_iff; auto|]. exists i. rewrite in_app_iff. cbn [fst] in A. split; [right|now symmetry].
      apply in_map_iff. now exists (i, v).
    - intros (i & A & ->). apply in_app_iff in A as [A|A]; [left; eauto|]. right. apply in_map_iff in A as ([i' v] & <- & A). exists (i', v). auto.
  Qed.
  Lemma move_lt k : may_move qs k -> Forall (fun q => q < n) (call_operands (move qs k)).
  Proof.
    intros H. apply Forall_forall. intros q Hq. apply (move_operands k H) in Hq as (i & Hi & ->). apply (spot_lt n qs Hfit).
    destruct H as [H _]. rewrite Forall_forall in H. auto.
  Qed.
  Lemma scatter_two64 bf : scatter qs bf 0 < two64.
  Proof.
    apply N.lt_le_trans with (2 ^ n).
    - apply scatter_lt; [apply Hfit|apply Hfit|apply pow2_pos].
    - change two64 with (2 ^ 64). apply N.pow_le_mono_r; lia.
  Qed.
  Lemma move_typed k : call_typed k -> call_typed (move qs k).
  Proof.
    destruct k; cbn [move call_typed move_pauli p_bf p_pf]; auto; try (intros _; split; apply scatter_two64).
    now rewrite map_length.
  Qed.
  (** The moved call on the large register does to every slice what the call does on the small one. *)
  Lemma call_move k chi x : may_move qs k ->
    apply_mat (call_targets (move qs k)) (call_controls (move qs k)) (call_matrix (move qs k)) chi x =
    apply_mat (call_targets k) (call_controls k) (call_matrix k) (slice qs chi x) (gather qs x).
  Proof.
    intros [HF Hp]. rewrite move_controls. apply operands_split in HF as [Ht Hc].
    destruct k; try (rewrite <- (apply_mat_move n qs Hfit) by assumption; reflexivity).
    - cbn [move call_targets call_matrix] in *. assert (E : seqN (N.of_nat (length dst)) = map (spot qs) (seqN (N.of_nat (length dst)))).
      { rewrite (map_ext_in _ (fun i => i)); [now rewrite map_id|]. intros i Hi. apply Hp. now apply in_seqN. }
      rewrite <- (apply_mat_move n qs Hfit) by assumption. now rewrite <- E.
    - apply (pauli_move n qs Hfit p _ (p_coef p)); [|assumption]. intros i Hi. rewrite Forall_forall in Ht. apply Ht. now apply in_bits.
    - apply (rot_move n qs Hfit p _ (Cscale (angle / 2)%R (p_coef p))); [|assumption]. intros i Hi. rewrite Forall_forall in Ht. apply Ht. now apply in_bits.
  Qed.
  (** It can be made. *)
  Lemma valid_move ts cs vs : Forall (fun q => q < m) ts -> Forall (fun q => q < m) cs ->
    valid_controls ts cs vs -> valid_controls (map (spot qs) ts) (map (spot qs) cs) vs.
  Proof.
    intros Ht Hc (H1 & H2 & H3 & H4). assert (HF : Forall (fun q => q < m) (ts ++ cs)) by now apply Forall_app.
    unfold valid_controls. rewrite <- map_app, map_length. split; [|split; [|auto]].
    - apply Prelude.NoDup_map_inj; [|exact H1]. intros a b Ha Hb E. rewrite Forall_forall in HF. apply (spot_inj n qs Hfit); auto.
    - apply Forall_map. eapply Forall_impl; [|exact HF]. intros q Hq. cbv beta in *. pose proof (spot_lt n qs Hfit q Hq). lia.
  Qed.
  Lemma values_fst cs vs : vs = [] \/ length vs = length cs -> map fst (with_values cs vs) = cs.
  Proof.
    intros H. unfold with_values. set (l := map (fun v => v =? 1) _). assert (Hl : length l = length cs).
    { unfold l. rewrite map_length. destruct H as [-> |H]; [apply repeat_length|]. destruct vs; [cbn [length] in H; rewrite repeat_length; reflexivity|exact H]. }
    clearbody l. clear H. revert l Hl. induction cs as [|c cs IH]; intros [|b l] Hl; try discriminate; cbn [combine map fst]; [reflexivity|]. rewrite IH; auto.
  Qed.
  Lemma valid_perm ts ts' cs vs : Permutation ts ts' -> valid_controls ts cs vs -> valid_controls ts' cs vs.
  Proof.
    intros HP (H1 & H2 & H3). assert (Permutation (ts ++ cs) (ts' ++ cs)) by now apply Permutation_app_tail.
    split; [eapply Permutation_NoDup; eassumption|]. split; [|exact H3]. eapply Permutation_Forall; eassumption.
  Qed.
  Lemma bits_move p : (forall i, N.testbit (N.lor (p_bf p) (p_pf p)) i = true -> i < m) ->
    Permutation (map (spot qs) (bits (N.lor (p_bf p) (p_pf p)))) (bits (N.lor (p_bf (move_pauli qs p)) (p_pf (move_pauli qs p)))).
  Proof.
    intros H. apply NoDup_Permutation; [|apply bits_NoDup|].
    - apply Prelude.NoDup_map_inj; [|apply bits_NoDup]. intros a b Ha Hb E. apply in_bits in Ha, Hb. apply (spot_inj n qs Hfit); auto.
    - intros q. assert (Hm : may_move qs (CallPauli p [] [])).
      { split; [|exact I]. cbn [call_operands call_targets call_controls]. unfold call_operands. cbn [call_targets call_controls with_values combine map]. rewrite app_nil_r.
        apply Forall_forall. intros i Hi. apply H. now apply in_bits. }
      pose proof (move_operands _ Hm q) as E. unfold call_operands in E. cbn [move call_targets call_controls with_values combine map] in E.
      rewrite !app_nil_r in E. rewrite E, in_map_iff. split; intros (i & A & B); exists i; auto.
  Qed.
  Lemma move_valid k : may_move qs k -> call_valid k -> call_valid (move qs k).
  Proof.
    intros [HF Hp] Hv. apply operands_split in HF as [Ht Hc].
    assert (Hcs : forall ts cs vs, valid_controls ts cs vs -> Forall (fun c => fst c < m) (with_values cs vs) -> Forall (fun q => q < m) cs).
    { intros ts cs vs (_ & _ & Hl & _) H. rewrite <- (values_fst cs vs Hl). now apply Forall_map. }
    destruct k; cbn [move call_valid call_targets call_controls] in *; auto.
    - exact (valid_move [] _ _ ltac:(constructor) (Hcs _ _ _ Hv Hc) Hv).
    - exact (valid_move [target] _ _ Ht (Hcs _ _ _ Hv Hc) Hv).
    - apply (valid_move [target] [control] [] Ht); [|exact Hv]. inversion Hc; subst. repeat constructor; assumption.
    - apply (valid_move [target] [control] [] Ht); [|exact Hv]. inversion Hc; subst. repeat constructor; assumption.
    - apply (valid_move [target] [control1; control2] [] Ht); [|exact Hv]. inversion Hc as [|? ? Ha Hb]; subst. inversion Hb; subst. repeat constructor; assumption.
    - exact (valid_move [target1; target2] _ _ Ht (Hcs _ _ _ Hv Hc) Hv).
    - exact (valid_move [physical_control; physical_target] _ _ Ht (Hcs _ _ _ Hv Hc) Hv).
    - eapply valid_perm; [apply bits_move|exact (valid_move _ _ _ Ht (Hcs _ _ _ Hv Hc) Hv)]. intros i Hi. rewrite Forall_forall in Ht. apply Ht. now apply in_bits.
    - eapply valid_perm; [apply bits_move|exact (valid_move _ _ _ Ht (Hcs _ _ _ Hv Hc) Hv)]. intros i Hi. rewrite Forall_forall in Ht. apply Ht. now apply in_bits.
    - destruct Hv as [Hv Hl]. rewrite map_length. split; [|exact Hl]. exact (valid_move _ _ _ Ht (Hcs _ _ _ Hv Hc) Hv).
    - destruct Hv as [Hv Hl]. rewrite map_length. split; [|exact Hl]. exact (valid_move _ _ _ Ht (Hcs _ _ _ Hv Hc) Hv).
  Qed.
  Lemma move_made vf k : may_move qs k -> call_valid k -> exists g, make vf (move qs k) = Ok g.
  Proof.
    intros Hm Hv. apply make_complete; [|now apply move_valid]. destruct k; cbn [move call_data move_pauli p_bf p_pf]; auto; split; apply scatter_two64.
  Qed.

  (** ** Gate objects *)
  Record slicewise (a a' : list N) (f f' : state -> state) : Prop := {
    sw_lt : Forall (fun q => q < m) a;
    sw_ops : forall q, In q a' <-> exists i, In i a /\ q = spot qs i;
    sw_move : forall chi x, f' chi x = f (slice qs chi x) (gather qs x);
    sw_local : forall psi psi', (forall y, y < 2 ^ m -> psi y = psi' y) -> forall y, y < 2 ^ m -> f psi y = f psi' y;
    sw_scale : forall psi c y, f (fun z => (psi z * c)%C) y = (f psi y * c)%C }.
  Lemma m_small : m < 64.
  Proof. pose proof (rest_length n qs (proj1 Hfit) (proj2 Hfit)). unfold m. lia. Qed.
  Lemma apply_mat_times ts cs M psi c x : apply_mat ts cs M (fun z => (psi z * c)%C) x = (apply_mat ts cs M psi x * c)%C.
  Proof.
    rewrite (apply_mat_ext _ _ _ _ (fun z => (c * psi z)%C)) by (intros; ring). rewrite apply_mat_scale. ring.
  Qed.
  Lemma gate_sem_local k g psi psi' : gate_wf g -> gate_fits k g -> (forall y, y < 2 ^ k -> psi y = psi' y) -> forall y, y < 2 ^ k -> gate_sem g psi y = gate_sem g psi' y.
  Proof. intros Hw Hf H y Hy. pose proof (gate_ops_wf k g Hw Hf) as Ho. unfold gate_sem. now apply (apply_mat_local k). Qed.
  Lemma slice_slice chi x y : y < 2 ^ m -> slice qs chi (scatter qs y x) = slice qs chi x.
  Proof. intros _. extensionality z. unfold slice. now rewrite scatter_scatter by apply Hfit. Qed.
  Lemma gate_moved g g' a f : moved_gate qs g g' -> acts g (Act a f) -> exists a' f', acts g' (Act a' f') /\ slicewise a a' f f'.
  Proof.
    intros Hm Ha. destruct (acts_spec _ _ Ha) as (a0 & f0 & E & Hw & Hops & Hsem). injection E as <- <-.
    pose proof m_small as Hms.
    destruct Hm as [vf vf' k g g' Hty Hmv Hg Hg'|vf vf' k g g' h h' Hty Hmv Hinv Hg Hg' Hh Hh'].
    - destruct (acts_spec _ _ (acts_factory vf k g Hty Hg)) as (ak & fk & E & _ & Hopk & Hsemk). injection E as <- <-.
      assert (Hset : forall i, In i a <-> In i (call_operands k)) by (intros i; now rewrite <- Hops, Hopk).
      assert (Hlt : Forall (fun q => q < m) a).
      { destruct Hmv as [HF _]. rewrite Forall_forall in *. intros q Hq. apply HF. now apply Hset. }
      destruct (Hsem m Hms Hlt) as [Hfits Hf]. destruct (Hsemk m Hms (proj1 Hmv)) as [_ Hfk].
      exists (call_operands (move qs k)), (apply_mat (call_targets (move qs k)) (call_controls (move qs k)) (call_matrix (move qs k))).
      split; [exact (acts_factory vf' _ g' (move_typed k Hty) Hg')|]. constructor.
      + exact Hlt.
      + intros q. rewrite (move_operands k Hmv). split; intros (i & A & B); exists i; (split; [now apply Hset|exact B]).
      + intros chi x. rewrite call_move, Hf by assumption. apply Hfk.
      + intros psi psi' H y Hy. rewrite !Hf. now apply (gate_sem_local m).
      + intros psi c y. rewrite !Hf. apply apply_mat_times.
    - destruct (acts_spec _ _ (acts_factory vf k g Hty Hg)) as (ak & fk & E & Hwk & Hopk & Hsemk). injection E as <- <-.
      destruct (acts_spec _ _ (acts_factory vf' _ g' (move_typed k Hty) Hg')) as (ak' & fk' & E & Hwk' & Hopk' & Hsemk'). injection E as <- <-.
      destruct (inverse_wf g h Hwk Hh) as [Hwh Hbh].
      assert (Hset : forall i, In i a <-> In i (call_operands k)) by (intros i; now rewrite <- Hops, Hbh, Hopk).
      assert (Hlt : Forall (fun q => q < m) a).
      { destruct Hmv as [HF _]. rewrite Forall_forall in *. intros q Hq. apply HF. now apply Hset. }
      destruct (Hsem m Hms Hlt) as [Hfits Hf]. destruct (Hsemk m Hms (proj1 Hmv)) as [Hfitk Hfk].
      destruct (Hsemk' n Hn (move_lt k Hmv)) as [Hfitk' Hfk'].
      assert (Hinv' : call_invertible (move qs k)) by (destruct k; cbn [move call_invertible move_pauli p_coef] in *; auto; now rewrite map_length).
      pose proof (make_inverse_ok vf k g Hg Hinv) as Hok. pose proof (make_inverse_ok vf' _ g' Hg' Hinv') as Hok'.
      assert (Hi : forall psi x, gate_sem h (gate_sem g psi) x = psi x /\ gate_sem g (gate_sem h psi) x = psi x) by (intros; now apply (gate_sem_inverse m)).
      assert (Hi' : forall psi x, gate_sem h' (gate_sem g' psi) x = psi x /\ gate_sem g' (gate_sem h' psi) x = psi x) by (intros; now apply (gate_sem_inverse n)).
      assert (Ek : apply_mat (call_targets (move qs k)) (call_controls (move qs k)) (call_matrix (move qs k)) = gate_sem g') by (extensionality psi; extensionality x; apply Hfk').
      exists (call_operands (move qs k)), (gate_sem h'). split; [|constructor].
      + eapply acts_inverse; [apply (move_typed k Hty)|exact Hg'|exact Hinv'|exact Hh'| |]; intros psi x; rewrite Ek; apply Hi'.
      + exact Hlt.
      + intros q. rewrite (move_operands k Hmv). split; intros (i & A & B); exists i; (split; [now apply Hset|exact B]).
      + intros chi. set (chi' := fun x => f (slice qs chi x) (gather qs x)).
        enough (E : gate_sem g' chi' = chi).
        { intros x. change (f (slice qs chi x) (gather qs x)) with (chi' x). rewrite <- E at 1. apply Hi'. }
        extensionality x. rewrite <- Hfk', call_move, Hfk by assumption.
        transitivity (gate_sem g (gate_sem h (slice qs chi x)) (gather qs x)).
        * apply (gate_sem_local m); try assumption; [|apply gather_lt]. intros y Hy. unfold slice at 1, chi'. rewrite slice_slice by assumption.
          rewrite gather_scatter by (apply Hfit || exact Hy). apply Hf.
        * rewrite (proj2 (Hi _ _)). unfold slice. now rewrite scatter_gather by apply Hfit.
      + intros psi psi' H y Hy. rewrite !Hf. now apply (gate_sem_local m).
      + intros psi c y. rewrite !Hf. apply apply_mat_times.
  Qed.
End Calls.
