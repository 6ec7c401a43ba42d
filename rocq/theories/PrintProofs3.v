From Verif Require Export PrintProofs2.
From Verif Require Import OperatorSpec OperatorBatchedSpec BitsProofs GatesProofs3.
Require Import Lia.
Local Open Scope N_scope.
Local Open Scope list_scope.

Lemma small n : n < 64 -> n < two64.
Proof. change two64 with 18446744073709551616. lia. Qed.
Section Shown.
  Variable show : C -> text.
  Hypothesis Hshow : forall c, one_line (show c).
  Lemma state_says n (w : world) : n < 64 -> runs (state_to_string show n) w (done (fun t w' => w' = w /\ state_report show n (w_amp w) (lines t))).
  Proof.
    intros Hn. split; [|apply state_exists]. intros o Ho. destruct (state_outcome show Hshow n w o Hn Ho) as (t & -> & L). split; [reflexivity|]. rewrite L.
    exists (dec n), (dec (2 ^ n)), (fun x => binary x (N.to_nat n)). split; [apply decimal_dec; now apply small|]. split; [apply decimal_dec; now apply pow_u64|].
    split; [intros; apply binary_ok|reflexivity].
  Qed.
  Lemma state_tells n n' (w w' v v' : world) t : n < 64 -> n' < 64 -> state_to_string show n w (HDone t v) -> state_to_string show n' w' (HDone t v') ->
    n = n' /\ forall x, x < 2 ^ n -> show (w_amp w x) = show (w_amp w' x).
  Proof.
    intros H H' E E'. apply state_outcome in E; try assumption. apply state_outcome in E'; try assumption.
    destruct E as (u & Eu & Lu), E' as (u' & Eu' & Lu'). injection Eu as <- _. injection Eu' as <- _. rewrite Lu in Lu'. now apply state_inj in Lu'.
  Qed.
  Lemma states_say n B (w : world) : n < 64 -> B < two64 -> runs (states_to_string show n B) w (done (fun t w' => w' = w /\ states_report show n B (fun b x => w_amp w (at_row n b x)) (lines t))).
  Proof.
    intros Hn HB. split; [|apply states_exists]. intros o Ho. destruct (states_outcome show Hshow n B w o Hn HB Ho) as (t & -> & L). split; [reflexivity|]. rewrite L.
    exists (dec n), (dec (2 ^ n)), dec, (fun x => binary x (N.to_nat n)). split; [apply decimal_dec; now apply small|]. split; [apply decimal_dec; now apply pow_u64|].
    split; [intros b Hb; apply decimal_dec; lia|]. split; [intros; apply binary_ok|reflexivity].
  Qed.
  Lemma states_tell n n' B B' (w w' v v' : world) t : n < 64 -> n' < 64 -> B < two64 -> B' < two64 -> states_to_string show n B w (HDone t v) -> states_to_string show n' B' w' (HDone t v') ->
    n = n' /\ B = B' /\ forall b x, b < B -> x < 2 ^ n -> show (w_amp w (at_row n b x)) = show (w_amp w' (at_row n b x)).
  Proof.
    intros H H' HB HB' E E'. apply states_outcome in E; try assumption. apply states_outcome in E'; try assumption.
    destruct E as (u & Eu & Lu), E' as (u' & Eu' & Lu'). injection Eu as <- _. injection Eu' as <- _. rewrite Lu in Lu'. apply states_inj in Lu'; try assumption.
    destruct Lu' as (E1 & E2 & E3). subst n' B'. auto.
  Qed.
  Lemma density_says n (w : dmw) : n < 64 -> runs (dm_to_string show n) w (done (fun t w' => w' = w /\ density_report show n (d_herm w) (d_raw w) (lines t))).
  Proof.
    intros Hn. split; [|eexists; reflexivity]. intros o Ho. destruct (density_outcome show Hshow n w o Hn Ho) as (t & -> & L). split; [reflexivity|]. rewrite L.
    exists (dec n), (dec (2 ^ n)), (fun x => binary x (N.to_nat n)). split; [apply decimal_dec; now apply small|]. split; [apply decimal_dec; now apply pow_u64|].
    split; [intros; apply binary_ok|]. destruct (d_herm w); reflexivity.
  Qed.
  Lemma density_tells n n' (w w' v v' : dmw) t : n < 64 -> n' < 64 -> dm_to_string show n w (HDone t v) -> dm_to_string show n' w' (HDone t v') ->
    n = n' /\ d_herm w = d_herm w' /\ forall i j, i < 2 ^ n -> j < 2 ^ n -> show (d_raw w (i, j)) = show (d_raw w' (i, j)).
  Proof.
    intros H H' E E'. apply density_outcome in E; try assumption. apply density_outcome in E'; try assumption.
    destruct E as (u & Eu & Lu), E' as (u' & Eu' & Lu'). injection Eu as <- _. injection Eu' as <- _. rewrite Lu in Lu'. now apply density_inj in Lu'.
  Qed.
  Lemma term_rep p s : pauli_from_text s (p_coef p) = Ok p -> term_report show p (show (p_coef p) ++ [" "%char; quote] ++ s ++ [quote]).
  Proof. intros H. exists s. split; [exact H|reflexivity]. Qed.
  Lemma terms_report l : Forall pauli_u64 l -> Forall2 (term_report show) l (map (term_line show) l).
  Proof.
    induction 1 as [|p l Hp F IH]; [constructor|]. cbn [map]. constructor; [|exact IH]. unfold term_line. apply term_rep. exact (PauliTextProofs.text_round_trip p Hp).
  Qed.
  Lemma operator_says o : op_u64 o -> Forall2 (term_report show) (o_terms o) (lines (op_to_string show o)).
  Proof. intros H. rewrite (proj1 (op_text show Hshow o H)). now apply terms_report. Qed.
  Lemma operator_tells o o' : (forall c, ~ In quote (show c)) -> op_u64 o -> op_u64 o' -> op_to_string show o = op_to_string show o' ->
    Forall2 (fun p q => show (p_coef p) = show (p_coef q) /\ p_bf p = p_bf q /\ p_pf p = p_pf q) (o_terms o) (o_terms o').
  Proof. intros Hq H H' E. exact (op_shows show Hshow Hq o o' H H' E). Qed.
  Lemma batch_says ops : fits_vector ops -> Forall op_u64 ops -> exists t parts, ob_to_string show (batch_of ops) = Ok t /\ length parts = length ops /\
    lines t = flat_map (fun x => x) parts /\
    forall b o, nth_error ops b = Some o -> exists k r, nth_error parts b = Some ((to_text "Operator " ++ k ++ to_text ":") :: r) /\ decimal_of (N.of_nat b) k /\ Forall2 (term_report show) (o_terms o) r.
  Proof.
    intros Hf H. destruct (ob_text show Hshow ops Hf H) as (t & E & L). exists t. eexists (map _ (seqN (lenN ops))). split; [exact E|].
    split; [rewrite map_length, length_seqN; unfold lenN; apply Nat2N.id|]. split.
    - rewrite L. rewrite flat_map_concat_map. rewrite (flat_map_concat_map (fun x => x)), map_id. reflexivity.
    - intros b o Hb. assert (Hl : (b < length ops)%nat) by (apply nth_error_Some; congruence).
      exists (dec (N.of_nat b)), (map (term_line show) (o_terms o)). split; [|split].
      + erewrite map_nth_error.
        2:{ erewrite nth_error_nth' with (d := 0); [|rewrite length_seqN; unfold lenN; lia]. rewrite nth_seqN by (unfold lenN; lia). reflexivity. }
        cbv beta. rewrite Nat2N.id. rewrite (nth_error_nth (map o_terms ops) b [] (map_nth_error o_terms b ops Hb)). reflexivity.
      + apply decimal_dec. unfold fits_vector in Hf. lia.
      + apply terms_report. rewrite Forall_forall in H. apply (H o). now apply nth_error_In in Hb.
  Qed.
End Shown.
Section Gate.
  Variables (num : R -> text) (indent : text).
  Hypothesis Hnum : forall r, one_line (num r).
  Hypothesis Hi : one_line indent.
  Lemma info_report b : masks_ok b -> qubit_report indent b (info_lines indent b).
  Proof.
    intros (H1 & H2 & H3). exists (listed (mask_to_vector (g_t b))), (listed (mask_to_vector (g_c b))), (listed (mask_to_values (g_c b) (g_cv b))).
    split; [apply listed_ok; now apply vector_small|]. split; [apply listed_ok; now apply vector_small|]. split; [apply listed_ok; now apply values_small|reflexivity].
  Qed.
  Lemma gate_says g k : gate_kind g = Some k -> masks_ok (g_base g) -> exists t heading info,
    gate_to_string num indent g = Some t /\ lines t = heading ++ info /\ In (indent ++ to_text "Gate Type: " ++ to_text (fst k)) heading /\
    (forall a, In a (snd k) -> exists name, In (indent ++ to_text "  " ++ name ++ to_text ": " ++ num a) heading) /\ length heading = S (length (snd k)) /\ qubit_report indent (g_base g) info.
  Proof.
    intros H Hb. destruct (gate_text indent Hi num Hnum g k H Hb) as (t & E & L). exists t, (map (app indent) (head_lines num g)), (info_lines indent (g_base g)).
    split; [exact E|]. split; [exact L|]. split; [|split; [|split; [|now apply info_report]]].
    - apply in_map_iff. exists (to_text "Gate Type: " ++ to_text (fst k)). split; [reflexivity|].
      destruct g; try discriminate H; try match goal with y : std1 |- _ => destruct y end; injection H as <-; cbn [head_lines fst In]; unfold label, lit; tauto.
    - intros a Ha. assert (K : exists name, In (angle num name a) (head_lines num g)).
      { destruct g; try discriminate H; try match goal with y : std1 |- _ => destruct y end; injection H as <-; cbn [snd In] in Ha; repeat (destruct Ha as [<-|Ha]; [eexists; cbn [head_lines In]; tauto|]); destruct Ha. }
      destruct K as (name & K). exists (to_text name). apply (in_map (app indent)) in K. exact K.
    - rewrite map_length. destruct g; try discriminate H; try match goal with y : std1 |- _ => destruct y end; injection H as <-; reflexivity.
  Qed.
  Lemma measurement_says t bit reset : t < two64 -> bit < two64 -> exists k info, decimal_of bit k /\ qubit_report indent (GBase t 0 0) info /\
    lines (measurement_to_string indent t bit reset) =
      [indent ++ to_text "Gate Type: Measurement"; indent ++ to_text "  Classical Bit Index: " ++ k; indent ++ to_text "  Reset: " ++ to_text (if reset then "true" else "false")] ++ info.
  Proof.
    intros Ht Hb. exists (dec bit), (info_lines indent (GBase t 0 0)). split; [now apply decimal_dec|]. split; [apply info_report; now repeat split|].
    rewrite measurement_text by assumption. destruct reset; reflexivity.
  Qed.
End Gate.
