From Verif Require Export PrintSpec.
From Verif Require Import TextProofs PauliTextProofs BitsProofs OperatorSpec JsonProofs OperatorBatchedSpec OperatorBatchedProofs2 GatesProofs3.
Require Import Lia.
Local Open Scope N_scope.
Local Open Scope list_scope.

(** * Lines *)
Lemma lines_line a r : one_line a -> lines (line a ++ r) = a :: lines r.
Proof.
  unfold line. rewrite <- app_assoc. cbn [app]. induction a as [|c a IH]; intros H.
  - cbn [app lines]. rewrite Ascii.eqb_refl. reflexivity.
  - cbn [app lines]. destruct (Ascii.eqb_spec c newline) as [->|_]; [exfalso; apply H; now left|].
    rewrite IH by (intros K; apply H; now right). reflexivity.
Qed.
Lemma lines_last a : a <> [] -> one_line a -> lines a = [a].
Proof.
  induction a as [|c a IH]; intros Hn H; [congruence|]. cbn [lines].
  destruct (Ascii.eqb_spec c newline) as [->|_]; [exfalso; apply H; now left|].
  destruct a as [|d a]; [reflexivity|]. rewrite IH; [reflexivity|discriminate|intros K; apply H; now right].
Qed.
Lemma lines_flat {A} (f : A -> text) l : (forall a, In a l -> one_line (f a)) -> forall r, lines (flat_map (fun a => line (f a)) l ++ r) = map f l ++ lines r.
Proof.
  induction l as [|a l IH]; intros H r; [reflexivity|]. cbn [flat_map map]. rewrite <- app_assoc, lines_line by (apply H; now left).
  cbn [app]. f_equal. apply IH. intros; apply H; now right.
Qed.
Lemma lines_blocks {A} (f : A -> text) (g : A -> list text) l : (forall a r, In a l -> lines (f a ++ r) = g a ++ lines r) ->
  forall r, lines (flat_map f l ++ r) = flat_map g l ++ lines r.
Proof.
  induction l as [|a l IH]; intros H r; [reflexivity|]. cbn [flat_map]. rewrite <- !app_assoc, H by now left. f_equal. apply IH. intros; apply H; now right.
Qed.
Lemma one_app a b : one_line a -> one_line b -> one_line (a ++ b).
Proof. unfold one_line. rewrite in_app_iff. tauto. Qed.
Lemma one_cons c a : c <> newline -> one_line a -> one_line (c :: a).
Proof. unfold one_line. cbn [In]. intuition. Qed.
Lemma one_nil : one_line [].
Proof. intros []. Qed.
Lemma digit_other c : is_digit c = true -> c <> newline.
Proof. intros H ->. discriminate. Qed.
Lemma one_dec n : n < two64 -> one_line (dec n).
Proof. intros H K. destruct (dec_spec n H) as (_ & F & _). rewrite Forall_forall in F. now apply (digit_other newline (F _ K)). Qed.
Ltac literal := repeat (apply one_cons; [discriminate|]); exact one_nil.

(** * Binary and decimal numbers *)
Lemma bit_char n k : ascii_of_N (N.land (N.shiftr n k) 1 + 48) = if N.testbit n k then "1"%char else "0"%char.
Proof.
  change 1 with (N.ones 1) at 1. rewrite N.land_ones. change (2 ^ 1) with 2. rewrite <- N.bit0_mod, N.shiftr_spec by apply N.le_0_l.
  rewrite N.add_0_l. destruct (N.testbit n k); reflexivity.
Qed.
Lemma binary_length x k : length (binary x k) = k.
Proof. induction k; cbn [binary length]; congruence. Qed.
Lemma binary_nth x len : forall k, (k < len)%nat -> nth (len - 1 - k) (binary x len) newline = if N.testbit x (N.of_nat k) then "1"%char else "0"%char.
Proof.
  induction len as [|len IH]; intros k Hk; [lia|]. cbn [binary]. rewrite bit_char.
  destruct (Nat.eq_dec k len) as [->|Hn].
  - replace (S len - 1 - len)%nat with O by lia. reflexivity.
  - replace (S len - 1 - k)%nat with (S (len - 1 - k)) by lia. cbn [nth]. apply IH. lia.
Qed.
Lemma binary_ok n x : binary_of n x (binary x (N.to_nat n)).
Proof.
  split; [apply binary_length|]. intros k Hk. replace (N.to_nat (n - 1 - k)) with (N.to_nat n - 1 - N.to_nat k)%nat by lia.
  rewrite binary_nth by lia. now rewrite N2Nat.id.
Qed.
Lemma one_binary x k : one_line (binary x k).
Proof. induction k; [exact one_nil|]. cbn [binary]. rewrite bit_char. apply one_cons; [|assumption]. destruct (N.testbit _ _); discriminate. Qed.
Lemma decimal_dec n : n < two64 -> decimal_of n (dec n).
Proof. intros H. exact (dec_spec n H). Qed.
Lemma dec_inj a b : a < two64 -> b < two64 -> dec a = dec b -> a = b.
Proof. intros Ha Hb E. destruct (dec_spec a Ha) as (_ & _ & <-), (dec_spec b Hb) as (_ & _ & <-). now rewrite E. Qed.
Lemma pow_u64 n : n < 64 -> 2 ^ n < two64.
Proof. intros H. change two64 with (2 ^ 64). apply N.pow_lt_mono_r; lia. Qed.

Lemma flat_ext {A B} (f g : A -> list B) l : (forall a, In a l -> f a = g a) -> flat_map f l = flat_map g l.
Proof. induction l as [|a l IH]; intros H; [reflexivity|]. cbn [flat_map]. rewrite H by now left. f_equal. apply IH. intros; apply H; now right. Qed.
Lemma app_split {A} (a b c d : list A) : length a = length c -> a ++ b = c ++ d -> a = c /\ b = d.
Proof. revert c. induction a as [|x a IH]; intros [|y c] L E; try discriminate; [auto|]. injection E as -> E. injection L as L. destruct (IH c L E) as [-> ->]. auto. Qed.
Lemma flat_inj {A B} (f g : A -> list B) l : (forall a, In a l -> length (f a) = length (g a)) -> flat_map f l = flat_map g l -> forall a, In a l -> f a = g a.
Proof.
  induction l as [|b l IH]; intros L E a Ha; [destruct Ha|]. cbn [flat_map] in E. apply app_split in E; [|apply L; now left]. destruct E as [E1 E2].
  destruct Ha as [->|Ha]; [exact E1|]. apply IH; [intros; apply L; now right|exact E2|exact Ha].
Qed.
Lemma map_inj {A B} (f g : A -> B) l : map f l = map g l -> forall a, In a l -> f a = g a.
Proof. induction l as [|b l IH]; intros E a Ha; [destruct Ha|]. injection E as E1 E2. destruct Ha as [->|Ha]; auto. Qed.
(** * States *)
Section Amplitudes.
  Variable show : C -> text.
  Hypothesis Hshow : forall c, one_line (show c).
  Definition amp_line (n : N) (psi : N -> C) (x : N) : text := lit "  " ++ binary x (N.to_nat n) ++ lit " : " ++ show (psi x).
  Lemma one_amp n psi x : one_line (amp_line n psi x).
  Proof. unfold amp_line. apply one_app; [literal|]. apply one_app; [apply one_binary|]. apply one_app; [literal|apply Hshow]. Qed.
  Lemma amplitude_text n psi r : lines (amplitude_lines show n (map psi (seqN (2 ^ n))) ++ r) = map (amp_line n psi) (seqN (2 ^ n)) ++ lines r.
  Proof.
    unfold amplitude_lines. rewrite <- (lines_flat (amp_line n psi)) by (intros; apply one_amp). f_equal. f_equal.
    apply flat_ext. intros x Hx. apply in_seqN in Hx. unfold amp_line.
    rewrite (nth_indep _ C0 (psi 0)) by (rewrite map_length, length_seqN; lia). rewrite map_nth. rewrite nth_seqN by lia. rewrite N2Nat.id. reflexivity.
  Qed.

  Definition state_lines (n : N) (psi : N -> C) : list text :=
    [lit "Qubit Count : " ++ dec n; lit "Dimension : " ++ dec (2 ^ n); lit "State vector : "] ++ map (amp_line n psi) (seqN (2 ^ n)).
  Lemma state_lines_ok n psi : n < 64 ->
    lines (line (lit "Qubit Count : " ++ dec n) ++ line (lit "Dimension : " ++ dec (2 ^ n)) ++ line (lit "State vector : ") ++ amplitude_lines show n (map psi (seqN (2 ^ n)))) = state_lines n psi.
  Proof.
    intros Hn. unfold state_lines. rewrite !lines_line.
    - rewrite <- (app_nil_r (amplitude_lines _ _ _)), amplitude_text. cbn [lines]. rewrite app_nil_r. reflexivity.
    - literal.
    - apply one_app; [literal|apply one_dec; now apply pow_u64].
    - apply one_app; [literal|apply one_dec; change two64 with 18446744073709551616; lia].
  Qed.
  Lemma state_outcome n (w : world) o : n < 64 -> state_to_string show n w o -> exists t, o = HDone t w /\ lines t = state_lines n (w_amp w).
  Proof.
    intros Hn (o1 & E & Ho). unfold get_amplitudes, hget in E. subst o1. unfold hret in Ho. subst o. eexists. split; [reflexivity|].
    now apply state_lines_ok.
  Qed.
  Lemma state_exists n (w : world) : exists o, state_to_string show n w o.
  Proof. eexists. eexists. split; [reflexivity|]. reflexivity. Qed.
  Lemma head_inj n n' r r' : n < 64 -> n' < 64 -> (lit "Qubit Count : " ++ dec n) :: r = (lit "Qubit Count : " ++ dec n') :: r' -> n = n' /\ r = r'.
  Proof.
    intros H H' E. injection E as E1 E2. split; [|assumption]. apply dec_inj in E1; [assumption|change two64 with 18446744073709551616; lia..].
  Qed.
  Lemma amp_inj n psi phi x : amp_line n psi x = amp_line n phi x -> show (psi x) = show (phi x).
  Proof. intros E. unfold amp_line in E. do 3 apply app_inv_head in E. exact E. Qed.
  Lemma state_inj n n' psi phi : n < 64 -> n' < 64 -> state_lines n psi = state_lines n' phi -> n = n' /\ forall x, x < 2 ^ n -> show (psi x) = show (phi x).
  Proof.
    intros H H' E. unfold state_lines in E. cbn [app] in E. apply head_inj in E; try assumption. destruct E as [-> E].
    split; [reflexivity|]. intros x Hx. do 2 apply (f_equal (@tl _)) in E. cbn [tl] in E. apply (map_inj _ _ _ E x), amp_inj in Hx || (apply in_seqN in Hx; apply (map_inj _ _ _ E x) in Hx; now apply amp_inj in Hx).
  Qed.

  (** batches *)
  Definition row_lines (n : N) (rows : N -> N -> C) (b : N) : list text :=
    [lit "--------------------"; lit "Batch_id : " ++ dec b; lit "State vector : "] ++ map (amp_line n (rows b)) (seqN (2 ^ n)).
  Definition states_lines (n B : N) (rows : N -> N -> C) : list text :=
    [lit "Qubit Count : " ++ dec n; lit "Dimension : " ++ dec (2 ^ n)] ++ flat_map (row_lines n rows) (seqN B).
  Lemma states_outcome n B (w : world) o : n < 64 -> B < two64 -> states_to_string show n B w o ->
    exists t, o = HDone t w /\ lines t = states_lines n B (fun b x => w_amp w (at_row n b x)).
  Proof.
    intros Hn HB (o1 & E & Ho). unfold b_get_amplitudes, hget in E. subst o1. unfold hret in Ho. subst o. eexists. split; [reflexivity|].
    unfold states_lines. rewrite !lines_line.
    - cbn [app]. f_equal. f_equal.
      match goal with |- lines ?t = _ => rewrite <- (app_nil_r t) end. rewrite (lines_blocks _ (row_lines n (fun b x => w_amp w (at_row n b x)))).
      + cbn [lines]. apply app_nil_r.
      + intros b r Hb. apply in_seqN in Hb. rewrite <- !app_assoc. rewrite !lines_line.
        * unfold row_lines. cbn [app]. do 3 f_equal. rewrite <- amplitude_text. f_equal. f_equal. f_equal.
          rewrite (nth_indep _ [] (map (fun i => w_amp w (at_row n 0 i)) (seqN (2 ^ n)))) by (rewrite map_length, length_seqN; lia).
          rewrite (map_nth (fun b => map (fun i => w_amp w (at_row n b i)) (seqN (2 ^ n)))). rewrite nth_seqN by lia. now rewrite N2Nat.id.
        * literal.
        * apply one_app; [literal|apply one_dec; lia].
        * literal.
    - apply one_app; [literal|apply one_dec; now apply pow_u64].
    - apply one_app; [literal|apply one_dec; change two64 with 18446744073709551616; lia].
  Qed.
  Lemma states_exists n B (w : world) : exists o, states_to_string show n B w o.
  Proof. eexists. eexists. split; [reflexivity|]. reflexivity. Qed.
  Lemma flat_length {A D} (f : A -> list D) k l : (forall a, length (f a) = k) -> length (flat_map f l) = (length l * k)%nat.
  Proof. intros H. induction l; [reflexivity|]. cbn [flat_map length Nat.mul]. rewrite app_length, H, IHl. reflexivity. Qed.
  Lemma states_inj n n' B B' rows rows' : n < 64 -> n' < 64 -> states_lines n B rows = states_lines n' B' rows' ->
    n = n' /\ B = B' /\ forall b x, b < B -> x < 2 ^ n -> show (rows b x) = show (rows' b x).
  Proof.
    intros H H' E. unfold states_lines in E. cbn [app] in E. apply head_inj in E; try assumption. destruct E as [-> E]. apply (f_equal (@tl _)) in E. cbn [tl] in E.
    assert (L : forall r b, length (row_lines n' r b) = S (S (S (N.to_nat (2 ^ n'))))) by (intros; unfold row_lines; cbn [app length]; rewrite map_length, length_seqN; reflexivity).
    assert (EB : B = B').
    { pose proof (f_equal (@length _) E) as EL. rewrite !(flat_length _ _ _ (L _)) in EL. rewrite !length_seqN in EL. apply Nat.mul_cancel_r in EL; lia. }
    subst B'. split; [reflexivity|]. split; [reflexivity|]. intros b x Hb Hx. apply in_seqN in Hb, Hx.
    pose proof (flat_inj _ _ _ (fun a _ => eq_trans (L rows a) (eq_sym (L rows' a))) E b Hb) as Eb.
    unfold row_lines in Eb. cbn [app] in Eb. do 3 apply (f_equal (@tl _)) in Eb. cbn [tl] in Eb. apply (map_inj _ _ _ Eb x) in Hx. now apply amp_inj in Hx.
  Qed.

  (** density matrices *)
  Definition entry_line (n : N) (m : N * N -> C) (i j : N) : text :=
    lit "  (" ++ binary i (N.to_nat n) ++ lit ", " ++ binary j (N.to_nat n) ++ lit ") : " ++ show (m (i, j)).
  Definition density_lines (n : N) (h : bool) (m : N * N -> C) : list text :=
    [lit "Qubit Count : " ++ dec n; lit "Dimension : " ++ dec (2 ^ n); lit "Is Hermitian : " ++ bool_text h; lit "Density Matrix : "] ++
    flat_map (fun i => map (entry_line n m i) (seqN (2 ^ n))) (seqN (2 ^ n)).
  Lemma density_outcome n (w : dmw) o : n < 64 -> dm_to_string show n w o -> exists t, o = HDone t w /\ lines t = density_lines n (d_herm w) (d_raw w).
  Proof.
    intros Hn Ho. unfold dm_to_string, hget in Ho. subst o. eexists. split; [reflexivity|].
    unfold density_lines. rewrite !lines_line.
    - cbn [app]. do 4 f_equal. match goal with |- lines ?t = _ => rewrite <- (app_nil_r t) end.
      rewrite (lines_blocks _ (fun i => map (entry_line n (d_raw w) i) (seqN (2 ^ n)))).
      + cbn [lines]. apply app_nil_r.
      + intros i r _. apply (lines_flat (entry_line n (d_raw w) i)). intros j _. unfold entry_line.
        apply one_app; [literal|]. apply one_app; [apply one_binary|]. apply one_app; [literal|]. apply one_app; [apply one_binary|]. apply one_app; [literal|apply Hshow].
    - literal.
    - apply one_app; [literal|]. destruct (d_herm w); literal.
    - apply one_app; [literal|apply one_dec; now apply pow_u64].
    - apply one_app; [literal|apply one_dec; change two64 with 18446744073709551616; lia].
  Qed.
  Lemma density_inj n n' h h' m m' : n < 64 -> n' < 64 -> density_lines n h m = density_lines n' h' m' ->
    n = n' /\ h = h' /\ forall i j, i < 2 ^ n -> j < 2 ^ n -> show (m (i, j)) = show (m' (i, j)).
  Proof.
    intros H H' E. unfold density_lines in E. cbn [app] in E. apply head_inj in E; try assumption. destruct E as [-> E]. apply (f_equal (@tl _)) in E. cbn [tl] in E.
    split; [reflexivity|]. injection E as E1 E2. split; [destruct h, h'; (reflexivity || discriminate E1)|].
    intros i j Hi Hj. apply in_seqN in Hi, Hj.
    assert (L : forall a, In a (seqN (2 ^ n')) -> length (map (entry_line n' m a) (seqN (2 ^ n'))) = length (map (entry_line n' m' a) (seqN (2 ^ n')))) by (intros; now rewrite !map_length).
    pose proof (flat_inj _ _ _ L E2 i Hi) as Eb. apply (map_inj _ _ _ Eb j) in Hj.
    unfold entry_line in Hj. do 5 apply app_inv_head in Hj. exact Hj.
  Qed.
End Amplitudes.
