From Verif Require Export SignalProofs.
From Verif Require Import ChannelProofs5.
From Coq Require Import ZifyBool ZifyN ZifyNat Lra FunctionalExtensionality.

Lemma acts_on_local n rs G : acts_on rs G -> Forall (fun q => q < n) rs -> act_local n G.
Proof.
  intros (ts & cs & M & Hnd & Hi & HG) HF a b H x Hx. rewrite !HG. unfold apply_mat. destruct (ctrl_ok cs x); [|now apply H]. unfold Csum. apply Csuml_ext. intros j _. f_equal. apply H.
  apply scatter_lt; try assumption. rewrite Forall_forall in *. intros q Hq. apply HF, Hi, in_or_app. now left.
Qed.
Lemma inner_entries n G a : act_linear G -> act_local n G -> inner n a (G a) = Csum (2 ^ n) (fun x => Csum (2 ^ n) (fun k => G (basis k) x * (a k * Cconj (a x))))%C.
Proof.
  intros Hf Hl. unfold inner. unfold Csum at 1 2. apply Csuml_ext. intros x Hx. apply in_seqN in Hx. rewrite (act_entries n G a x Hf Hl Hx). unfold Csum. rewrite <- Csuml_mul_l.
  apply Csuml_ext. intros k _. ring.
Qed.
Lemma total_cols n m G s : act_linear G -> act_local n G ->
  total n m (cols G s) = Csum (2 ^ n) (fun x => Csum (2 ^ n) (fun k => G (basis k) x * Csuml (fun r => s r k x) (registers m)))%C.
Proof.
  intros Hf Hl. unfold total, tr, cols, col. unfold Csum at 1 2. rewrite Csuml_swap. apply Csuml_ext. intros x Hx. apply in_seqN in Hx.
  transitivity (Csuml (fun r => Csum (2 ^ n) (fun k => G (basis k) x * s r k x))%C (registers m)).
  - apply Csuml_ext. intros r _. rewrite (act_entries n G _ x Hf Hl Hx). unfold Csum. apply Csuml_ext. intros k _. ring.
  - unfold Csum. rewrite Csuml_swap. apply Csuml_ext. intros k _. now rewrite <- Csuml_mul_l.
Qed.
Lemma registers_once r0 : NoDup (registers (length r0)) /\ In r0 (registers (length r0)).
Proof.
  split.
  - generalize (length r0). clear. induction n as [|m IH]; cbn [registers]; [constructor; [intros []|constructor]|].
    assert (Hi : forall b, NoDup (map (cons b) (registers m))) by (intros b; apply FinFun.Injective_map_NoDup; [intros x y E; congruence|assumption]).
    assert (Hd : forall x, In x (map (cons false) (registers m)) -> ~ In x (map (cons true) (registers m))) by (intros x H H'; apply in_map_iff in H, H'; destruct H as (y & <- & _), H' as (y' & E & _); discriminate E).
    pose proof (Hi false) as H1. pose proof (Hi true) as H2. revert H1 Hd. induction (map (cons false) (registers m)) as [|x X IHX]; intros H1 Hd; [exact H2|]. inversion H1; subst. cbn [app]. constructor.
    + intros H. apply in_app_or in H. destruct H as [H|H]; [contradiction|]. exact (Hd x (or_introl eq_refl) H).
    + apply IHX; [assumption|]. intros y Hy. apply Hd. now right.
  - induction r0 as [|b r0 IH]; cbn [length registers]; [now left|]. apply in_or_app. destruct b; [right|left]; now apply in_map.
Qed.
Lemma total_pure n G psi r0 : act_linear G -> act_local n G -> total n (length r0) (cols G (pure psi r0)) = inner n psi (G psi).
Proof.
  intros Hf Hl. rewrite total_cols, inner_entries by assumption. destruct (registers_once r0) as [Hnd Hin]. unfold Csum. apply Csuml_ext. intros x _. apply Csuml_ext. intros k _. f_equal.
  rewrite (Csuml_single _ _ r0 Hnd Hin); [apply pure_eq|]. intros r _ Hr. now apply pure_ne.
Qed.

Section Elsewhere.
  Variables (n L : N) (ps : string -> option R) (c : circuit) (p : program) (l : list (sgate * option cond)) (psi : state) (r0 : list bool).
  Hypotheses (Hn : n < 64) (HL : lanes_ok L) (Hc : circuit_is c p) (Hk : norm_kept n ps p) (Hs : sqnorm n psi = 1%R)
    (HF : Forall (fun q => q < n) (program_operands p)) (Hl : instantiate ps p = Some l) (Ho : orderly (length r0) [] l).
  Lemma zero_in_seq : In 0 (seqN (2 ^ n)).
  Proof. apply in_seqN. pose proof (N.pow_nonzero 2 n). lia. Qed.
  Theorem elsewhere_on rs G : acts_on rs G -> Forall (fun q => q < n) rs -> (forall q, In q rs -> ~ In q (program_operands p)) ->
    averaged (draws_list l) (run_gives n (circuit_update n L ps c) psi r0 (fun w => inner n (w_amp w) (G (w_amp w)))) (inner n psi (G psi)).
  Proof.
    intros HG Hr Hd. pose proof (linear_of rs G HG) as Hlin. pose proof (acts_on_local n rs G HG Hr) as Hloc.
    assert (Hst : never_stops n ps p psi r0) by now apply orderly_never_stops with l.
    assert (E : inner n psi (G psi) = Csum (2 ^ n) (fun x => Csum (2 ^ n) (fun k => G (basis k) x * Csuml (fun r => channels l (pure psi r0) r k x) (registers (length r0))))%C).
    { rewrite <- (total_cols n (length r0) G (channels l (pure psi r0)) Hlin Hloc). destruct Hc as [Hrep _].
      pose proof (program_items n ps _ p l Hn Hrep Hl HF) as Hi. pose proof (instantiate_fine n ps p Hn _ l Hrep Hl HF) as Hfi. pose proof (instantiate_kept n ps p l Hk Hl) as Hke.
      rewrite (cols_channels rs G HG).
      - rewrite (channels_total n (length r0) l []); [symmetry; now apply total_pure| |assumption]. rewrite Forall_forall in *. intros gc Hin. split; [auto|]. split; [auto|]. exact (proj1 (proj2 (Hi gc Hin))).
      - rewrite Forall_forall in *. intros gc Hin. destruct (Hi gc Hin) as (H1 & _ & H3). split; [assumption|]. intros q Hq Hq'. exact (Hd q Hq (H3 q Hq')). }
    rewrite E. apply (average_same n _ psi r0 _ (fun w => Csum (2 ^ n) (fun x => Csum (2 ^ n) (fun k => G (basis k) x * (w_amp w k * Cconj (w_amp w x)))))%C).
    { intros us w' w _ _ _ _ _ _. symmetry. now apply inner_entries. }
    unfold Csum. apply (average_sum n _ psi r0 _ (fun x w => Csuml (fun k => G (basis k) x * (w_amp w k * Cconj (w_amp w x)))%C (seqN (2 ^ n))) _ _ 0 zero_in_seq). intros x Hx. apply in_seqN in Hx.
    apply (average_sum n _ psi r0 _ (fun k w => G (basis k) x * (w_amp w k * Cconj (w_amp w x)))%C _ _ 0 zero_in_seq). intros k Hk'. apply in_seqN in Hk'.
    apply average_times. now apply (state_average n L ps c p l psi r0).
  Qed.
End Elsewhere.
