(** Channels of gates on different qubits and classical bits commute. *)
From Verif Require Export OrderProofs.
From Verif Require Import ChannelProofs5.
From Coq Require Import ZifyBool ZifyN ZifyNat Lra FunctionalExtensionality.

Lemma sum_through qs F {T} (co : T -> C) (v : T -> state) l x : acts_on qs F ->
  F (fun y => Csuml (fun k => co k * v k y)%C l) x = Csuml (fun k => co k * F (v k) x)%C l.
Proof.
  intros (ts & cs & M & _ & _ & HF). assert (H0 : F (fun _ => C0) x = C0).
  { replace (fun _ : N => C0) with (fun _ : N => (C0 * C0)%C) by (apply functional_extensionality; intros; ring). rewrite HF, apply_mat_scale. ring. }
  induction l as [|k l IH].
  - exact H0.
  - change (Csuml (fun k => co k * F (v k) x)%C (k :: l)) with (co k * F (v k) x + Csuml (fun k => co k * F (v k) x) l)%C. rewrite <- IH.
    rewrite !HF. rewrite <- apply_mat_scale, <- apply_mat_add. reflexivity.
Qed.
Lemma linear_of qs F : acts_on qs F -> act_linear F.
Proof. intros (ts & cs & M & _ & _ & HF) a b c x. rewrite !HF. rewrite (apply_mat_add _ _ _ a (fun y => c * b y)%C), apply_mat_scale. reflexivity. Qed.

Definition col (F : state -> state) (rho : N -> N -> C) : N -> N -> C := fun i j => F (fun x => rho x j) i.
Definition row (F : state -> state) (rho : N -> N -> C) : N -> N -> C := fun i j => Cconj (F (fun y => Cconj (rho i y)) j).
Lemma conjugated_split F rho : conjugated F rho = row F (col F rho).
Proof. reflexivity. Qed.
Lemma matrix_ext (a b : N -> N -> C) : (forall i j, a i j = b i j) -> a = b.
Proof. intros H. apply functional_extensionality. intros i. apply functional_extensionality. intros j. apply H. Qed.
Section Two.
  Variables (qs rs : list N) (F G : state -> state).
  Hypotheses (HF : acts_on qs F) (HG : acts_on rs G).
  Lemma row_col rho : col F (row G rho) = row G (col F rho).
  Proof.
    apply matrix_ext. intros i j. unfold col, row. destruct HG as (ts & cs & M & _ & _ & Hg).
    replace (fun x => Cconj (G (fun y => Cconj (rho x y)) j)) with
      (fun x => if ctrl_ok cs j then Csuml (fun k => Cconj (M (gather ts j) k) * rho x (scatter ts k j))%C (seqN (2 ^ N.of_nat (length ts))) else rho x j).
    2: { apply functional_extensionality. intros x. rewrite Hg. unfold apply_mat. destruct (ctrl_ok cs j); [|now rewrite Cconj_invol]. unfold Csum. rewrite Csuml_conj.
         apply Csuml_ext. intros k _. rewrite Cconj_mul, Cconj_invol. reflexivity. }
    rewrite Hg. unfold apply_mat. destruct (ctrl_ok cs j).
    - rewrite (sum_through qs F (fun k => Cconj (M (gather ts j) k)) (fun k x => rho x (scatter ts k j)) _ i HF). unfold Csum. rewrite Csuml_conj. apply Csuml_ext. intros k _.
      now rewrite Cconj_mul, Cconj_invol.
    - now rewrite Cconj_invol.
  Qed.
End Two.
Lemma conjugated_comm qs rs F G rho : acts_on qs F -> acts_on rs G -> (forall i, In i qs -> ~ In i rs) ->
  conjugated F (conjugated G rho) = conjugated G (conjugated F rho).
Proof.
  intros HF HG Hd. rewrite !conjugated_split. rewrite (row_col qs rs F G HF HG), (row_col rs qs G F HG HF).
  assert (E1 : col F (col G rho) = col G (col F rho)).
  { apply matrix_ext. intros i j. unfold col. exact (f_equal (fun v => v i) (acts_on_comm qs rs F G (fun x => rho x j) HF HG Hd)). }
  rewrite E1. apply matrix_ext. intros i j. unfold row at 1 2 3 4. f_equal.
  set (m := fun y => Cconj (col G (col F rho) i y)).
  transitivity (F (G m) j); [f_equal; apply functional_extensionality; intros y; apply Cconj_invol|].
  rewrite (acts_on_comm qs rs F G m HF HG Hd). f_equal. apply functional_extensionality. intros y. symmetry. apply Cconj_invol.
Qed.
Lemma conjugated_zero qs F : acts_on qs F -> conjugated F (fun _ _ => C0) = fun _ _ => C0.
Proof.
  intros HF. pose proof (linear_of qs F HF) as Hl. apply matrix_ext. intros i j. unfold conjugated. rewrite (act_zero F i Hl), Cconj_0, (act_zero F j Hl). apply Cconj_0.
Qed.

(** ** Linear maps on ensembles *)
Definition elin (T : ensemble -> ensemble) : Prop := (forall s t, T (e_add s t) = e_add (T s) (T t)) /\ forall a s, T (e_scale a s) = e_scale a (T s).
Definition ecomm (X Y : ensemble -> ensemble) : Prop := forall s, X (Y s) = Y (X s).
Lemma ecomm_sym X Y : ecomm X Y -> ecomm Y X.
Proof. intros H s. symmetry. apply H. Qed.
Lemma elin_zero T : elin T -> T e_zero = e_zero.
Proof.
  intros [_ H]. transitivity (T (e_scale 0 e_zero)); [f_equal; apply e_ext; intros; unfold e_scale, e_zero; Csolve|]. rewrite H. apply e_ext. intros. unfold e_scale, e_zero. apply C_eq; Cunfold; cbn [fst snd]; ring.
Qed.
Lemma elin_mixture T : elin T -> forall l a, T (mixture a l) = mixture a (map (fun ps => (fst ps, T (snd ps))) l).
Proof.
  intros HT. pose proof HT as [Ha Hs]. induction l as [|[p s] l IH]; intros a; [now apply elin_zero|]. destruct l as [|y l].
  - apply Hs.
  - rewrite mixture_cons, Ha, Hs, IH. reflexivity.
Qed.
Definition on_states (F : state -> state) (s : ensemble) : ensemble := fun r => conjugated F (s r).
(** Only where the register satisfies phi. *)
Definition keep (phi : list bool -> bool) (s : ensemble) : ensemble := fun r => if phi r then s r else fun _ _ => C0.
(** Where bit k of the register shows b: what was there when it showed e. *)
Definition bit_from (k : N) (b e : bool) (s : ensemble) : ensemble := fun r =>
  match nth_error r (N.to_nat k) with Some b' => if Bool.eqb b' b then s (with_bit r k e) else fun _ _ => C0 | None => fun _ _ => C0 end.
Lemma lin_states qs F : acts_on qs F -> elin (on_states F).
Proof.
  intros HF. pose proof (linear_of qs F HF) as Hl. split.
  - intros s t. apply e_ext. intros r i j. unfold on_states, conjugated, e_add. rewrite <- Cconj_add, <- act_add by assumption. f_equal. f_equal. apply functional_extensionality. intros y.
    now rewrite <- Cconj_add, <- act_add by assumption.
  - intros a s. apply e_ext. intros r i j. unfold on_states, conjugated, e_scale.
    assert (Hc : forall z, Cscale a z = (RtoC a * z)%C) by (intros; Csolve).
    rewrite Hc. rewrite <- (Cconj_R a), <- Cconj_mul, <- act_times by assumption. f_equal. f_equal. apply functional_extensionality. intros y.
    transitivity (Cconj (F (fun x => RtoC a * s r x y)%C i)); [f_equal; f_equal; apply functional_extensionality; intros; apply Hc|]. now rewrite act_times, Cconj_mul, Cconj_R by assumption.
Qed.
Lemma lin_keep phi : elin (keep phi).
Proof. split; [intros s t|intros a s]; apply e_ext; intros r i j; unfold keep, e_add, e_scale; destruct (phi r); Csolve. Qed.
Lemma lin_bit k b e : elin (bit_from k b e).
Proof. split; [intros s t|intros a s]; apply e_ext; intros r i j; unfold bit_from, e_add, e_scale; destruct (nth_error r (N.to_nat k)) as [b'|]; try destruct (Bool.eqb b' b); Csolve. Qed.
Lemma states_states qs rs F G : acts_on qs F -> acts_on rs G -> (forall i, In i qs -> ~ In i rs) -> ecomm (on_states F) (on_states G).
Proof. intros HF HG Hd s. apply functional_extensionality. intros r. exact (conjugated_comm qs rs F G (s r) HF HG Hd). Qed.
Lemma states_keep qs F phi : acts_on qs F -> ecomm (on_states F) (keep phi).
Proof. intros HF s. apply functional_extensionality. intros r. unfold on_states, keep. destruct (phi r); [reflexivity|]. now apply conjugated_zero with qs. Qed.
Lemma states_bit qs F k b e : acts_on qs F -> ecomm (on_states F) (bit_from k b e).
Proof.
  intros HF s. apply functional_extensionality. intros r. unfold on_states, bit_from. destruct (nth_error r (N.to_nat k)) as [b'|]; [destruct (Bool.eqb b' b)|]; [reflexivity|now apply conjugated_zero with qs..].
Qed.
Lemma keep_keep phi chi : ecomm (keep phi) (keep chi).
Proof. intros s. apply functional_extensionality. intros r. unfold keep. now destruct (phi r), (chi r). Qed.
Lemma with_bit_split l1 x t k b : length l1 = N.to_nat k -> with_bit (l1 ++ x :: t) k b = l1 ++ b :: t.
Proof.
  intros Hl. unfold with_bit. rewrite <- Hl, firstn_app, Nat.sub_diag, firstn_all. simpl firstn. rewrite app_nil_r, skipn_app, skipn_all2 by lia.
  replace (length l1 + 1 - length l1)%nat with 1%nat by lia. reflexivity.
Qed.
Lemma with_bit_other r k k' b : k < N.of_nat (length r) -> k <> k' -> nth_error (with_bit r k b) (N.to_nat k') = nth_error r (N.to_nat k').
Proof.
  intros Hk Hne. destruct (nth_error r (N.to_nat k)) as [x|] eqn:Ex; [|apply nth_error_None in Ex; lia]. apply nth_error_split in Ex. destruct Ex as (l1 & t & -> & Hl).
  rewrite (with_bit_split l1 x t k b Hl). destruct (lt_dec (N.to_nat k') (N.to_nat k)) as [H|H].
  - rewrite !nth_error_app1 by lia. reflexivity.
  - rewrite !nth_error_app2 by lia. destruct (N.to_nat k' - length l1)%nat as [|m] eqn:E; [lia|]. reflexivity.
Qed.
Lemma nth_error_eq {A} (l l' : list A) : (forall i, nth_error l i = nth_error l' i) -> l = l'.
Proof.
  revert l'. induction l as [|x l IH]; intros [|y l'] H; [reflexivity|specialize (H 0%nat); discriminate..|].
  pose proof (H 0%nat) as E. injection E as ->. f_equal. apply IH. intros i. exact (H (S i)).
Qed.
Lemma with_bit_comm r k k' b b' : k < N.of_nat (length r) -> k' < N.of_nat (length r) -> k <> k' -> with_bit (with_bit r k b) k' b' = with_bit (with_bit r k' b') k b.
Proof.
  intros Hk Hk' Hne. apply nth_error_eq. intros i. rewrite <- (Nat2N.id i). set (m := N.of_nat i).
  assert (L1 : length (with_bit r k b) = length r) by now apply with_bit_length. assert (L2 : length (with_bit r k' b') = length r) by now apply with_bit_length.
  destruct (N.eq_dec m k) as [->|H1]; [|destruct (N.eq_dec m k') as [->|H2]].
  - rewrite with_bit_other, !with_bit_nth by (rewrite ?L1, ?L2; auto). reflexivity.
  - rewrite (with_bit_other (with_bit r k' b') k k'), !with_bit_nth by (rewrite ?L1, ?L2; auto). reflexivity.
  - rewrite !with_bit_other by (rewrite ?L1, ?L2; auto). reflexivity.
Qed.
Lemma bit_bit k b e k' b' e' : k <> k' -> ecomm (bit_from k b e) (bit_from k' b' e').
Proof.
  intros Hne s. apply functional_extensionality. intros r. unfold bit_from.
  destruct (nth_error r (N.to_nat k)) as [x|] eqn:Ex, (nth_error r (N.to_nat k')) as [x'|] eqn:Ex'; try reflexivity.
  - assert (Hk : k < N.of_nat (length r)) by (assert (nth_error r (N.to_nat k) <> None) as H by congruence; apply nth_error_Some in H; lia).
    assert (Hk' : k' < N.of_nat (length r)) by (assert (nth_error r (N.to_nat k') <> None) as H by congruence; apply nth_error_Some in H; lia).
    rewrite (with_bit_other r k k') by assumption. rewrite (with_bit_other r k' k) by auto. rewrite Ex, Ex'. destruct (Bool.eqb x b), (Bool.eqb x' b'); try reflexivity. now rewrite with_bit_comm.
  - assert (Hk : k < N.of_nat (length r)) by (assert (nth_error r (N.to_nat k) <> None) as H by congruence; apply nth_error_Some in H; lia).
    rewrite (with_bit_other r k k') by assumption. rewrite Ex'. now destruct (Bool.eqb x b).
  - assert (Hk' : k' < N.of_nat (length r)) by (assert (nth_error r (N.to_nat k') <> None) as H by congruence; apply nth_error_Some in H; lia).
    rewrite (with_bit_other r k' k) by auto. rewrite Ex. now destruct (Bool.eqb x' b').
Qed.

(** ** Channels of gates *)
(** The bits of the register a gate may write. *)
Fixpoint writes (g : sgate) : list N :=
  match g with Act _ _ => [] | Meas _ bit _ => [bit] | Choice l => flat_map (fun pg => writes (snd pg)) l end.
Definition project (q : N) (b : bool) : state -> state := fun psi x => if shows_bit q b x then psi x else C0.
Definition see (q k : N) (reset b e : bool) (s : ensemble) : ensemble :=
  (if reset && b then on_states (flipped q) else fun t => t) (on_states (project q b) (bit_from k b e s)).
Lemma measuring_split q k reset s : measuring q k reset s =
  e_add (e_add (see q k reset false false s) (see q k reset false true s)) (e_add (see q k reset true false s) (see q k reset true true s)).
Proof.
  assert (Hp : forall b (t : ensemble) r i j, on_states (project q b) t r i j = if shows_bit q b i && shows_bit q b j then t r i j else C0).
  { intros b t r i j. unfold on_states, conjugated, project. destruct (shows_bit q b j), (shows_bit q b i); cbn [andb]; rewrite ?Cconj_0, ?Cconj_invol; reflexivity. }
  assert (Hf : forall (t : ensemble) r i j, on_states (flipped q) t r i j = t r (N.lxor i (2 ^ q)) (N.lxor j (2 ^ q))).
  { intros t r i j. unfold on_states, conjugated, flipped. now rewrite Cconj_invol. }
  assert (Hs : forall b e r i j, see q k reset b e s r i j = let m := if reset && b then 2 ^ q else 0 in
    if shows_bit q b (N.lxor i m) && shows_bit q b (N.lxor j m) then bit_from k b e s r (N.lxor i m) (N.lxor j m) else C0).
  { intros b e r i j. unfold see. destruct (reset && b); cbv zeta; [now rewrite Hf, Hp|now rewrite !N.lxor_0_r, Hp]. }
  apply e_ext. intros r i j. unfold measuring, collapsed, e_add. rewrite !Hs. unfold bit_from. cbv zeta.
  destruct (nth_error r (N.to_nat k)) as [[]|]; cbn [Bool.eqb]; repeat destruct (_ && shows_bit _ _ _); ring.
Qed.
(** What commutes with the pieces of a gate's channel commutes with the channel. *)
Lemma comm_channel X : elin X -> forall g, local g -> (forall F, acts_on (operands g) F -> ecomm X (on_states F)) ->
  (forall k b e, In k (writes g) -> ecomm X (bit_from k b e)) -> ecomm X (channel g).
Proof.
  intros HX g. induction g as [qs f|q k reset|l IH] using sgate_ind'; intros Hl HF HB s.
  - exact (HF f Hl s).
  - cbn [channel]. rewrite !measuring_split. rewrite !(proj1 HX).
    assert (E : forall b e, X (see q k reset b e s) = see q k reset b e (X s)).
    { intros b e. unfold see. assert (E1 : X (on_states (project q b) (bit_from k b e s)) = on_states (project q b) (bit_from k b e (X s))).
      { rewrite (HF (project q b) (acts_on_project q b)), (HB k b e (or_introl eq_refl)). reflexivity. }
      destruct (reset && b); [|exact E1]. rewrite (HF (flipped q) (acts_on_flip q)), E1. reflexivity. }
    now rewrite !E.
  - cbn [channel]. rewrite (elin_mixture X HX), map_map. f_equal. apply map_ext_in. intros [p g] Hin. cbn [fst snd]. f_equal.
    rewrite Forall_forall in IH. specialize (IH (p, g) Hin). cbn [snd] in IH. apply IH.
    + cbn [local] in Hl. clear - Hl Hin. induction l as [|pg l IHl]; [contradiction|]. cbn [fold_right] in Hl. destruct Hin as [->|Hin]; [apply Hl|apply IHl; [apply Hl|assumption]].
    + intros F Hf. apply HF. eapply acts_on_incl; [exact Hf|]. intros i Hi. cbn [operands]. apply in_flat_map. now exists (p, g).
    + intros k b e Hk. apply HB. cbn [writes]. apply in_flat_map. now exists (p, g).
Qed.
Lemma channel_lin g : local g -> elin (channel g).
Proof.
  induction g as [qs f|q k reset|l IH] using sgate_ind'; intros Hl.
  - exact (lin_states qs f Hl).
  - assert (Hs : forall b e, elin (see q k reset b e)).
    { intros b e. pose proof (lin_bit k b e) as [B1 B2]. pose proof (lin_states [q] (project q b) (acts_on_project q b)) as [P1 P2]. pose proof (lin_states [q] (flipped q) (acts_on_flip q)) as [F1 F2].
      unfold see. split; [intros s t|intros a s]; destruct (reset && b); rewrite ?B1, ?P1, ?F1, ?B2, ?P2, ?F2; reflexivity. }
    split; [intros s t|intros a s]; cbn [channel]; rewrite !measuring_split.
    + rewrite !(proj1 (Hs _ _)). apply e_ext. intros. unfold e_add. ring.
    + rewrite !(proj2 (Hs _ _)). apply e_ext. intros. unfold e_add, e_scale. Csolve.
  - assert (Hg : Forall (fun pg => elin (channel (snd pg))) l).
    { rewrite Forall_forall in *. intros [p g] Hin. apply (IH (p, g) Hin). cbn [local] in Hl. clear - Hl Hin. induction l as [|pg l IHl]; [contradiction|]. cbn [fold_right] in Hl. destruct Hin as [->|Hin]; [apply Hl|apply IHl; [apply Hl|assumption]]. }
    clear IH Hl. split; [intros s t|intros c s]; cbn [channel]; generalize 0%R as a.
    + induction Hg as [|[p g] l [Hg1 _] _ IH]; intros a; cbn [map fst snd] in *.
      * apply e_ext. intros. unfold e_add, mixture, e_zero. ring.
      * destruct l as [|y l]; cbn [map] in *.
        -- cbn [mixture]. rewrite Hg1. apply e_ext. intros. unfold e_add, e_scale. Csolve.
        -- rewrite !mixture_cons. cbn [map fst snd] in *. rewrite IH, Hg1. apply e_ext. intros. unfold e_add, e_scale. Csolve.
    + induction Hg as [|[p g] l [_ Hg2] _ IH]; intros a; cbn [map fst snd] in *.
      * apply e_ext. intros. unfold e_scale, mixture, e_zero. Csolve.
      * destruct l as [|y l]; cbn [map] in *.
        -- cbn [mixture]. rewrite Hg2. apply e_ext. intros. unfold e_add, e_scale. Csolve.
        -- rewrite !mixture_cons. cbn [map fst snd] in *. rewrite IH, Hg2. apply e_ext. intros. unfold e_add, e_scale. Csolve.
Qed.
Definition reads (c : option cond) : Prop := c <> None.
Section Commute.
  Variables (g h : sgate) (c d : option cond).
  Hypotheses (Hg : local g) (Hh : local h) (Hq : forall i, In i (operands g) -> ~ In i (operands h)) (Hw : forall k, In k (writes g) -> ~ In k (writes h))
    (Hc : c <> None -> writes h = []) (Hd : d <> None -> writes g = []).
  Lemma channel_states F qs x : local x -> acts_on qs F -> (forall i, In i qs -> ~ In i (operands x)) -> ecomm (on_states F) (channel x).
  Proof.
    intros Hx HF Hi. apply comm_channel; [now apply lin_states with qs|assumption|..].
    - intros G HG. now apply (states_states qs (operands x)).
    - intros k b e _. now apply states_bit with qs.
  Qed.
  Lemma channel_keep phi x : local x -> writes x = [] -> ecomm (keep phi) (channel x).
  Proof.
    intros Hx Hn. apply comm_channel; [apply lin_keep|assumption|..].
    - intros G HG. apply ecomm_sym. now apply states_keep with (operands x).
    - rewrite Hn. intros k b e [].
  Qed.
  Lemma channel_bit k b e x : local x -> ~ In k (writes x) -> ecomm (bit_from k b e) (channel x).
  Proof.
    intros Hx Hn. apply comm_channel; [apply lin_bit|assumption|..].
    - intros G HG. apply ecomm_sym. now apply states_bit with (operands x).
    - intros k' b' e' Hk'. apply bit_bit. intros ->. contradiction.
  Qed.
  Lemma channel_comm : ecomm (channel g) (channel h).
  Proof.
    apply comm_channel; [now apply channel_lin|assumption|..].
    - intros F HF. apply ecomm_sym. apply (channel_states F (operands h)); [assumption|assumption|]. intros i H1 H2. exact (Hq i H2 H1).
    - intros k b e Hk. apply ecomm_sym. apply channel_bit; [assumption|]. intros H. exact (Hw k H Hk).
  Qed.
  Definition when (b : bool) (c : option cond) : list bool -> bool := fun r => match holds c r with Ok b' => Bool.eqb b b' | _ => false end.
  Lemma conditioned_split T s : conditioned c T s = e_add (T (keep (when true c) s)) (keep (when false c) s).
  Proof.
    unfold conditioned. f_equal; [f_equal|]; apply functional_extensionality; intros r; unfold keep, when; destruct (holds c r) as [[]| |]; reflexivity.
  Qed.
End Commute.
Theorem conditioned_comm g h c d s : local g -> local h -> (forall i, In i (operands g) -> ~ In i (operands h)) -> (forall k, In k (writes g) -> ~ In k (writes h)) ->
  (c <> None -> writes h = []) -> (d <> None -> writes g = []) ->
  conditioned c (channel g) (conditioned d (channel h) s) = conditioned d (channel h) (conditioned c (channel g) s).
Proof.
  intros Hg Hh Hq Hw Hc Hd. rewrite !conditioned_split.
  assert (Kc : forall b x, writes x = [] \/ c = None -> local x -> ecomm (keep (when b c)) (channel x)).
  { intros b x [E| ->] Hx; [now apply channel_keep|]. intros t. destruct b.
    - reflexivity.
    - transitivity (channel x e_zero); [|f_equal]. symmetry. apply (elin_zero _ (channel_lin x Hx)). }
  assert (Kd : forall b x, writes x = [] \/ d = None -> local x -> ecomm (keep (when b d)) (channel x)).
  { intros b x [E| ->] Hx; [now apply channel_keep|]. intros t. destruct b.
    - reflexivity.
    - transitivity (channel x e_zero); [|f_equal]. symmetry. apply (elin_zero _ (channel_lin x Hx)). }
  assert (Hc' : writes h = [] \/ c = None) by (destruct c; [left; apply Hc; discriminate|now right]).
  assert (Hd' : writes g = [] \/ d = None) by (destruct d; [left; apply Hd; discriminate|now right]).
  pose proof (channel_lin g Hg) as [G1 _]. pose proof (channel_lin h Hh) as [H1 _].
  rewrite !(proj1 (lin_keep _)), G1, H1.
  rewrite (Kc true h Hc' Hh), (Kc false h Hc' Hh), (Kd true g Hd' Hg), (Kd false g Hd' Hg).
  rewrite (channel_comm g h Hg Hh Hq Hw). rewrite !(keep_keep (when _ c) (when _ d)).
  apply e_ext. intros. unfold e_add. ring.
Qed.
