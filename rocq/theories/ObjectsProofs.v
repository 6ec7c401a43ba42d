(** C66: programs with several state objects. *)
From Verif Require Export ObjectsSpec CircuitProofs4 StateProofs4.
From Coq Require Import ZifyBool ZifyN ZifyNat Lia.

Record inv (st : store) (V : vstate) : Prop := Inv {
  inv_holds : holds_all st V;
  inv_sound : sound st;
  inv_apart : forall x y ox oy, x <> y -> st_env st x = Some ox -> st_env st y = Some oy -> o_buf ox <> o_buf oy;
  inv_shape : forall x o, st_env st x = Some o -> shape_ok (o_shape o) /\ o_off o = 0;
  inv_rand : forall k, unit_draw (st_rand st k) }.

Lemma put_in m off len psi a : a < len -> put m off len psi (off + a) = psi a.
Proof. intros H. unfold put. replace (off <=? off + a) with true by (symmetry; apply N.leb_le; lia). replace (off + a <? off + len) with true by (symmetry; apply N.ltb_lt; lia). cbn. f_equal. lia. Qed.
Lemma put_at_eq {T} (f : nat -> T) k v : put_at f k v k = v.
Proof. unfold put_at. now rewrite Nat.eqb_refl. Qed.
Lemma put_at_ne {T} (f : nat -> T) k v i : i <> k -> put_at f k v i = f i.
Proof. intros H. unfold put_at. now apply Nat.eqb_neq in H as ->. Qed.
Lemma holds_ext psi phi s v : (forall a, a < size s -> psi a = phi a) -> holds_value phi s v -> holds_value psi s v.
Proof.
  intros E H. destruct s as [n|B n], v as [m chi|B2 m f]; cbn [holds_value size] in *; try contradiction.
  - destruct H as [-> H]. split; [reflexivity|]. intros i Hi. rewrite E by assumption. auto.
  - destruct H as (-> & -> & H). split; [reflexivity|]. split; [reflexivity|]. intros b i Hb Hi. unfold batch. rewrite E by nia. now apply H.
Qed.
Lemma holds_shape psi s v : holds_value psi s v -> shape_of v = s.
Proof. destruct s, v; cbn; try contradiction; [intros [-> _]|intros (-> & -> & _)]; reflexivity. Qed.

(** ** New objects and methods *)
Lemma fresh_inv x s psi v st V : inv st V -> shape_ok s -> holds_value psi s v -> inv (fresh x s psi st) (vset x v V).
Proof.
  intros [[H1 H2] H3 H4 H5 H6] Hs Hv. unfold fresh. split; cbn [st_heap st_next st_env st_rand].
  - split; [|exact H2]. intros y. cbn [st_env v_env vset]. unfold put_at at 1. destruct (Nat.eqb y x) eqn:E.
    + eapply holds_ext; [|exact Hv]. intros a Ha. unfold content. cbn. now rewrite put_at_eq.
    + specialize (H1 y). destruct (st_env st y) as [o|] eqn:Eo; [|exact H1]. destruct (v_env V y); [|exact H1].
      eapply holds_ext; [|exact H1]. intros a Ha. unfold content. cbn. rewrite put_at_ne; [reflexivity|]. specialize (H3 y o Eo). lia.
  - intros y o. cbn [st_next st_env]. unfold put_at. destruct (Nat.eqb y x); [intros [= <-]; cbn; lia|]. intros E. specialize (H3 y o E). lia.
  - intros y z oy oz Hne. unfold put_at. destruct (Nat.eqb_spec y x), (Nat.eqb_spec z x); try congruence.
    + intros [= <-] E. specialize (H3 z oz E). cbn. lia.
    + intros E [= <-]. specialize (H3 y oy E). cbn. lia.
    + now apply H4.
  - intros y o. unfold put_at. destruct (Nat.eqb y x); [intros [= <-]; now split|]. apply H5.
  - exact H6.
Qed.
Lemma method_inv x o w' v st V : inv st V -> st_env st x = Some o -> holds_value (w_amp w') (o_shape o) v -> (forall k, unit_draw (w_rand w' k)) ->
  inv (settle x o w' st) (vset x v (VState (v_env V) (w_rand w'))).
Proof.
  intros [[H1 H2] H3 H4 H5 H6] Hx Hv Hr. destruct (H5 x o Hx) as [Hs Hoff].
  assert (Hback : forall psi v, holds_value psi (o_shape o) v ->
    inv (Store (put_at (st_heap st) (o_buf o) (put (st_heap st (o_buf o)) (o_off o) (size (o_shape o)) psi)) (st_next st) (st_env st) (w_rand w'))
        (vset x v (VState (v_env V) (w_rand w')))).
  { intros psi u Hpsi. split; cbn [st_heap st_next st_env st_rand]; [split; [|reflexivity]|exact H3|exact H4|exact H5|exact Hr].
    intros y. cbn [st_env v_env vset]. destruct (Nat.eqb_spec y x) as [->|Hne].
    - rewrite Hx. eapply holds_ext; [|exact Hpsi]. intros a Ha. unfold content. cbn. rewrite put_at_eq. now apply put_in.
    - specialize (H1 y). destruct (st_env st y) as [o'|] eqn:Eo; [|exact H1]. destruct (v_env V y); [|exact H1].
      eapply holds_ext; [|exact H1]. intros a Ha. unfold content. cbn. rewrite put_at_ne; [reflexivity|]. exact (H4 y x o' o Hne Eo Hx). }
  unfold settle. destruct (w_home w') as [home|]; [|now apply Hback].
  assert (Hvx : exists u, holds_value home (o_shape o) u). { destruct (o_shape o) as [n|B n]; [exists (VVec n home)|exists (VBat B n (fun b => batch n b home))]; cbn; auto. }
  destruct Hvx as [u Hu]. pose proof (fresh_inv x (o_shape o) (w_amp w') v _ _ (Hback home u Hu) Hs Hv) as HF.
  destruct HF as [[F1 F2] F3 F4 F5 F6]. split; try assumption. split; [|exact F2]. intros y. specialize (F1 y). cbn [v_env vset] in *. destruct (Nat.eqb y x); exact F1.
Qed.
Lemma found {T} x o (k : obj -> host store T) st Q : st_env st x = Some o -> runs (k o) st Q -> runs (hbind (lookup x) k) st Q.
Proof.
  intros E H. eapply runs_bind_done; [split|].
  - intros r Hr. unfold lookup in Hr. rewrite E in Hr. subst r. instantiate (1 := fun o' st' => o' = o /\ st' = st). now split.
  - exists (HDone o st). unfold lookup. now rewrite E.
  - intros t w1 [-> ->]. exact H.
Qed.
Lemma allocated x s (k : unit -> host store unit) st Q : (forall junk, runs (k tt) (fresh x s junk st) Q) -> runs (hbind (alloc x s) k) st Q.
Proof.
  intros H. eapply (runs_bind_done _ _ _ (fun _ st' => exists junk, st' = fresh x s junk st)); [split|].
  - intros r [junk ->]. now exists junk.
  - exists (HDone tt (fresh x s (fun _ => C0) st)). now exists (fun _ => C0).
  - intros [] st' [junk ->]. apply H.
Qed.
(** A method whose outcome on the values is known *)
Definition method_ends (V : vstate) (x : nat) (s : shape) (r : voutcome) (o : houtcome world unit) : Prop :=
  match o, r with
  | HDone _ w', VDone V' => exists v, holds_value (w_amp w') s v /\ (forall k, unit_draw (w_rand w' k)) /\ V' = vset x v (VState (v_env V) (v_rand V')) /\ forall k, w_rand w' k = v_rand V' k
  | HThrown w', VThrown V' => exists v, holds_value (w_amp w') s v /\ (forall k, unit_draw (w_rand w' k)) /\ (forall y, v_env V' y = v_env (vset x v V) y) /\ forall k, w_rand w' k = v_rand V' k
  | _, _ => False
  end.
Lemma inv_env st V V' : inv st V -> (forall x, v_env V x = v_env V' x) -> (forall k, v_rand V k = v_rand V' k) -> inv st V'.
Proof.
  intros [[H1 H2] H3 H4 H5 H6] E1 E2. split; try assumption. split; [|intros k; now rewrite H2].
  intros x. specialize (H1 x). now rewrite E1 in H1.
Qed.
Definition good (op : oop) (V : vstate) (o : houtcome store unit) : Prop :=
  exists r, vstep op V r /\ match o, r with HDone _ st, VDone V' => inv st V' | HThrown st, VThrown V' => inv st V' | _, _ => False end.
Lemma method_good op x o reg p st V : inv st V -> st_env st x = Some o ->
  runs p (World (content st o) None reg (st_rand st)) (fun o' => exists r, vstep op V r /\ method_ends V x (o_shape o) r o') ->
  runs (method x o reg p) st (good op V).
Proof.
  intros HI Hx [H1 [o1 Ho1]]. split; [|eexists; exists o1; split; [exact Ho1|reflexivity]].
  intros r (r' & Hr' & ->). destruct (H1 r' Hr') as (vr & Hs & He). exists vr. split; [exact Hs|]. destruct r' as [[] w'|w'|], vr as [V'|V']; cbn [method_ends] in He; try contradiction.
  - destruct He as (v & Hv & Hd & -> & Hk). eapply inv_env; [exact (method_inv x o w' v st V HI Hx Hv Hd)| |]; [reflexivity|]. intros k. cbn [v_rand vset]. now rewrite Hk.
  - destruct He as (v & Hv & Hd & HV & Hk). eapply inv_env; [exact (method_inv x o w' v st V HI Hx Hv Hd)| |]; [intros y; symmetry; exact (HV y)|exact Hk].
Qed.
Lemma bound st V x v : inv st V -> v_env V x = Some v -> exists o, st_env st x = Some o /\ o_shape o = shape_of v /\ o_off o = 0 /\ shape_ok (shape_of v) /\ holds_value (content st o) (o_shape o) v.
Proof.
  intros [[H1 _] _ _ H5 _] E. specialize (H1 x). rewrite E in H1. destruct (st_env st x) as [o|] eqn:Eo; [|contradiction]. exists o. destruct (H5 x o Eo) as [Hs Ho].
  pose proof (holds_shape _ _ _ H1) as Es. rewrite Es. repeat split; try assumption; apply Hs.
Qed.

(** The methods of State.v as methods of objects *)
Lemma sets_good op x o st V n psi p r : inv st V -> st_env st x = Some o -> o_shape o = Single n -> v_env V x = Some (VVec n psi) -> holds_value (content st o) (o_shape o) (VVec n psi) ->
  match r with Some psi' => sets (2 ^ n) p (World (content st o) None [] (st_rand st)) psi' | None => throws p (World (content st o) None [] (st_rand st)) end ->
  vstep op V (becomes x V n r) -> runs (method x o [] p) st (good op V).
Proof.
  intros HI Hx Hs HV Hv Hp Hstep. apply method_good; [exact HI|exact Hx|]. destruct HI as [[_ H2] _ _ _ H6]. destruct r as [psi'|]; cbn [becomes] in Hstep.
  - eapply runs_weaken; [exact Hp|]. intros [[] w'|w'|]; cbn [done]; try contradiction. intros (A1 & A2 & A3 & A4). eexists. split; [exact Hstep|]. cbn [method_ends].
    exists (VVec n psi'). rewrite Hs. cbn [holds_value w_amp w_rand] in *. rewrite A4. split; [split; [reflexivity|exact A1]|]. split; [exact H6|]. split; [reflexivity|exact H2].
  - eapply runs_weaken; [exact Hp|]. intros o' ->. eexists. split; [exact Hstep|]. cbn [method_ends w_amp w_rand]. exists (VVec n psi).
    split; [exact Hv|]. split; [exact H6|]. split; [|exact H2]. intros y. cbn [v_env vset]. destruct (Nat.eqb_spec y x) as [->|]; [exact HV|reflexivity].
Qed.
Lemma rows_good op x o st V B n f p r : inv st V -> st_env st x = Some o -> o_shape o = Batch B n -> v_env V x = Some (VBat B n f) -> holds_value (content st o) (o_shape o) (VBat B n f) ->
  on_batches B n p (World (content st o) None [] (st_rand st)) r -> vstep op V (all_become x V B n r) -> runs (method x o [] p) st (good op V).
Proof.
  intros HI Hx Hs HV Hv Hp Hstep. apply method_good; [exact HI|exact Hx|]. destruct HI as [[_ H2] _ _ _ H6]. destruct r as [f'|]; cbn [all_become on_batches] in *.
  - eapply runs_weaken; [exact Hp|]. intros [[] w'|w'|]; cbn [done]; try contradiction. intros (A1 & A2 & A3 & A4). eexists. split; [exact Hstep|]. cbn [method_ends].
    exists (VBat B n f'). rewrite Hs. cbn [holds_value w_amp w_rand] in *. rewrite A4. split; [split; [reflexivity|split; [reflexivity|exact A1]]|]. split; [exact H6|]. split; [reflexivity|exact H2].
  - eapply runs_weaken; [exact Hp|]. intros o' ->. eexists. split; [exact Hstep|]. cbn [method_ends w_amp w_rand]. exists (VBat B n f).
    split; [exact Hv|]. split; [exact H6|]. split; [|exact H2]. intros y. cbn [v_env vset]. destruct (Nat.eqb_spec y x) as [->|]; [exact HV|reflexivity].
Qed.
Lemma pow2_eqb n m : (2 ^ n =? 2 ^ m) = (n =? m).
Proof. apply eq_true_iff_eq. rewrite !N.eqb_eq. split; [apply N.pow_inj_r; lia|now intros ->]. Qed.
Lemma nth_list (psi : state) k i : i < k -> nth (N.to_nat i) (map psi (seqN k)) C0 = psi i.
Proof. intros H. rewrite (nth_indep _ C0 (psi 0)) by (rewrite map_length, length_seqN; lia). rewrite map_nth, nth_seqN by lia. f_equal. lia. Qed.
