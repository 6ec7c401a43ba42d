(** Batched gates act on each element as on a single state. *)
From Verif Require Export CircuitProofs13.
From Coq Require Import ZifyBool ZifyN ZifyNat Permutation Lra.

Definition ematch (n : N) (w : bworld) (b : N) (s : sstate) : Prop :=
  (forall x, x < 2 ^ n -> bw_amp w (at_row n b x) = s_psi s x) /\
  nth_error (br_regs (bw_regs w)) (N.to_nat b) = Some (s_reg s) /\ N.of_nat (length (s_reg s)) = br_size (bw_regs w).
Definition bmatch (n B : N) (w : bworld) (bs : N -> sstate) : Prop :=
  N.of_nat (length (br_regs (bw_regs w))) = B /\ forall b, b < B -> ematch n w b (bs b).
Definition bdraws (w : bworld) : Prop := forall k, unit_draw (bw_rand w k).
Definition shifts (w w' : bworld) (k : nat) : Prop := forall i, bw_rand w' i = bw_rand w (k + i)%nat.
(** What a program does to element b alone, and to all elements. *)
Definition erel : Type := list R -> sstate -> soutcome -> Prop.
Definition one (n B : N) (w : bworld) (bs : N -> sstate) (b : N) (E : erel) (o : houtcome bworld unit) : Prop :=
  match o with
  | HDone _ w' => exists k s', E (map (bw_rand w) (seq 0 k)) (bs b) (SDone s') /\ shifts w w' k /\ bmatch n B w' (upd N.eqb bs b s')
  | HThrown w' => exists k s', E (map (bw_rand w) (seq 0 k)) (bs b) (SThrown s') /\ ematch n w' b s'
  | HUndefined => False
  end.
Definition all (n B : N) (w : bworld) (bs : N -> sstate) (E : N -> erel) (o : houtcome bworld unit) : Prop :=
  match o with
  | HDone _ w' => exists k use bs', separate B use /\ (forall b i, b < B -> In i (use b) -> (i < k)%nat) /\ shifts w w' k /\ bmatch n B w' bs' /\
                    forall b, b < B -> E b (map (bw_rand w) (use b)) (bs b) (SDone (bs' b))
  | HThrown w' => exists b us s', b < B /\ Forall unit_draw us /\ E b us (bs b) (SThrown s') /\ ematch n w' b s'
  | HUndefined => False
  end.
Definition safe (E : erel) (s : sstate) : Prop := forall us, Forall unit_draw us -> ~ E us s SOutside.

Lemma draws_shift w w' k : bdraws w -> shifts w w' k -> bdraws w'.
Proof. intros H Hs i. rewrite Hs. apply H. Qed.
Lemma draws_map w l : bdraws w -> Forall unit_draw (map (bw_rand w) l).
Proof. intros H. apply Forall_forall. intros x Hx. apply in_map_iff in Hx. destruct Hx as (i & <- & _). apply H. Qed.
Lemma step_reg_length n g us s o : step n g us s o -> forall s', o = SDone s' \/ o = SThrown s' -> length (s_reg s') = length (s_reg s).
Proof.
  induction 1 as [| | | |? ? ? ? ? ? _ _ IH]; intros s' Hs; [| | | |now apply IH]; destruct Hs as [Hs|Hs]; try discriminate; injection Hs as <-; cbn [s_reg]; auto.
  now apply with_bit_length.
Qed.
Lemma b_runs_bind_ret {W T U} (p : host W T) (k : T -> host W U) (w : W) t w1 Q : runs p w (fun o => o = HDone t w1) -> runs (k t) w1 Q -> runs (hbind p k) w Q.
Proof. intros H1 H2. eapply runs_bind; [exact H1|intros ? ? [= -> ->]; exact H2|intros ? [=]|intros [=]]. Qed.

(** ** A program on a view *)
Definition view_world (n : N) (w : bworld) (b : N) (reg : list bool) : world := World (fun i => bw_amp w (at_row n b i)) None reg (bw_rand w).
Lemma view_runs' n B b p sg w bs : b < B -> bmatch n B w bs ->
  (same_state n (view_world n w b (s_reg (bs b))) (bs b) ->
   runs p (view_world n w b (s_reg (bs b))) (fun o => exists us so, step n sg us (bs b) so /\ used (view_world n w b (s_reg (bs b))) us o /\
     ends_as n o so /\ (true = true -> home_kept (view_world n w b (s_reg (bs b))) o))) ->
  runs (on_view n b p) w (one n B w bs b (step n sg)).
Proof.
  intros Hb [HB Hm] Hr. destruct (Hm b Hb) as (H1 & H2 & H3).
  set (w0 := view_world n w b (s_reg (bs b))) in *.
  assert (Hsame : same_state n w0 (bs b)) by (split; [exact H1|reflexivity]).
  destruct (Hr Hsame) as [Ho [o1 Ho1]].
  assert (Hafter : forall w1 s', w_home w1 = None -> same_state n w1 s' -> length (s_reg s') = length (s_reg (bs b)) -> bmatch n B (after_view n b w w1) (upd N.eqb bs b s')).
  { intros w1 s' Hh [Ha Hg] Hl. unfold after_view. rewrite Hh. split; cbn [bw_regs br_regs breg_set]; [now rewrite reg_set_length|].
    intros b' Hb'. unfold upd, ematch. cbn [bw_amp bw_regs breg_set br_regs br_size]. destruct (N.eqb_spec b' b) as [->|Hne].
    - split; [|split].
      + intros x Hx. unfold put_row. rewrite row_div, row_mod, N.eqb_refl by assumption. now apply Ha.
      + rewrite reg_set_nth, Nat.eqb_refl, Hg. replace (Nat.ltb _ _) with true by lia. reflexivity.
      + rewrite Hl. exact H3.
    - destruct (Hm b' Hb') as (K1 & K2 & K3). split; [|split].
      + intros x Hx. unfold put_row. rewrite row_div, (proj2 (N.eqb_neq b' b) Hne) by assumption. now apply K1.
      + rewrite reg_set_nth. destruct (Nat.eqb_spec (N.to_nat b') (N.to_nat b)); [lia|exact K2].
      + exact K3. }
  assert (Hget : breg_get (bw_regs w) b = Ok (s_reg (bs b))) by (unfold breg_get; now rewrite H2).
  split.
  - intros o Hon. unfold on_view in Hon. rewrite Hget in Hon. destruct Hon as (o' & Hp & ->). specialize (Ho o' Hp). destruct Ho as (us & so & Hst & [Hu1 Hu2] & He & Hk). specialize (Hk eq_refl).
    destruct o' as [[] w1|w1|]; [| |contradiction]; destruct so as [s'|s'|]; try contradiction; cbn [one].
    + exists (length us), s'. cbn [w_rand w0 view_world] in Hu1. rewrite <- Hu1. split; [exact Hst|]. split; [exact Hu2|].
      apply Hafter; [exact Hk|exact He|exact (step_reg_length _ _ _ _ _ Hst s' (or_introl eq_refl))].
    + exists (length us), s'. cbn [w_rand w0 view_world] in Hu1. rewrite <- Hu1. split; [exact Hst|].
      pose proof (Hafter w1 s' Hk He (step_reg_length _ _ _ _ _ Hst s' (or_intror eq_refl))) as [_ Hb'].
      specialize (Hb' b Hb). unfold upd in Hb'. now rewrite N.eqb_refl in Hb'.
  - eexists. unfold on_view. rewrite Hget. exists o1. split; [exact Ho1|]. reflexivity.
Qed.

Lemma view_runs n B b p sg w bs : b < B -> bmatch n B w bs -> bdraws w -> refines n p sg true -> safe (step n sg) (bs b) ->
  runs (on_view n b p) w (one n B w bs b (step n sg)).
Proof. intros Hb Hm Hd Hr Hs. apply (view_runs' n B b p sg w bs Hb Hm). intros Hsame. exact (Hr _ _ Hsame Hd Hs). Qed.

(** ** A loop over the elements *)
Definition only (l : list N) (E : N -> erel) (b : N) : erel := fun us s so => if existsb (N.eqb b) l then E b us s so else us = [] /\ so = SDone s.
Lemma existsb_in b l : existsb (N.eqb b) l = true <-> In b l.
Proof. rewrite existsb_exists. split; [intros (x & H & E); apply N.eqb_eq in E; now subst|intros H; exists b; split; [assumption|apply N.eqb_refl]]. Qed.
Lemma for_runs n B (E : N -> erel) (f : N -> host bworld unit) (base : N -> sstate) :
  (forall b w bs, b < B -> bs b = base b -> bmatch n B w bs -> bdraws w -> runs (f b) w (one n B w bs b (E b))) ->
  forall l, NoDup l -> (forall b, In b l -> b < B) -> forall w bs, (forall b, In b l -> bs b = base b) -> bmatch n B w bs -> bdraws w ->
  runs (hfor l f) w (all n B w bs (only l E)).
Proof.
  intros Hf l. induction l as [|b l IH]; intros Hnd Hl w bs Hbs Hm Hd.
  - apply runs_ret. exists 0%nat, (fun _ => []), bs. split; [split; [constructor|intros ? ? ? ? ? []]|]. split; [intros ? ? ? []|].
    split; [intros i; reflexivity|]. split; [assumption|]. intros b _. split; reflexivity.
  - cbn [hfor]. inversion Hnd as [|? ? Hn Hnd']; subst. assert (Hb : b < B) by (apply Hl; now left).
    eapply runs_bind; [apply (Hf b w bs Hb (Hbs b (or_introl eq_refl)) Hm Hd)| | |intros []].
    + intros t w1 (k & s' & H1 & H2 & H3). eapply runs_weaken.
      * apply (IH Hnd' (fun b H => Hl b (or_intror H)) w1 (upd N.eqb bs b s')); [|exact H3|exact (draws_shift _ _ _ Hd H2)].
        intros b' Hb'. unfold upd. destruct (N.eqb_spec b' b) as [->|]; [contradiction|]. apply Hbs. now right.
      * intros [[] w2|w2|]; cbn [all]; [| |auto].
        -- intros (k2 & use & bs' & [Hs1 Hs2] & Hlt & Hsh & Hm2 & HE). exists (k + k2)%nat.
           exists (fun b' => if b' =? b then seq 0 k else map (fun i => (k + i)%nat) (use b')). exists bs'.
           split; [split|split; [|split; [|split]]].
           ++ intros b' Hb'. destruct (b' =? b); [apply seq_NoDup|]. apply FinFun.Injective_map_NoDup; [intros x y; lia|auto].
           ++ intros b1 b2 i Hb1 Hb2. destruct (N.eqb_spec b1 b) as [->|N1], (N.eqb_spec b2 b) as [->|N2]; auto.
              ** rewrite in_seq, in_map_iff. intros H (j & <- & _). lia.
              ** rewrite in_seq, in_map_iff. intros (j & <- & _) H. lia.
              ** rewrite !in_map_iff. intros (j & <- & Hj) (j' & E' & Hj'). assert (j' = j) by lia. subst j'. exact (Hs2 b1 b2 j Hb1 Hb2 Hj Hj').
           ++ intros b' i Hb'. destruct (b' =? b); [rewrite in_seq; lia|]. rewrite in_map_iff. intros (j & <- & Hj). specialize (Hlt b' j Hb' Hj). lia.
           ++ intros i. rewrite Hsh, H2. f_equal. lia.
           ++ exact Hm2.
           ++ intros b' Hb'. specialize (HE b' Hb'). unfold only in *. cbn [existsb]. unfold upd in HE. destruct (N.eqb_spec b' b) as [Heq|Hne]; cbn [orb]; [rewrite Heq in *|].
              ** destruct (existsb (N.eqb b) l) eqn:Ein; [apply existsb_in in Ein; contradiction|]. destruct HE as [_ HE]. injection HE as ->. exact H1.
              ** rewrite map_map. replace (map (fun x => bw_rand w (k + x)%nat) (use b')) with (map (bw_rand w1) (use b')); [exact HE|].
                 apply map_ext. intros i. apply H2.
        -- intros (b' & us & s2 & Hb' & Hus & HE & He). unfold only in HE. destruct (existsb (N.eqb b') l) eqn:Ein; [|destruct HE; discriminate].
           apply existsb_in in Ein. exists b', us, s2. split; [assumption|]. split; [assumption|]. split; [|exact He].
           unfold only. replace (existsb (N.eqb b') (b :: l)) with true by (symmetry; apply existsb_in; now right).
           unfold upd in HE. destruct (N.eqb_spec b' b) as [->|]; [contradiction|exact HE].
    + intros w1 (k & s' & H1 & H2). exists b, (map (bw_rand w) (seq 0 k)), s'. split; [assumption|]. split; [now apply draws_map|].
      split; [|exact H2]. unfold only. cbn [existsb]. now rewrite N.eqb_refl.
Qed.
Lemma for_all_runs n B (E : N -> erel) f w bs : 
  (forall b w bs', b < B -> bs' b = bs b -> bmatch n B w bs' -> bdraws w -> runs (f b) w (one n B w bs' b (E b))) ->
  bmatch n B w bs -> bdraws w -> runs (hfor (seqN B) f) w (all n B w bs E).
Proof.
  intros Hf Hm Hd. eapply runs_weaken; [apply (for_runs n B E f bs); auto|].
  - apply NoDup_seqN.
  - intros b. apply in_seqN.
  - assert (Ho : forall b us s so, b < B -> only (seqN B) E b us s so -> E b us s so).
    { intros b us s so Hb H. unfold only in H. replace (existsb (N.eqb b) (seqN B)) with true in H; [exact H|]. symmetry. apply existsb_in. now apply in_seqN. }
    intros [[] w'|w'|]; cbn [all]; auto.
    + intros (k & use & bs' & H1 & H2 & H3 & H4 & H5). exists k, use, bs'. repeat (split; [assumption|]). auto.
    + intros (b & us & s' & H1 & H2 & H3 & H4). exists b, us, s'. auto.
Qed.
