(** What is done to some qubits does not show on the others. *)
From Verif Require Export OrderProofs3 OperatorSpec.
From Verif Require Import ChannelProofs5.
From Coq Require Import ZifyBool ZifyN ZifyNat Lra FunctionalExtensionality.

(** * The trace *)
Definition tr (n : N) (rho : N -> N -> C) : C := Csum (2 ^ n) (fun x => rho x x).
Definition total (n : N) (m : nat) (s : ensemble) : C := Csuml (fun r => tr n (s r)) (registers m).
Lemma delta_sum n (a : state) x : x < 2 ^ n -> a x = Csum (2 ^ n) (fun k => a k * basis k x)%C.
Proof.
  intros Hx. rewrite (Csum_single _ _ x Hx); unfold basis.
  - rewrite N.eqb_refl. ring.
  - intros y _ Hy. destruct (N.eqb_spec x y); [congruence|ring].
Qed.
Lemma sqnorm_add n a b : sqnorm n (fun x => a x + b x)%C = (sqnorm n a + sqnorm n b + 2 * Re (inner n a b))%R.
Proof.
  unfold sqnorm, inner, Csum. induction (seqN (2 ^ n)) as [|x l IH]; [cbn; ring|]. unfold Rsuml, Csuml in *. cbn [fold_right]. rewrite IH.
  generalize (fold_right (fun y acc => (Cconj (a y) * b y + acc)%C) C0 l). intros z. unfold Cnorm2. destruct (a x), (b x), z. Cunfold. cbn [fst snd]. ring.
Qed.
Lemma inner_times n a b c : inner n a (fun x => c * b x)%C = (c * inner n a b)%C.
Proof. unfold inner, Csum. rewrite <- Csuml_mul_l. apply Csuml_ext. intros x _. ring. Qed.
Lemma inner_kept n f a b : act_linear f -> keeps n f -> inner n (f a) (f b) = inner n a b.
Proof.
  intros Hf Hk.
  assert (HRe : forall b, Re (inner n (f a) (f b)) = Re (inner n a b)).
  { intros b'. pose proof (Hk (fun x => a x + b' x)%C) as E. rewrite (sqnorm_add n a b'), <- (Hk a), <- (Hk b') in E.
    replace (f (fun x => a x + b' x)%C) with (fun x => f a x + f b' x)%C in E by (apply functional_extensionality; intros x; symmetry; now apply act_add).
    rewrite sqnorm_add in E. lra. }
  pose proof (HRe b) as E1. pose proof (HRe (fun x => Ci * b x)%C) as E2.
  replace (f (fun x => Ci * b x)%C) with (fun x => Ci * f b x)%C in E2 by (apply functional_extensionality; intros x; symmetry; now apply act_times).
  rewrite !inner_times in E2. destruct (inner n (f a) (f b)) as [p q], (inner n a b) as [p' q']. unfold Re, Cmul, Ci in *. cbn [fst snd] in *. f_equal; lra.
Qed.
Lemma act_sum {T} f (co : T -> C) (v : T -> state) l x : act_linear f -> f (fun y => Csuml (fun k => co k * v k y)%C l) x = Csuml (fun k => co k * f (v k) x)%C l.
Proof.
  intros Hf. induction l as [|k l IH]; [cbn; now apply act_zero|]. unfold Csuml in *. cbn [fold_right].
  rewrite (act_add f (fun y => co k * v k y)%C _ x Hf), IH, (act_times f _ _ x Hf). reflexivity.
Qed.
Lemma act_entries n f a x : act_linear f -> act_local n f -> x < 2 ^ n -> f a x = Csum (2 ^ n) (fun k => a k * f (basis k) x)%C.
Proof.
  intros Hf Hl Hx. rewrite (Hl a (fun y => Csum (2 ^ n) (fun k => a k * basis k y)%C)) by (intros; try apply delta_sum; assumption). now apply act_sum.
Qed.
Lemma trace_kept n f rho : act_linear f -> act_local n f -> keeps n f -> tr n (conjugated f rho) = tr n rho.
Proof.
  intros Hf Hl Hk. unfold tr.
  transitivity (Csum (2 ^ n) (fun x => Csum (2 ^ n) (fun l => Csum (2 ^ n) (fun k => rho k l * (Cconj (f (basis l) x) * f (basis k) x))))%C).
  { unfold Csum. apply Csuml_ext. intros x Hx. apply in_seqN in Hx. unfold conjugated. rewrite (act_entries n f _ x Hf Hl Hx). unfold Csum. rewrite Csuml_conj. apply Csuml_ext. intros l _.
    rewrite Cconj_mul, Cconj_invol, (act_entries n f (fun y => rho y l) x Hf Hl Hx). unfold Csum. rewrite <- Csuml_mul_r. apply Csuml_ext. intros k _. ring. }
  rewrite Csum_swap. unfold Csum at 1 4. apply Csuml_ext. intros l Hin. apply in_seqN in Hin. rewrite Csum_swap.
  rewrite (Csum_single _ _ l Hin).
  - fold (inner n (f (basis l)) (f (basis l))).
    replace (Csum (2 ^ n) (fun i => rho l l * (Cconj (f (basis l) i) * f (basis l) i))%C) with (rho l l * inner n (f (basis l)) (f (basis l)))%C by (unfold inner, Csum; now rewrite Csuml_mul_l).
    rewrite inner_kept by assumption. unfold inner. rewrite (Csum_single _ _ l Hin); unfold basis; [rewrite N.eqb_refl; unfold C1; rewrite ?Cconj_1; c_eq; ring|].
    intros i _ Hi. destruct (N.eqb_spec i l); [congruence|ring].
  - intros k Hk' Hne. replace (Csum (2 ^ n) (fun i => rho k l * (Cconj (f (basis l) i) * f (basis k) i))%C) with (rho k l * inner n (f (basis l)) (f (basis k)))%C by (unfold inner, Csum; now rewrite Csuml_mul_l).
    rewrite inner_kept by assumption. unfold inner. replace (Csum _ _) with C0; [ring|]. symmetry. apply Csuml_zero. intros i _. unfold basis. destruct (N.eqb_spec i l), (N.eqb_spec i k); try congruence; rewrite ?Cconj_0; ring.
Qed.
Lemma flip_linear q : act_linear (flipped q).
Proof. intros a b c x. reflexivity. Qed.
Lemma flip_local n q : q < n -> act_local n (flipped q).
Proof. intros Hq a b H x Hx. unfold flipped. apply H. exact (lxor_side n q true x Hq Hx). Qed.
Lemma collapsed_trace n q reset rho : q < n -> (tr n (collapsed q false reset rho) + tr n (collapsed q true reset rho))%C = tr n rho.
Proof.
  intros Hq. assert (E : tr n (collapsed q true reset rho) = tr n (collapsed q true false rho)).
  { destruct reset; [|reflexivity]. rewrite <- (trace_kept n (flipped q) (collapsed q true false rho) (flip_linear q) (flip_local n q Hq) (fun psi => sqnorm_flipped n q psi Hq)).
    unfold tr, Csum. apply Csuml_ext. intros x _. unfold conjugated, flipped, collapsed. cbn [andb]. cbv zeta. rewrite Cconj_invol, !N.lxor_0_r. reflexivity. }
  rewrite E. unfold tr, Csum. rewrite <- Csuml_add. apply Csuml_ext. intros x _. unfold collapsed. rewrite andb_false_r. cbn [andb]. cbv zeta. rewrite !N.lxor_0_r.
  unfold shows_bit. destruct (N.testbit x q); cbn [Bool.eqb andb]; ring.
Qed.
(** * Sums over the contents of the register *)
Lemma registers_pair (phi : list bool -> C) : forall m k, k < N.of_nat m ->
  Csuml phi (registers m) = Csuml (fun r => match nth_error r (N.to_nat k) with Some false => phi r + phi (with_bit r k true) | _ => C0 end)%C (registers m).
Proof.
  intros m. revert phi. induction m as [|m IH]; intros phi k Hk; [lia|]. cbn [registers]. rewrite !Csuml_app, !Csuml_map.
  destruct (N.eq_dec k 0) as [->|Hk0].
  - change (N.to_nat 0) with 0%nat. cbn [nth_error]. rewrite Csuml_add.
    match goal with |- _ = (_ + ?b + ?c)%C => replace c with C0 by (symmetry; apply Csuml_zero; auto); replace b with (Csuml (fun x => phi (true :: x)) (registers m)) by reflexivity end. ring.
  - assert (Ek : N.to_nat k = S (N.to_nat (k - 1))) by lia.
    assert (Ew : forall b r v, with_bit (b :: r) k v = b :: with_bit r (k - 1) v) by (intros b r v; unfold with_bit; rewrite Ek; reflexivity).
    rewrite Ek. cbn [nth_error]. rewrite (IH (fun r => phi (false :: r)) (k - 1)), (IH (fun r => phi (true :: r)) (k - 1)) by lia.
    f_equal; apply Csuml_ext; intros r _; destruct (nth_error r _) as [[]|]; now rewrite ?Ew.
Qed.
Lemma registers_length m : forall r, In r (registers m) -> length r = m.
Proof. induction m as [|m IH]; cbn [registers]; intros r H; [destruct H as [<-|[]]; reflexivity|]. apply in_app_or in H. destruct H as [H|H]; apply in_map_iff in H; destruct H as (r' & <- & H); cbn [length]; f_equal; auto. Qed.
Lemma tr_add n a b : tr n (fun i j => a i j + b i j)%C = (tr n a + tr n b)%C.
Proof. unfold tr, Csum. apply Csuml_add. Qed.
Lemma measuring_total n m q k reset s : q < n -> k < N.of_nat m -> total n m (measuring q k reset s) = total n m s.
Proof.
  intros Hq Hk. unfold total. rewrite (registers_pair (fun r => tr n (measuring q k reset s r)) m k Hk), (registers_pair (fun r => tr n (s r)) m k Hk).
  apply Csuml_ext. intros r Hr. apply registers_length in Hr. destruct (nth_error r (N.to_nat k)) as [[]|] eqn:E; try reflexivity.
  unfold measuring. rewrite E, with_bit_nth, !with_bit_twice, (with_bit_self r k false E) by lia. rewrite (collapsed_trace n q reset _ Hq). apply tr_add.
Qed.
Lemma total_add n m s t : total n m (e_add s t) = (total n m s + total n m t)%C.
Proof. unfold total. rewrite <- Csuml_add. apply Csuml_ext. intros r _. apply tr_add. Qed.
Lemma total_scale n m a s : total n m (e_scale a s) = Cscale a (total n m s).
Proof.
  assert (E : forall T (f : T -> C) l, Csuml (fun x => Cscale a (f x)) l = Cscale a (Csuml f l)).
  { intros T f l. induction l as [|x l IH]; [cbn; Csolve|]. unfold Csuml in *. cbn [fold_right]. rewrite IH. Csolve. }
  unfold total, tr, Csum, e_scale. rewrite <- E. apply Csuml_ext. intros r _. apply E.
Qed.
Lemma mixture_total n m v : forall l a, l <> [] -> (forall ps, In ps l -> total n m (snd ps) = v) -> total n m (mixture a l) = Cscale (1 - clip a) v.
Proof.
  induction l as [|[p s] l IH]; intros a Hl H; [congruence|]. destruct l as [|y l].
  - cbn [mixture]. rewrite total_scale. f_equal. exact (H (p, s) (or_introl eq_refl)).
  - rewrite mixture_cons, total_add, total_scale, (IH (a + p)%R); [|discriminate|intros ps Hps; apply H; now right]. rewrite (H (p, s) (or_introl eq_refl) : total n m s = v). Csolve.
Qed.
Fixpoint decided (g : sgate) : Prop := match g with Choice l => l <> [] /\ fold_right (fun pg P => decided (snd pg) /\ P) True l | _ => True end.
Lemma channel_total n m g : fine n g -> keeps_norm n g -> bits_exist m g -> decided g -> forall s, total n m (channel g s) = total n m s.
Proof.
  induction g as [qs f|q k reset|l IH] using sgate_ind'; intros Hf Hk Hb Hd s; cbn [channel].
  - destruct Hf as [Hf Hl]. unfold total. apply Csuml_ext. intros r _. now apply trace_kept.
  - now apply measuring_total.
  - destruct Hd as [Hne Hd]. rewrite (mixture_total n m (total n m s)).
    + unfold clip. rewrite Rmin_right, Rmax_left by lra. Csolve.
    + destruct l; [congruence|discriminate].
    + intros ps Hin. apply in_map_iff in Hin. destruct Hin as ([p g] & <- & Hin). cbn [fst snd]. rewrite Forall_forall in IH. apply (IH (p, g) Hin); clear IH Hne;
        [exact (fine_Choice n l Hf (p, g) Hin)| | |].
      * cbn [keeps_norm] in Hk. clear - Hk Hin. induction l as [|x l IHl]; [contradiction|]. destruct Hk. destruct Hin as [->|Hin]; auto.
      * cbn [bits_exist] in Hb. clear - Hb Hin. induction l as [|x l IHl]; [contradiction|]. destruct Hb. destruct Hin as [->|Hin]; auto.
      * clear - Hd Hin. induction l as [|x l IHl]; [contradiction|]. destruct Hd. destruct Hin as [->|Hin]; auto.
Qed.
Lemma conditioned_total n m c T s : (forall s, total n m (T s) = total n m s) -> (forall r, length r = m -> exists b, holds c r = Ok b) ->
  total n m (conditioned c T s) = total n m s.
Proof.
  intros HT Hc. unfold conditioned. rewrite total_add, HT. unfold total. rewrite <- Csuml_add. apply Csuml_ext. intros r Hr. destruct (Hc r (registers_length m r Hr)) as [[] ->];
    assert (E0 : tr n (fun _ _ => C0) = C0) by (apply Csuml_zero; auto); rewrite E0; ring.
Qed.
Theorem channels_total n m : forall l ms s, Forall (fun gc => fine n (fst gc) /\ keeps_norm n (fst gc) /\ decided (fst gc)) l -> orderly m ms l -> total n m (channels l s) = total n m s.
Proof.
  induction l as [|[g c] l IH]; intros ms s HF Ho; [reflexivity|]. inversion HF as [|? ? (H1 & H2 & H3) HF']; subst. cbn [fst] in *. destruct Ho as (Hb & Hc & _ & Ho). cbn [channels].
  rewrite (IH _ _ HF' Ho). apply conditioned_total; [|exact Hc]. now apply channel_total.
Qed.
(** * An observable on other qubits *)
Definition cols (G : state -> state) (s : ensemble) : ensemble := fun r => col G (s r).
Lemma cols_lin rs G : acts_on rs G -> elin (cols G).
Proof.
  intros HG. pose proof (linear_of rs G HG) as Hl. split; [intros s t|intros a s]; apply e_ext; intros r i j; unfold cols, col, e_add, e_scale.
  - exact (act_add G _ _ i Hl).
  - rewrite Cscale_mul. rewrite <- (act_times G _ _ i Hl). f_equal. apply functional_extensionality. intros x. apply Cscale_mul.
Qed.
Lemma cols_states rs G qs F : acts_on rs G -> acts_on qs F -> (forall q, In q rs -> ~ In q qs) -> ecomm (cols G) (on_states F).
Proof.
  intros HG HF Hd s. apply functional_extensionality. intros r. unfold cols, on_states. rewrite !conjugated_split, (row_col rs qs G F HG HF). f_equal.
  apply matrix_ext. intros i j. unfold col. exact (f_equal (fun v => v i) (acts_on_comm rs qs G F (fun x => s r x j) HG HF Hd)).
Qed.
Lemma cols_bit rs G k b e : acts_on rs G -> ecomm (cols G) (bit_from k b e).
Proof.
  intros HG s. pose proof (linear_of rs G HG) as Hl. apply e_ext. intros r i j. unfold cols, bit_from, col. destruct (nth_error r (N.to_nat k)) as [b'|]; [destruct (Bool.eqb b' b)|]; try reflexivity; exact (act_zero G i Hl).
Qed.
Lemma cols_conditioned rs G c T s : acts_on rs G -> ecomm (cols G) T -> cols G (conditioned c T s) = conditioned c T (cols G s).
Proof.
  intros HG HT. pose proof (linear_of rs G HG) as Hl. unfold conditioned. rewrite (proj1 (cols_lin rs G HG)), HT.
  assert (E : forall v, cols G (fun r => match holds c r with Ok b => if Bool.eqb b v then s r else fun _ _ => C0 | _ => fun _ _ => C0 end) =
                        (fun r => match holds c r with Ok b => if Bool.eqb b v then cols G s r else fun _ _ => C0 | _ => fun _ _ => C0 end)).
  { intros v. apply e_ext. intros r i j. unfold cols, col. destruct (holds c r) as [b| |]; [destruct (Bool.eqb b v)|..]; try reflexivity; exact (act_zero G i Hl). }
  pose proof (E true) as E1. pose proof (E false) as E2.
  assert (F1 : forall t : ensemble, (fun r => match holds c r with Ok true => t r | _ => fun _ _ => C0 end) = (fun r => match holds c r with Ok b => if Bool.eqb b true then t r else fun _ _ => C0 | _ => fun _ _ => C0 end)) by (intros t; apply functional_extensionality; intros r; destruct (holds c r) as [[]| |]; reflexivity).
  assert (F2 : forall t : ensemble, (fun r => match holds c r with Ok false => t r | _ => fun _ _ => C0 end) = (fun r => match holds c r with Ok b => if Bool.eqb b false then t r else fun _ _ => C0 | _ => fun _ _ => C0 end)) by (intros t; apply functional_extensionality; intros r; destruct (holds c r) as [[]| |]; reflexivity).
  rewrite !F1, !F2, E1, E2. reflexivity.
Qed.
Lemma cols_channels rs G : acts_on rs G -> forall l s, Forall (fun gc => local (fst gc) /\ forall q, In q rs -> ~ In q (operands (fst gc))) l -> cols G (channels l s) = channels l (cols G s).
Proof.
  intros HG. induction l as [|[g c] l IH]; intros s HF; [reflexivity|]. inversion HF as [|? ? [Hl Hd] HF']; subst. cbn [fst channels] in *. rewrite (IH _ HF'). f_equal.
  apply (cols_conditioned rs); [assumption|]. apply comm_channel; [exact (cols_lin rs G HG)|assumption| |].
  - intros F HF0. exact (cols_states rs G _ F HG HF0 Hd).
  - intros k b e _. exact (cols_bit rs G k b e HG).
Qed.
(** * Gates a program can hold *)
Lemma decided_choice d ss : d <> [] -> length d = length ss -> Forall decided ss -> decided (Choice (combine d ss)).
Proof.
  intros Hd Hl HF. split; [destruct d, ss; try discriminate; congruence|]. clear Hd. revert d Hl. induction HF as [|s ss Hs _ IH]; intros [|p d] Hl; try discriminate; [exact I|]. cbn [combine fold_right snd]. split; [exact Hs|]. apply IH. now injection Hl.
Qed.
Lemma stands_decided g : forall s, stands g s -> decided s.
Proof.
  induction g as [[t e]|t b r|t d gs IH] using cgate_ind'; intros s H; inversion H as [? ? ? Ha|? ? ? ? Hm|? ? ? ss Hd Hl H2]; subst; try exact I.
  - destruct (acts_spec _ _ Ha) as (qs & f & -> & _). exact I.
  - destruct Hd as [Hd _]. apply decided_choice; [exact Hd|rewrite Hl; exact (Forall2_len _ _ _ H2)|].
    clear - IH H2. induction H2 as [|g s gs ss Hg H2 IH2]; constructor; inversion IH; subst; auto.
Qed.
Lemma pstands_decided g : forall s v, pstands (inr g) s -> decided (s v).
Proof.
  induction g as [t k b c|t b p c|t d gs IH] using pgate_ind'; intros s v H.
  - destruct (acts_spec _ _ (pacts_at _ s v H I)) as (qs & f & -> & _). exact I.
  - destruct (acts_spec _ _ (pacts_at _ s v H I)) as (qs & f & -> & _). exact I.
  - apply pstands_choice_inv in H. destruct H as (ss & [Hd _] & Hl & H2 & ->). apply decided_choice; [exact Hd|rewrite map_length, Hl; exact (Forall2_len _ _ _ H2)|].
    clear - IH H2. induction H2 as [|g s gs ss Hg H2 IH2]; cbn [map]; constructor; inversion IH; subst; auto.
    destruct g as [g|g]; [inversion Hg; subst; eapply stands_decided; eassumption|auto].
Qed.
Lemma program_items n ps items p l : n < 64 -> Forall2 represents items (map fst p) -> instantiate ps p = Some l -> Forall (fun q => q < n) (program_operands p) ->
  Forall (fun gc => local (fst gc) /\ decided (fst gc) /\ incl (operands (fst gc)) (program_operands p)) l.
Proof.
  intros Hn. revert items l. induction p as [|[si c] p IH]; intros items l H Hl HF; inversion H as [|i si' items' ? Hi Hr]; subst; cbn [instantiate] in Hl; [injection Hl as <-; constructor|].
  destruct (item_gate ps si) as [g|] eqn:Eg; [|discriminate]. destruct (instantiate ps p) as [l'|] eqn:El; [|discriminate]. injection Hl as <-.
  unfold program_operands in *. cbn [flat_map fst] in *. apply Forall_app in HF. destruct HF as [HF1 HF2]. constructor; cbn [fst].
  - split; [apply (known_local n ps Hn (i, c) (si, c) g); [now split|exact HF1|exact Eg]|]. split.
    + destruct Hi as [g0 s Hs|g0 key s Hs]; cbn [item_gate] in Eg; [injection Eg as <-; now apply (stands_decided g0)|]. destruct (ps key); [|discriminate]. injection Eg as <-. now apply (pstands_decided g0).
    + intros q Hq. apply in_or_app. left. apply (item_mask_operands i si q Hi). now apply (item_mask_spec ps i si g Hi Eg).
  - eapply Forall_impl; [|apply (IH items' l' Hr eq_refl HF2)]. intros gc (H1 & H2 & H3). split; [assumption|]. split; [assumption|]. intros q Hq. apply in_or_app. right. auto.
Qed.
