(** The claims about measurements in rounded arithmetic (C65). *)
From Verif Require Export FloatProofs24.
From Verif Require Import FloatProofs7 FloatProofs17 FloatProofs18 FloatProofs20 FloatMeasureSpec.
From Coq Require Import Lia Lra ZifyBool ZifyN ZifyNat.
Open Scope R_scope.

Lemma binary_sign_kept prec emin A : (8 <= prec)%Z -> binary prec emin A -> sign_kept A.
Proof. intros Hp [E _] x Hx. rewrite E. apply nearest_sign; [lia|exact Hx]. Qed.
Lemma dcircuit_rounded u eta e64 A rnd64 n L h ps c l us s d s' d' w : accurate u eta A -> sign_kept A -> adds_doubles e64 rnd64 -> (n < 64)%N -> lanes_ok L -> height_ok u n h ->
  dcircuit_is u A n ps c l -> decided u eta e64 n h l [] us s d s' d' -> draws w us -> held A (2 ^ n) (w_amp w) -> sqnorm n (s_psi s) = 1 ->
  distance n (w_amp w) (s_psi s) <= d -> w_reg w = s_reg s ->
  runs (f_circuit_update A (shallow h) rnd64 n L ps c) w (done (fun _ w' =>
    distance n (w_amp w') (s_psi s') <= d' /\ w_reg w' = s_reg s' /\ held A (2 ^ n) (w_amp w') /\ sqnorm n (s_psi s') = 1 /\ (forall i, w_rand w' i = w_rand w (length us + i)%nat))).
Proof.
  intros HA Hsg H64 Hn HL Hh Hc Hdec Hdr Hw Hs Hd Hr. unfold f_circuit_update. rewrite (required_made u A n ps c l Hc), (keys_made u A n ps c l Hc). cbn [hcheck].
  do 2 (eapply returns_bind; [apply runs_ret; reflexivity|]).
  destruct Hc as [Hc1 ->]. apply (items_rounded u eta A n L h HA Hn HL Hh Hsg e64 rnd64 H64 ps l [] us s d s' d' Hdec); try assumption. intros q. rewrite N.bits_0. split; [discriminate|intros []].
Qed.
(** ** The exact run *)
Fixpoint dkeeps (n : N) (g : dgate) : Prop :=
  match g with
  | DAct k => forall psi, sqnorm n (call_act k psi) = sqnorm n psi
  | DTurn k v => forall psi, sqnorm n (call_act (pcall_at k v) psi) = sqnorm n psi
  | DMeas q _ _ => (q < n)%N
  | DChoice l => fold_right (fun pg P => dkeeps n (snd pg) /\ P) True l
  end.
Lemma dkeeps_choice n l : dkeeps n (DChoice l) <-> Forall (fun pg => dkeeps n (snd pg)) l.
Proof. cbn [dkeeps]. induction l as [|pg l IH]; cbn [fold_right]; split; intros H; [constructor|exact I|constructor; [apply H|apply IH, H]|inversion H; subst; split; [assumption|now apply IH]]. Qed.
Lemma dkeeps_combine n dist ds : Forall (dkeeps n) ds -> dkeeps n (DChoice (combine dist ds)).
Proof. intros H. apply dkeeps_choice. apply Forall_forall. intros [p g] Hin. apply in_combine_r in Hin. rewrite Forall_forall in H. now apply H. Qed.
Lemma cmade_keeps u A n g d : (n < 64)%N -> cmade u A n g d -> dkeeps n d.
Proof.
  intros Hn H. induction H using cmade_induct.
  - cbn [dkeeps]. intros psi. pose proof (FloatProofs6.act_keeps u A n k g psi Hn H) as HK. rewrite <- !vnorm_sq. unfold call_act. now rewrite HK.
  - exact H0.
  - apply dkeeps_combine. match goal with K : Forall2 (fun _ d => dkeeps n d) gs ds |- _ => clear -K; induction K; constructor; assumption end.
Qed.
Lemma turn_keeps A n k g v psi : (n < 64)%N -> turn_ok A n k g -> sqnorm n (call_act (pcall_at k v) psi) = sqnorm n psi.
Proof.
  intros Hn (Hty & (vf & Hmk) & _ & Hco & Hops). destruct (make_param_at vf k g v Hmk) as [Hmv _].
  assert (Hin : inner n (call_act (pcall_at k v) psi) (call_act (pcall_at k v) psi) = inner n psi psi).
  { apply (call_inner vf _ (pgate_at g v) n); [exact Hn|now apply pcall_typed_at|exact Hmv| |destruct k; exact Hops]. destruct k as [[]|]; cbn; [exact I..|apply Hco]. }
  change (norm2 n (call_act (pcall_at k v) psi) = norm2 n psi) in Hin. rewrite <- !sqnorm_norm2 in Hin. now injection Hin as Hin.
Qed.
Lemma pmade_keeps u A n v g d : (n < 64)%N -> pmade u A n v g d -> dkeeps n d.
Proof.
  intros Hn H. induction H using pmade_induct.
  - now apply (cmade_keeps u A n g).
  - intros psi. now apply (turn_keeps A n k g).
  - apply dkeeps_combine. match goal with K : Forall2 (fun _ d => dkeeps n d) gs ds |- _ => clear -K; induction K; constructor; assumption end.
Qed.
Lemma dmade_keeps u A n ps i d : (n < 64)%N -> dmade u A n ps i d -> dkeeps n d.
Proof. intros Hn [g d' H|g key v d' _ H]; [now apply (cmade_keeps u A n g)|now apply (pmade_keeps u A n v (inr g))]. Qed.
Lemma gdecided_exact u eta e64 n h g us s d s' d' : 0 <= e64 -> gdecided u eta e64 n h g us s d s' d' -> dkeeps n g -> sqnorm n (s_psi s) = 1 ->
  step n (dgate_of g) us s (SDone s') /\ sqnorm n (s_psi s') = 1.
Proof.
  intros He H. induction H as [k s d Hd1|k v s d Hd1 k'|q bit reset x s d Hd1 Hbit Hdec b Hlik|l x g us s d s' d' Hx Hle Hpick H IH]; intros Hk Hs.
  - split; [constructor|]. cbn [s_psi]. rewrite <- Hs. apply Hk.
  - split; [constructor|]. cbn [s_psi]. rewrite <- Hs. apply Hk.
  - split; [constructor; [exact Hbit|exact Hs|reflexivity]|]. cbn [s_psi]. apply sqnorm_measured; [exact Hk|apply Hlik].
  - destruct Hpick as (l1 & p & l2 & -> & H1 & H2). apply dkeeps_choice in Hk. apply Forall_app in Hk. destruct Hk as [_ Hk]. inversion Hk as [|? ? Hk1 _]; subst. destruct (IH Hk1 Hs) as [K1 K2]. split; [|exact K2].
    cbn [dgate_of]. eapply step_choice; [|exact K1]. set (f := fun pg : R * dgate => (fst pg, dgate_of (snd pg))). exists (map f l1), p, (map f l2). rewrite map_app. split; [reflexivity|].
    assert (E : Rsuml fst (map f l1) = Rsuml fst l1) by (rewrite StateProofs.Rsuml_map; reflexivity). rewrite E. assert (0 <= INR (length (l1 ++ (p, g) :: l2)) * e64) by (apply Rmult_le_pos; [apply pos_INR|exact He]). split.
    + destruct H1 as [-> |H1]; [exact Hx|lra].
    + destruct H2 as [H2| ->]; [left; lra|now right].
Qed.
Lemma decided_exact u eta e64 n h l ms us s d s' d' : 0 <= e64 -> decided u eta e64 n h l ms us s d s' d' -> sqnorm n (s_psi s) = 1 -> Forall (fun gc => dkeeps n (fst gc)) l ->
  exec_list watch_all n (map (fun gc => (dgate_of (fst gc), snd gc)) l) ms us s (SDone s').
Proof.
  intros He H. induction H as [ms s d|g c r ms us s d s' d' Hc H IH|g c r ms us vs s d s1 d1 s' d' Hc Ht Hg H IH]; intros Hs HF.
  - constructor.
  - inversion HF; subst. cbn. apply exec_skip; [exact Hc|]. now apply IH.
  - inversion HF as [|? ? Hk HF']; subst. destruct (gdecided_exact u eta e64 n h g us s d s1 d1 He Hg Hk Hs) as [K1 K2]. cbn [map fst snd]. eapply exec_gate; [exact Hc|intros _; exact Ht|exact K1|]. now apply IH.
Qed.
Lemma dcircuit_exact u eta e64 A rnd64 n h ps c l us s d s' d' : adds_doubles e64 rnd64 -> (n < 64)%N -> dcircuit_is u A n ps c l -> decided u eta e64 n h l [] us s d s' d' -> sqnorm n (s_psi s) = 1 ->
  exists p, circuit_is c p /\ run_program watch_all n ps p us s (SDone s').
Proof.
  intros H64 Hn Hc Hd Hs. destruct (dcircuit_program _ _ _ _ _ _ Hc) as (p & Hp & Hi & HF). exists p. split; [exact Hp|]. unfold run_program.
  pose proof (required_made u A n ps c l Hc) as Hr. rewrite (required_spec c p n Hp) in Hr. apply negb_true_iff in Hr. rewrite Hr, Hi.
  apply (decided_exact u eta e64 n h l [] us s d s' d' (e64_nonneg e64 rnd64 H64) Hd Hs). destruct Hc as [Hc _]. clear -Hc Hn. revert Hc. generalize (c_gates c). induction l as [|[g f] l IH]; intros items Hc; constructor; inversion Hc; subst.
  - cbn [fst]. eapply dmade_keeps; eassumption.
  - eapply IH. eassumption.
Qed.

(** ** Double precision *)
Lemma double_measure A rnd64 n L h q bit reset g w phi d : binary 53 (-1074) A -> (n <= 40)%N -> lanes_ok L -> (N.to_nat n < h <= 10 ^ 6)%nat ->
  make_measurement q bit reset = Ok g -> (q < n)%N -> (bit < N.of_nat (length (w_reg w)))%N ->
  held A (2 ^ n) (w_amp w) -> sqnorm n phi = 1 -> distance n (w_amp w) phi <= d -> d <= / 10 ^ 9 ->
  bit_prob n q false phi <= 1 - / 10 ^ 8 ->
  (forall b, outcome_about (/ 10 ^ 8) (bit_prob n q false phi) (w_rand w 0%nat) b -> / 10 ^ 6 <= bit_prob n q b phi) ->
  runs (f_cgate_update A (shallow h) rnd64 n L g) w (done (fun _ w' => exists b,
    outcome_about (/ 10 ^ 8) (bit_prob n q false phi) (w_rand w 0%nat) b /\ w_reg w' = with_bit (w_reg w) bit b /\
    distance n (w_amp w') (measured n q reset b phi) <= 2 * d / sqrt (bit_prob n q b phi) + 2 / 10 ^ 9 /\ held A (2 ^ n) (w_amp w') /\
    (forall i, w_rand w' i = w_rand w (S i)))).
Proof.
  intros HB Hn HL [Hh1 Hh2] Hm Hq Hbit Hw Hphi Hd Hd9 Hp0 Hl. assert (HA : accurate (unit_of 53) (tiny_of (-1074)) A) by (apply binary_accurate; [lia|lia|exact HB]).
  assert (E8 : 10 ^ 8 = 100000000) by (rewrite pow_IZR; apply f_equal; reflexivity). assert (E9 : 10 ^ 9 = 1000000000) by (rewrite pow_IZR; apply f_equal; reflexivity). assert (E6 : 10 ^ 6 = 1000000) by (rewrite pow_IZR; apply f_equal; reflexivity).
  rewrite E8, E9, E6 in *. clear E8 E9 E6.
  assert (Hh3 : INR h <= 1000000). { apply le_INR in Hh2. rewrite pow_INR in Hh2. replace (INR 10) with 10 in Hh2 by (cbn; ring). lra. }
  pose proof (pos_INR h) as Hh0. pose proof unit_53 as Eu. pose proof (tiny_size n Hn) as Ht.
  assert (Hh : height_ok (unit_of 53) n h). { split; [exact Hh1|]. rewrite Eu. lra. }
  pose proof (vnorm_nonneg n (fun x => w_amp w x - phi x)%C) as Hd0. change (vnorm n (fun x => w_amp w x - phi x)%C) with (distance n (w_amp w) phi) in Hd0.
  set (e := measure_error (unit_of 53) (tiny_of (-1074)) n h d). assert (He : e <= / 100000000).
  { unfold e, measure_error. pose proof (double_sum n h Hn) as Hs. rewrite ten15 in Hs. lra. }
  assert (Hw' : forall b, outcome_about e (bit_prob n q false phi) (w_rand w 0%nat) b -> outcome_about (/ 100000000) (bit_prob n q false phi) (w_rand w 0%nat) b).
  { intros b. destruct b; cbn; lra. }
  assert (Hsum : forall p, / 1000000 <= p -> sum_error (unit_of 53) (tiny_of (-1074)) n h 9 (p / 4) <= p / 4 * (7 / 10000000000)).
  { intros p Hp. unfold sum_error. rewrite Eu. assert ((5 * INR h + 9) * / 9007199254740992 * (p / 4) <= (5 * 1000000 + 9) * / 9007199254740992 * (p / 4)) by (apply Rmult_le_compat_r; lra). lra. }
  eapply runs_weaken; [apply (measurement_rounded (unit_of 53) (tiny_of (-1074)) A n L h HA ltac:(lia) HL Hh (binary_sign_kept 53 (-1074) A ltac:(lia) HB) rnd64 q bit reset g w phi d); try assumption; [lra|fold e; lra|]|].
  - fold e. intros b Hb. specialize (Hl b (Hw' b Hb)). set (p := bit_prob n q b phi) in *. split; [lra|]. split.
    + assert (Hs : / 1000 <= sqrt p). { replace (/ 1000) with (sqrt (/ 1000 * / 1000)) by (apply sqrt_square; lra). apply sqrt_le_1; lra. } lra.
    + specialize (Hsum p Hl). lra.
  - intros [t w'|w'|]; cbn [done]; try tauto. fold e. intros (b & H1 & H2 & H3 & H4). exists b. specialize (Hw' b H1). specialize (Hl b Hw'). split; [exact Hw'|]. split; [exact H2|]. split; [|exact H4].
    eapply Rle_trans; [exact H3|]. unfold after_measure. apply Rplus_le_compat_l. set (p := bit_prob n q b phi) in *. unfold normalize_error. specialize (Hsum p Hl).
    assert (sum_error (unit_of 53) (tiny_of (-1074)) n h 9 (p / 4) / (p / 4) <= 7 / 10000000000).
    { apply Rmult_le_reg_r with (p / 4); [lra|]. unfold Rdiv at 1. rewrite Rmult_assoc, Rinv_l, Rmult_1_r by lra. lra. }
    assert (Hsq : sqrt (2 ^ N.to_nat n) <= 2 ^ N.to_nat n). { assert (HX : 1 <= 2 ^ N.to_nat n) by (apply pow_R1_Rle; lra). revert HX. generalize (2 ^ N.to_nat n). clear. intros X HX. rewrite <- (sqrt_square X) at 2 by lra. apply sqrt_le_1; nra. }
    assert (tiny_of (-1074) * sqrt (2 ^ N.to_nat n) <= tiny_of (-1074) * 2 ^ N.to_nat n) by (apply Rmult_le_compat_l; [apply (acc_eta _ _ _ HA)|exact Hsq]). rewrite Eu in *. lra.
Qed.

(** ** A qubit that certainly shows 0 *)
Ltac bits := repeat match goal with
  | |- context [N.clearbit ?a ?q] => ev (N.clearbit a q)
  | |- context [N.setbit ?a ?q] => ev (N.setbit a q)
  | |- context [N.b2n ?a] => ev (N.b2n a)
  end; numerals.
Lemma isq2_sq : / sqrt 2 * / sqrt 2 = / 2.
Proof. rewrite <- Rinv_mult. f_equal. apply sqrt_sqrt. lra. Qed.
Lemma certain_exact : bit_prob 2 1 false (apply_mat [0%N] [] (std1_textbook GH) all_zero) = 1.
Proof.
  unfold bit_prob, prob. change (filter (shows_bit 1 false) (seqN (2 ^ 2))) with [0; 1]%N. unfold Rsuml. cbn [fold_right]. rewrite !apply_mat_one. cbn [ctrl_ok forallb].
  unfold all_zero. bits. cbn [std1_textbook]. unfold mat2. bits. cbn [andb]. unfold isq2, C0, C1, RtoC, Cnorm2, Cmul, Cadd. cbn [fst snd]. pose proof isq2_sq. lra.
Qed.
Lemma above_one : exists A, binary 53 (-1074) A /\ forall L rnd64 ps c w, lanes_ok L -> untouched_measured c -> (forall x, (x < 4)%N -> w_amp w x = all_zero x) -> w_reg w <> [] ->
  runs (f_circuit_update A in_order rnd64 2 L ps c) w (fun o => o = HUndefined).
Proof.
  pose proof (correctly_rounded_binary 53 (-1074) ltac:(lia) ltac:(lia)) as HB. exists (correctly_rounded 53 (-1074)). split; [exact HB|].
  intros L rnd64 ps c w HL Hc Hw Hr. pose proof (binary_accurate 53 (-1074) ltac:(lia) ltac:(lia) _ HB) as HA.
  assert (Ex : a_isq2 (correctly_rounded 53 (-1074)) = 6369051672525773 * Raux.bpow Zaux.radix2 (-53)) by (cbn [correctly_rounded a_isq2]; apply double_isq2).
  apply (certain_fails (unit_of 53) (tiny_of (-1074)) _ L (4503599627370497 * Raux.bpow Zaux.radix2 (-53)) (1 + / 4503599627370496) HA HL); try assumption.
  - cbn [correctly_rounded a_isq2 a_rnd]. apply nearest_idem; lia.
  - rewrite Ex. apply double_square.
  - apply FloatProofs24.double_sum.
  - destruct (w_reg w); [contradiction|cbn; lia].
  - apply (nearest_exact 53 (-1074) ltac:(lia) 4503599627370497); lia.
  - left. lra.
Qed.
Lemma below_one : exists A, binary 24 (-149) A /\ forall L rnd64 ps c w, lanes_ok L -> untouched_measured c -> (forall x, (x < 4)%N -> w_amp w x = all_zero x) -> w_reg w <> [] ->
  1 - / 2 ^ 24 <= w_rand w 0%nat -> runs (f_circuit_update A in_order rnd64 2 L ps c) w (fun o => o = HUndefined).
Proof.
  exists (correctly_rounded 24 (-149)). split; [exact binary_24|].
  intros L rnd64 ps c w HL Hc Hw Hr Hd. pose proof (binary_accurate 24 (-149) ltac:(lia) ltac:(lia) _ binary_24) as HA.
  assert (E24 : 2 ^ 24 = 16777216) by (rewrite pow_IZR; apply f_equal; reflexivity). rewrite E24 in Hd.
  assert (Ex : a_isq2 (correctly_rounded 24 (-149)) = 11863283 * Raux.bpow Zaux.radix2 (-24)) by (cbn [correctly_rounded a_isq2]; apply single_isq2).
  apply (certain_fails (unit_of 24) (tiny_of (-149)) _ L (16777215 * Raux.bpow Zaux.radix2 (-25)) (1 - / 16777216) HA HL); try assumption.
  - cbn [correctly_rounded a_isq2 a_rnd]. apply nearest_idem; lia.
  - rewrite Ex. apply single_square.
  - apply single_sum.
  - destruct (w_reg w); [contradiction|cbn; lia].
  - apply (nearest_exact 24 (-149) ltac:(lia) 16777215); lia.
  - right. lra.
Qed.
Lemma untouched_example : exists c, untouched_measured c.
Proof.
  exists (build [OGate (CElem (true, EStd GH (GBase 1 0 0))); OGate (CMeas 2 0 false)]), true, true, (EStd GH (GBase 1 0 0)), (CMeas 2 0 false). repeat split; reflexivity.
Qed.

(** ** A circuit of one qubit: H, a measurement, X if it showed 1, RX by a parameter, X or nothing by chance *)
Lemma nearest_1 prec emin : (8 <= prec)%Z -> (emin <= 0)%Z -> nearest prec emin 1 = 1.
Proof.
  intros Hp He. pose proof (nearest_exact prec emin ltac:(lia) 1 0) as H. change (Raux.bpow Zaux.radix2 0) with 1 in H; rewrite !Rmult_1_l in H. apply H; [change (Z.abs 1) with (2 ^ 0)%Z; apply Z.pow_le_mono_r; lia|lia].
Qed.
Lemma doubles_added : adds_doubles (/ 2 ^ 51) (nearest 53 (-1074)).
Proof.
  intros x Hx. pose proof (binary_accurate 53 (-1074) ltac:(lia) ltac:(lia) _ (correctly_rounded_binary 53 (-1074) ltac:(lia) ltac:(lia))) as HA. pose proof (acc_rnd _ _ _ HA x) as H. cbn [correctly_rounded a_rnd] in H.
  pose proof unit_53 as Eu. pose proof (tiny_size 0 ltac:(lia)) as Ht. change (2 ^ N.to_nat 0) with 1 in Ht. rewrite Eu in H. assert (E : 2 ^ 51 = 2251799813685248) by (rewrite pow_IZR; apply f_equal; reflexivity). rewrite E. lra.
Qed.
Definition shows_one : cond := fun r => match r with b :: _ => Ok b | [] => Throw end.
Definition by_t : pcall := PCallRot RotX 0 1 [] [].
Definition half_values : params := fun _ => Some (/ 2).
Definition turned : list (dgate * option cond) :=
  [(DAct (Call1 GH 0 [] []), None); (DMeas 0 0 true, None); (DAct (Call1 GX 0 [] []), Some shows_one); (DTurn by_t (/ 2), None);
   (DChoice [(/ 4, DAct (Call1 GX 0 [] [])); (3 / 4, DAct CallI)], None)].
Definition turning : circuit :=
  build [OGate (CElem (true, EStd GH (GBase 1 0 0))); OGate (CMeas 1 0 true); OCondGate (CElem (true, EStd GX (GBase 1 0 0))) shows_one;
         OParam (PRot true RotX (GBase 1 0 0) 1) "t"; OGate (CProb true [/ 4; 3 / 4] [CElem (true, EStd GX (GBase 1 0 0)); CElem (true, EI)])].
Lemma turning_is : dcircuit_is (unit_of 53) (correctly_rounded 53 (-1074)) 1 half_values turning turned.
Proof.
  split; [|reflexivity]. cbn [turning build fold_left build1 add_gate add_param_gate add_conditional_gate c_new c_gates app turned map fst].
  assert (Hx : forall t, cmade (unit_of 53) (correctly_rounded 53 (-1074)) 1 (CElem (t, EStd GX (GBase 1 0 0))) (DAct (Call1 GX 0 [] []))).
  { intros t. constructor. split; [exact I|split; [exists true; vm_compute; reflexivity|]]. repeat split; repeat constructor. }
  constructor; [|constructor; [|constructor; [|constructor; [|constructor; [|constructor]]]]].
  - constructor. constructor. split; [exact I|split; [exists true; vm_compute; reflexivity|]]. repeat split; repeat constructor.
  - constructor. constructor; [reflexivity|lia].
  - constructor. apply Hx.
  - apply (dmade_param _ _ _ _ _ _ (/ 2)); [reflexivity|]. constructor. split; [exact I|]. split; [exists true; cbn [make_param by_t]; vm_compute (resize_and_check_control_values _ _); cbn [bindR]; vm_compute (mask_args _ _ _ _); cbn [bindR]; vm_compute (make_base _ _ _); reflexivity|].
    split; [cbn [correctly_rounded a_rnd pcall_factor by_t]; apply nearest_1; lia|]. split; [exact I|]. repeat constructor.
  - constructor. change [(/ 4, DAct (Call1 GX 0 [] [])); (3 / 4, DAct CallI)] with (combine [/ 4; 3 / 4] [DAct (Call1 GX 0 [] []); DAct CallI]). constructor; [|reflexivity|].
    + split; [discriminate|]. split; [repeat constructor; lra|]. unfold Rsuml. cbn [fold_right]. replace (/ 4 + (3 / 4 + 0) - 1) with 0 by field. rewrite Rabs_R0. apply Rlt_le, Rinv_0_lt_compat, pow_lt. lra.
    + constructor; [apply Hx|]. constructor; [|constructor]. constructor. split; [exact I|split; [exists true; vm_compute; reflexivity|]]. repeat split; repeat constructor.
Qed.
Lemma half_prob b : bit_prob 1 0 b (apply_mat [0%N] [] (std1_textbook GH) all_zero) = / 2.
Proof.
  unfold bit_prob, prob. destruct b; [change (filter (shows_bit 0 true) (seqN (2 ^ 1))) with [1]%N|change (filter (shows_bit 0 false) (seqN (2 ^ 1))) with [0]%N];
  unfold Rsuml; cbn [fold_right]; rewrite !apply_mat_one; cbn [ctrl_ok forallb];
  unfold all_zero; bits; cbn [std1_textbook]; unfold mat2; bits; cbn [andb]; unfold isq2, C0, C1, RtoC, Cnorm2, Cmul, Cadd, Copp; cbn [fst snd]; pose proof isq2_sq; lra.
Qed.
Lemma turning_decided : exists s' d', decided (unit_of 53) (tiny_of (-1074)) (/ 2 ^ 51) 1 2 turned [] [3 / 4; / 2] (SState all_zero [false]) 0 s' d' /\ d' <= / 10 ^ 9 /\ s_reg s' = [true].
Proof.
  assert (E9 : 10 ^ 9 = 1000000000) by (rewrite pow_IZR; apply f_equal; reflexivity).
  pose proof unit_53 as Eu. pose proof (tiny_size 1 ltac:(lia)) as Ht. assert (E2 : 2 ^ N.to_nat 1 = 2) by (change (N.to_nat 1) with 1%nat; ring). rewrite E2 in Ht.
  assert (Hs2 : 0 <= sqrt 2 <= 2). { split; [apply sqrt_pos|]. rewrite <- (sqrt_square 2) at 2 by lra. apply sqrt_le_1; lra. }
  assert (HU : 0 <= unit_error (unit_of 53) (tiny_of (-1074)) 1 2 <= 3 / 10000000000000000).
  { unfold unit_error. rewrite E2. rewrite Eu. assert (0 <= tiny_of (-1074) * sqrt 2 <= tiny_of (-1074) * 2) by (split; [apply Rmult_le_pos; lra|apply Rmult_le_compat_l; lra]). lra. }
  assert (E51 : 2 ^ 51 = 2251799813685248) by (rewrite pow_IZR; apply f_equal; reflexivity).
  assert (Hturn : turn_weight by_t (/ 2) = 310) by (unfold turn_weight, by_t, pcall_factor; rewrite Rabs_R1, (Rabs_right (1 * / 2)) by lra; field).
  set (U := unit_error (unit_of 53) (tiny_of (-1074)) 1 2) in *. set (psi := apply_mat [0%N] [] (std1_textbook GH) all_zero).
  assert (Hb : shown 1 0 psi (3 / 4) = true). { unfold shown. unfold psi. rewrite half_prob. destruct (Rlt_dec _ _); [lra|reflexivity]. }
  set (d1 := 0 + 300 * U). assert (Hd1 : 0 <= d1 <= / 10000000000) by (unfold d1; lra).
  set (d2 := after_measure (unit_of 53) (tiny_of (-1074)) 1 2 d1 (/ 2)).
  assert (Hsum : sum_error (unit_of 53) (tiny_of (-1074)) 1 2 9 4 <= / 10000000000 /\ 0 <= sum_error (unit_of 53) (tiny_of (-1074)) 1 2 9 (/ 2 / 4) <= / 10000000000).
  { unfold sum_error. rewrite E2. change (INR 2) with 2. rewrite Eu. lra. }
  assert (Hsq : / 2 <= sqrt (/ 2)). { replace (/ 2) with (sqrt (/ 2 * / 2)) at 1 by (apply sqrt_square; lra). apply sqrt_le_1; lra. }
  assert (Hd2 : 0 <= d2 <= 8 / 10000000000).
  { unfold d2, after_measure, normalize_error. rewrite E2.
    assert (0 <= 2 * d1 / sqrt (/ 2) <= 4 * d1). { unfold Rdiv. assert (Hi : 0 < / sqrt (/ 2) <= 2). { split; [apply Rinv_0_lt_compat; lra|]. replace 2 with (/ / 2) at 2 by field. apply Rinv_le_contravar; lra. }
      split; [apply Rmult_le_pos; lra|]. replace (4 * d1) with (2 * d1 * 2) by ring. apply Rmult_le_compat_l; lra. }
    set (Q := sum_error (unit_of 53) (tiny_of (-1074)) 1 2 9 (/ 2 / 4)) in *. replace (Q / (/ 2 / 4)) with (8 * Q) by field.
    assert (Hq : Q <= / 100000000000). { unfold Q, sum_error. rewrite E2. change (INR 2) with 2. rewrite Eu. lra. }
    assert (0 <= tiny_of (-1074) * sqrt 2 <= tiny_of (-1074) * 2) by (split; [apply Rmult_le_pos; lra|apply Rmult_le_compat_l; lra]). rewrite Eu. lra. }
  eexists _, _. split; [|split].
  - unfold turned. eapply (decided_gate _ _ _ _ _ _ _ _ _ [] [3 / 4; / 2]); [reflexivity|reflexivity|apply gdecided_act; lra|]. cbn [unreset_after dgate_of act_of call_targets call_controls call_matrix with_values combine s_psi s_reg weight]. fold U psi d1.
    eapply (decided_gate _ _ _ _ _ _ _ _ _ [3 / 4] [/ 2]); [reflexivity|reflexivity|apply gdecided_measure; cbn [s_psi s_reg]; [lra|cbn; lia| |]|].
    + unfold psi. rewrite half_prob. unfold decides, measure_error. lra.
    + rewrite Hb. unfold psi. rewrite half_prob. unfold likely. lra.
    + cbn [s_psi s_reg]. rewrite Hb. unfold psi at 2. rewrite half_prob. fold d2. cbn [unreset_after dgate_of].
      eapply (decided_gate _ _ _ _ _ _ _ _ _ [] [/ 2]); [reflexivity|reflexivity|apply gdecided_act; lra|]. cbn [unreset_after dgate_of act_of call_targets call_controls call_matrix with_values combine s_psi s_reg weight]. fold U.
      eapply (decided_gate _ _ _ _ _ _ _ _ _ [] [/ 2]); [reflexivity|reflexivity|apply gdecided_turn; lra|]. cbn [unreset_after dgate_of act_of s_psi s_reg]. fold U. rewrite Hturn.
      eapply (decided_gate _ _ _ _ _ _ _ _ _ [/ 2] []); [reflexivity|reflexivity| |constructor]. eapply gdecided_choice; [lra| | |apply gdecided_act; lra].
      * cbn [length INR]. rewrite E51. lra.
      * exists [(/ 4, DAct (Call1 GX 0 [] []))], (3 / 4), []. split; [reflexivity|]. cbn [length INR]. rewrite E51. unfold Rsuml. cbn [fold_right fst]. split; [right; lra|now right].
  - cbn [weight]. fold U. rewrite E9. lra.
  - reflexivity.
Qed.
Lemma zero_held prec emin A D : (8 <= prec)%Z -> (emin <= 0)%Z -> binary prec emin A -> held A D all_zero.
Proof.
  intros Hp He [E _] x _. unfold all_zero. assert (H1 : a_rnd A 1 = 1) by (rewrite E; now apply nearest_1).
  assert (H0 : a_rnd A 0 = 0) by (rewrite E; apply nearest_0). destruct (x =? 0)%N; split; cbn; assumption.
Qed.
