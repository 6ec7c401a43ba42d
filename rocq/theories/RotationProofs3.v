(** The circuit add_observable_rotation_gate() builds. *)
From Verif Require Export RotationProofs2 GradientProofs5.
From Verif Require Import GatesProofs7 GroundProofs6.
From Coq Require Import Lia Lra Psatz FunctionalExtensionality.
Open Scope N_scope.

Definition layer_of (theta : R) (p : pauli) : layer := Fixed (CallPauliRotation p theta [] []).
Lemma add_circuit_nil c : add_circuit c c_new = c.
Proof. unfold add_circuit, c_new. cbn [c_gates c_conds]. rewrite !app_nil_r. now destruct c. Qed.
Lemma add_circuit_assoc a b c : add_circuit (add_circuit a b) c = add_circuit a (add_circuit b c).
Proof. unfold add_circuit. cbn [c_gates c_conds]. now rewrite !app_assoc. Qed.
Lemma new_add_circuit c : add_circuit c_new c = c. Proof. now destruct c. Qed.
Lemma built_app vf ls ls' c c' : built vf ls c -> built vf ls' c' -> built vf (ls ++ ls') (add_circuit c c').
Proof. intros [H1 H2] [H3 H4]. split; cbn [add_circuit c_gates c_conds]; [now apply Forall2_app|]. now rewrite H2, H4, map_app. Qed.
Definition u64_pauli (p : pauli) : Prop := p_bf p < two64 /\ p_pf p < two64.
Lemma bits_64 m : m < two64 -> Forall (fun q => q < 64) (bits m).
Proof.
  intros H. apply Forall_forall. intros q Hq. apply in_bits in Hq. destruct (N.ltb_spec q 64) as [|Hge]; [assumption|]. exfalso.
  assert (Hz : N.testbit m q = false); [|congruence]. apply (testbit_high m 64); [exact H|exact Hge].
Qed.
Lemma make_rotation vf p theta : u64_pauli p -> exists g, make vf (CallPauliRotation p theta [] []) = Ok g.
Proof.
  intros [H1 H2]. apply make_complete; [split; assumption|]. cbn [call_valid]. unfold valid_controls. rewrite app_nil_r.
  split; [apply bits_NoDup|]. split; [|split; [now left|constructor]]. apply bits_64. exact (lor_u64_pow2 _ _ 64 H1 H2).
Qed.
Lemma add_rotations_ok vf theta ts : Forall u64_pauli ts -> exists d, built vf (map (layer_of theta) ts) d /\ forall c, add_rotations vf theta ts c = Ok (add_circuit c d).
Proof.
  intros H. induction H as [|p ts Hp H IH].
  - exists c_new. split; [split; constructor|]. intros c. cbn [add_rotations]. now rewrite add_circuit_nil.
  - destruct IH as (d & Hb & IH). destruct (make_rotation vf p theta Hp) as [g Hg]. exists (add_circuit (add_gate c_new (CElem (true, g))) d). split.
    + apply (built_app vf [layer_of theta p]); [|exact Hb]. split; [|reflexivity]. constructor; [exact Hg|constructor].
    + intros c. cbn [add_rotations]. rewrite Hg. cbn [bindR]. rewrite IH, <- add_circuit_assoc. reflexivity.
Qed.
Fixpoint repeat_layers (ls : list layer) (k : nat) : list layer := match k with O => [] | S k => ls ++ repeat_layers ls k end.
Lemma repeat_rotations_ok vf theta ts k : Forall u64_pauli ts -> exists d, built vf (repeat_layers (map (layer_of theta) ts) k) d /\ forall c, repeat_rotations vf theta ts k c = Ok (add_circuit c d).
Proof.
  intros H. destruct (add_rotations_ok vf theta ts H) as (d1 & Hb1 & H1). induction k as [|k IH].
  - exists c_new. split; [split; constructor|]. intros c. cbn [repeat_rotations]. now rewrite add_circuit_nil.
  - destruct IH as (d & Hb & IH). exists (add_circuit d1 d). split; [now apply built_app|]. intros c. cbn [repeat_rotations]. rewrite H1. cbn [bindR]. rewrite IH. now rewrite add_circuit_assoc.
Qed.
Lemma length_repeat_layers ls k : length (repeat_layers ls k) = (k * length ls)%nat.
Proof. induction k as [|k IH]; [reflexivity|]. cbn [repeat_layers]. rewrite app_length, IH. lia. Qed.
Lemma repeat_layers_Forall (P : layer -> Prop) ls k : Forall P ls -> Forall P (repeat_layers ls k).
Proof. intros H. induction k as [|k IH]; [constructor|]. apply Forall_app. now split. Qed.

Lemma built_required vf ls c n : built vf ls c -> Forall layer_typed ls -> Forall (fun l => Forall (fun q => q < n) (layer_operands l)) ls -> required_n_qubits c <= n.
Proof.
  intros [H2 _] Hty Hops. unfold required_n_qubits. apply bit_width_le. intros i Hi. rewrite fold_lor_testbit, N.bits_0 in Hi. cbn [orb] in Hi. apply existsb_exists in Hi. destruct Hi as (it & Hin & Hi).
  induction H2 as [|l it' ls' its Hit H2 IH]; [destruct Hin|]. inversion Hty as [|? ? Ht1 Ht2]; subst. inversion Hops as [|? ? Ho1 Ho2]; subst. destruct Hin as [->|Hin]; [|now apply IH].
  rewrite (layer_mask vf l it i Hit Ht1) in Hi. rewrite Forall_forall in Ho1. now apply Ho1.
Qed.
Lemma bits_lt n m : m < 2 ^ n -> Forall (fun q => q < n) (bits m).
Proof.
  intros H. apply Forall_forall. intros q Hq. apply in_bits in Hq. destruct (N.ltb_spec q n) as [|Hge]; [assumption|]. exfalso.
  assert (Hz : N.testbit m q = false); [|congruence]. now apply (testbit_high m n).
Qed.
Lemma lor_pow2 n a b : a < 2 ^ n -> b < 2 ^ n -> N.lor a b < 2 ^ n.
Proof. apply lor_u64_pow2. Qed.
Lemma layer_fits n theta p : pauli_fits n p -> Forall (fun q => q < n) (layer_operands (layer_of theta p)).
Proof.
  intros [H1 H2]. cbn [layer_of layer_operands]. unfold call_operands. cbn [call_targets call_controls]. change (with_values [] []) with (@nil (N * bool)). cbn [map]. rewrite app_nil_r. apply bits_lt. now apply lor_pow2.
Qed.
Lemma fits_u64 n p : n < 64 -> pauli_fits n p -> u64_pauli p.
Proof. intros Hn [H1 H2]. assert (2 ^ n <= two64) by (apply (N.pow_le_mono_r 2 n 64); [discriminate|lia]). split; eapply N.lt_le_trans; eassumption. Qed.
(** ** What a layer does *)
Definition angle_of (theta : R) (p : pauli) : R * pauli := ((theta * fst (p_coef p) / 2)%R, p).
Lemma layer_act_turn val theta p u x : snd (p_coef p) = 0%R -> layer_act val (layer_of theta p) u x = turn (angle_of theta p) 1 u x.
Proof.
  intros Hr. cbn [layer_act layer_of]. pose proof (turn_eq (PCallPauliRotation p 1 [] []) theta u x) as H. cbn [plain_turn pcall_at turn_scale] in H. rewrite Rmult_1_l in H. rewrite H by (split; [reflexivity|exact Hr]).
  unfold turn, angle_of, gen, string_act. cbn [fst snd generator]. rewrite Rmult_1_l. replace (theta * fst (p_coef p) / 2 * 1)%R with (fst (p_coef p) * theta / 2)%R by field. ring.
Qed.
Lemma fold_turns val theta ts : Forall (fun p => snd (p_coef p) = 0%R) ts -> forall u, fold_left (fun psi l => layer_act val l psi) (map (layer_of theta) ts) u = turns (rev (map (angle_of theta) ts)) 1 u.
Proof.
  intros H. assert (G : forall L M u, turns (L ++ M) 1 u = turns L 1 (turns M 1 u)) by (induction L as [|a L IH]; intros M u; [reflexivity|]; cbn [app turns]; now rewrite IH).
  induction H as [|p ts Hp H IH]; intros u; [reflexivity|]. cbn [map fold_left rev]. rewrite G, IH. f_equal. cbn [turns]. apply functional_extensionality. intros x. now apply layer_act_turn.
Qed.
Lemma evolve_rounds val theta ts k u : Forall (fun p => snd (p_coef p) = 0%R) ts -> evolve val (repeat_layers (map (layer_of theta) ts) k) u = rounds (rev (map (angle_of theta) ts)) k u.
Proof.
  intros H. assert (Ec : forall k u, rounds (rev (map (angle_of theta) ts)) k (turns (rev (map (angle_of theta) ts)) 1 u) = turns (rev (map (angle_of theta) ts)) 1 (rounds (rev (map (angle_of theta) ts)) k u)) by (clear; induction k as [|k IH]; intros u; [reflexivity|]; cbn [rounds]; now rewrite IH).
  revert u. induction k as [|k IH]; intros u; [reflexivity|]. cbn [repeat_layers rounds]. unfold evolve in *. rewrite fold_left_app, IH, (fold_turns val theta ts H). apply Ec.
Qed.
(** ** The generator *)
Lemma ham_rev L u x : ham (rev L) u x = ham L u x.
Proof. unfold ham. induction L as [|ap L IH]; [reflexivity|]. cbn [rev]. rewrite Csuml_app, IH. unfold Csuml. cbn [map fold_right]. ring. Qed.
Lemma ham_op o theta u x : real_coefs o -> ham (map (angle_of theta) (o_terms o)) u x = Cscale (theta / 2) (op_act o u x).
Proof.
  unfold real_coefs, op_act, terms_act. intros H. induction H as [|p ts Hp H IH]; [unfold ham, Csuml; cbn [map fold_right]; c_eq; cbn; ring|].
  cbn [map]. rewrite ham_cons, IH. change (Csuml (fun q => pauli_act q u x) (p :: ts)) with (pauli_act p u x + Csuml (fun q => pauli_act q u x) ts)%C. rewrite pauli_string. unfold angle_of. cbn [fst snd]. set (A := Csuml _ ts). set (B := string_act p u x). destruct (p_coef p) as [cr ci]. cbn [fst snd] in *. subst ci. c_eq; cbn; field.
Qed.
(** ** The weights *)
Lemma Rsuml_cons {T} (f : T -> R) x l : Rsuml f (x :: l) = (f x + Rsuml f l)%R. Proof. reflexivity. Qed.
Lemma Rsuml_app' {T} (f : T -> R) l m : Rsuml f (l ++ m) = (Rsuml f l + Rsuml f m)%R.
Proof. induction l as [|x l IH]; [cbn [app]; unfold Rsuml at 2; cbn; ring|]. cbn [app]. rewrite !Rsuml_cons, IH. ring. Qed.
Lemma Rsuml_rev {T} (f : T -> R) l : Rsuml f (rev l) = Rsuml f l.
Proof. induction l as [|x l IH]; [reflexivity|]. cbn [rev]. rewrite Rsuml_app', IH, !Rsuml_cons. unfold Rsuml at 2. cbn. ring. Qed.
Lemma Rsuml_map {S T} (f : T -> R) (g : S -> T) l : Rsuml f (map g l) = Rsuml (fun x => f (g x)) l.
Proof. induction l as [|x l IH]; [reflexivity|]. cbn [map]. now rewrite !Rsuml_cons, IH. Qed.
Lemma Rsuml_scal {T} (f : T -> R) c l : Rsuml (fun x => c * f x)%R l = (c * Rsuml f l)%R.
Proof. induction l as [|x l IH]; [unfold Rsuml; cbn; ring|]. rewrite !Rsuml_cons, IH. ring. Qed.
Lemma Rsuml_ext' {T} (f g : T -> R) l : (forall x, In x l -> f x = g x) -> Rsuml f l = Rsuml g l.
Proof. intros H. induction l as [|x l IH]; [reflexivity|]. rewrite !Rsuml_cons, IH, H; [reflexivity|now left|]. intros y Hy. apply H. now right. Qed.
Lemma anticommute_sym p q : anticommute p q = anticommute q p.
Proof. unfold anticommute. rewrite (N.land_comm (p_bf q)), (N.land_comm (p_pf q)). apply Bool.xorb_comm. Qed.
Lemma kappa_app L M : kappa (L ++ M) = (kappa L + kappa M + Rsuml (fun ap => 2 * Rabs (fst ap) * clash (snd ap) M) L)%R.
Proof.
  induction L as [|ap L IH]; [unfold Rsuml; cbn [app kappa map fold_right]; ring|]. cbn [app kappa]. rewrite IH, Rsuml_cons. unfold clash at 1. rewrite Rsuml_app'. fold (clash (snd ap) L) (clash (snd ap) M). ring.
Qed.
Lemma kappa_rev L : kappa (rev L) = kappa L.
Proof.
  induction L as [|ap L IH]; [reflexivity|]. cbn [rev]. rewrite kappa_app, IH, Rsuml_rev. cbn [kappa]. unfold clash at 1. unfold Rsuml at 1. cbn [map fold_right].
  replace (Rsuml (fun bq => 2 * Rabs (fst bq) * clash (snd bq) [ap]) L)%R with (2 * Rabs (fst ap) * clash (snd ap) L)%R; [ring|].
  unfold clash at 1. rewrite <- Rsuml_scal. apply Rsuml_ext'. intros [b q] _. unfold clash, Rsuml. cbn [map fold_right fst snd]. rewrite (anticommute_sym q). destruct (anticommute _ _); ring.
Qed.
Lemma kappa_weight theta ts : kappa (map (angle_of theta) ts) = (theta * theta / 2 * apart_weight anticommute ts)%R.
Proof.
  induction ts as [|p ts IH]; [cbn [map kappa apart_weight]; ring|]. cbn [map kappa apart_weight]. rewrite IH. unfold clash. rewrite Rsuml_map. unfold angle_of. cbn [fst snd].
  rewrite (Rsuml_ext' (fun q => if anticommute p q then Rabs (theta * fst (p_coef q) / 2) else 0%R) (fun q => Rabs theta / 2 * (if anticommute p q then Rabs (fst (p_coef q)) else 0))%R).
  - rewrite Rsuml_scal. rewrite (Rsuml_ext' (fun q => if anticommute p q then (Rabs (fst (p_coef p)) * Rabs (fst (p_coef q)))%R else 0%R) (fun q => Rabs (fst (p_coef p)) * (if anticommute p q then Rabs (fst (p_coef q)) else 0))%R) by (intros q _; destruct (anticommute p q); ring).
    rewrite Rsuml_scal. unfold Rdiv at 1. rewrite !Rabs_mult, (Rabs_right (/ 2)) by lra. replace (theta * theta)%R with (Rabs theta * Rabs theta)%R by (rewrite <- Rabs_mult; apply Rabs_right; nra). field.
  - intros q _. destruct (anticommute p q); [|ring]. unfold Rdiv. rewrite !Rabs_mult, (Rabs_right (/ 2)) by lra. ring.
Qed.
Lemma commute_not_anti p q : commute p q -> anticommute p q = true -> p_coef p = C0 \/ p_coef q = C0.
Proof.
  intros Hc Ha. specialize (Hc (fun _ => C1) 0). rewrite !pauli_string in Hc.
  rewrite (string_ext p (pauli_act q (fun _ => C1)) (fun y => p_coef q * string_act q (fun _ => C1) y + C0 * C0)%C), (string_ext q (pauli_act p (fun _ => C1)) (fun y => p_coef p * string_act p (fun _ => C1) y + C0 * C0)%C) in Hc by (intros; rewrite pauli_string; ring).
  rewrite !(string_lin _ _ _ _ (fun _ => C0)), (strings_swap p q), Ha in Hc. set (z := string_act q (string_act p (fun _ => C1)) 0) in *.
  assert (Hz : z <> C0).
  { intros E. assert (Hs : string_act p (string_act q (string_act q (string_act p (fun _ => C1)))) 0 = C1).
    { rewrite (string_ext p _ (string_act p (fun _ => C1))) by (intros; apply string_sq). apply string_sq. }
    assert (Hn : forall r u y, Cnorm2 (string_act r u y) = Cnorm2 (u (N.lxor y (p_bf r)))).
    { intros r u y. rewrite string_eq, Cnorm2_mul. assert (E1 : Cnorm2 (pauli_phase (p_bf r) (p_pf r) y) = 1%R) by (pose proof (pauli_phase_unit (p_bf r) (p_pf r) y) as Hu; revert Hu; destruct (pauli_phase (p_bf r) (p_pf r) y) as [a b]; intros Hu; injection Hu as Hu _; cbn in Hu; unfold Cnorm2; cbn; lra). rewrite E1. ring. }
    assert (E1 : Cnorm2 z = 1%R) by (unfold z; rewrite !Hn; unfold Cnorm2, C1; cbn; ring). rewrite E in E1. unfold Cnorm2, C0 in E1. cbn in E1. lra. }
  assert (E : (p_coef p * p_coef q * z = C0)%C).
  { assert (E2 : (RtoC 2 * (p_coef p * p_coef q * z) = C0)%C).
    { transitivity (p_coef q * (p_coef p * z + C0) - p_coef p * (p_coef q * (- C1 * z) + C0))%C; [c_eq; cbn; ring|]. 
      assert (Hc' : (p_coef p * (p_coef q * (- C1 * z) + C0) = p_coef q * (p_coef p * z + C0))%C).
      { transitivity (p_coef p * (p_coef q * (- C1 * z) + C0 * string_act p (fun _ => C0) 0))%C; [|transitivity (p_coef q * (p_coef p * z + C0 * string_act q (fun _ => C0) 0))%C; [exact Hc|]]; ring. }
      rewrite Hc'. ring. }
    transitivity (RtoC (/ 2) * (RtoC 2 * (p_coef p * p_coef q * z)))%C; [c_eq; cbn; field|]. rewrite E2. ring. }
  apply Cmul_integral in E. destruct E as [E|E]; [|contradiction]. now apply Cmul_integral in E.
Qed.
Lemma apart_weight_le apart ts : (forall p q, In p ts -> In q ts -> apart p q = false -> commute p q) -> (apart_weight anticommute ts <= apart_weight apart ts)%R.
Proof.
  induction ts as [|p ts IH]; intros H; [cbn; lra|]. cbn [apart_weight]. apply Rplus_le_compat; [|apply IH; intros; apply H; try (now right); assumption].
  assert (Hp : forall q, In q ts -> apart p q = false -> commute p q) by (intros q Hq; apply H; [now left|now right]). clear - Hp. induction ts as [|q ts IH]; [unfold Rsuml; cbn; lra|].
  rewrite !Rsuml_cons. apply Rplus_le_compat; [|apply IH; intros; apply Hp; [now right|assumption]]. pose proof (Rabs_pos (fst (p_coef p))). pose proof (Rabs_pos (fst (p_coef q))).
  destruct (anticommute p q) eqn:Ea, (apart p q) eqn:Eb; try lra; [|nra]. destruct (commute_not_anti p q (Hp q (or_introl eq_refl) Eb) Ea) as [->| ->]; cbn [fst C0]; rewrite Rabs_R0; lra.
Qed.
