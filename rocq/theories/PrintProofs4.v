From Verif Require Export PrintMore PrintProofs3.
From Verif Require Import BitsProofs.
From Verif Require QasmProofs7.
Require Import Lia.
Local Open Scope N_scope.
Local Open Scope list_scope.

Lemma comma_listed l : comma_between l = listed l.
Proof.
  destruct l as [|a l]; [reflexivity|]. unfold comma_between. revert a. induction l as [|b l IH]; intros a.
  - cbn [comma_before listed]. apply app_nil_r.
  - change (listed (a :: b :: l)) with (dec a ++ lit ", " ++ listed (b :: l)). rewrite <- IH. reflexivity.
Qed.
Section More.
  Variable indent : text.
  Hypothesis Hi : one_line indent.
  Lemma ecr_lines b p q : p < 64 -> q < 64 -> masks_ok b -> exists t, ecr_to_string indent b (2 ^ p) (2 ^ q) = Ok t /\
    lines t = [indent ++ to_text "Gate Type: Ecr"; indent ++ to_text "  Physical Control Qubit: {" ++ dec p ++ to_text "}";
               indent ++ to_text "  Physical Target Qubit: {" ++ dec q ++ to_text "}"] ++ info_lines indent b.
  Proof.
    intros Hp Hq Hb. unfold ecr_to_string. rewrite !QasmProofs7.pow2_vector by now apply pow_u64. cbn [first_entry bindR]. eexists. split; [reflexivity|].
    assert (p < two64) by (change two64 with 18446744073709551616; lia). assert (q < two64) by (change two64 with 18446744073709551616; lia).
    unfold type_line. rewrite !lines_line.
    - rewrite info_text by assumption. reflexivity.
    - apply one_app; [exact Hi|]. apply one_app; [literal|]. apply one_app; [now apply one_dec|literal].
    - apply one_app; [exact Hi|]. apply one_app; [literal|]. apply one_app; [now apply one_dec|literal].
    - apply one_app; [exact Hi|]. literal.
  Qed.
  Lemma ecr_says b p q : p < 64 -> q < 64 -> masks_ok b -> exists t dp dq info, ecr_to_string indent b (2 ^ p) (2 ^ q) = Ok t /\
    decimal_of p dp /\ decimal_of q dq /\ qubit_report indent b info /\
    lines t = [indent ++ to_text "Gate Type: Ecr"; indent ++ to_text "  Physical Control Qubit: {" ++ dp ++ to_text "}";
               indent ++ to_text "  Physical Target Qubit: {" ++ dq ++ to_text "}"] ++ info.
  Proof.
    intros Hp Hq Hb. destruct (ecr_lines b p q Hp Hq Hb) as (t & E & L). exists t, (dec p), (dec q), (info_lines indent b).
    split; [exact E|]. split; [apply decimal_dec; change two64 with 18446744073709551616; lia|].
    split; [apply decimal_dec; change two64 with 18446744073709551616; lia|]. split; [now apply info_report|exact L].
  Qed.
  Lemma ecr_tells b b' p p' q q' : p < 64 -> q < 64 -> p' < 64 -> q' < 64 -> masks_ok b -> masks_ok b' ->
    ecr_to_string indent b (2 ^ p) (2 ^ q) = ecr_to_string indent b' (2 ^ p') (2 ^ q') -> p = p' /\ q = q' /\ b = b'.
  Proof.
    intros Hp Hq Hp' Hq' Hb Hb' E. destruct (ecr_lines b p q Hp Hq Hb) as (t & E1 & L1), (ecr_lines b' p' q' Hp' Hq' Hb') as (t' & E2 & L2).
    rewrite E1, E2 in E. injection E as ->. rewrite L1 in L2. apply app_split in L2; [|reflexivity]. destruct L2 as [L2 L3].
    apply info_inj in L3; [|assumption..].
    assert (K1 := f_equal (fun l => nth 1 l []) L2). assert (K2 := f_equal (fun l => nth 2 l []) L2). cbn [nth] in K1, K2.
    do 2 apply app_inv_head in K1. do 2 apply app_inv_head in K2. apply app_inv_tail in K1, K2.
    apply dec_inj in K1; [|change two64 with 18446744073709551616; lia..]. apply dec_inj in K2; [|change two64 with 18446744073709551616; lia..]. auto.
  Qed.
  Lemma perm_lines b dst : Forall (fun x => x < two64) dst -> masks_ok b ->
    lines (permutation_to_string indent b dst) = [indent ++ to_text "Gate Type: Permutation"; indent ++ to_text "Permutation: [" ++ listed dst ++ to_text "]"] ++ info_lines indent b.
  Proof.
    intros Hd Hb. unfold permutation_to_string, type_line. rewrite comma_listed, !lines_line.
    - rewrite info_text by assumption. reflexivity.
    - apply one_app; [exact Hi|]. apply one_app; [literal|]. apply one_app; [now apply one_listed|literal].
    - apply one_app; [exact Hi|]. literal.
  Qed.
  Lemma perm_says b dst : Forall (fun x => x < two64) dst -> masks_ok b -> exists ds info, list_of dst ds /\ qubit_report indent b info /\
    lines (permutation_to_string indent b dst) = [indent ++ to_text "Gate Type: Permutation"; indent ++ to_text "Permutation: [" ++ ds ++ to_text "]"] ++ info.
  Proof.
    intros Hd Hb. exists (listed dst), (info_lines indent b). split; [now apply listed_ok|]. split; [now apply info_report|now apply perm_lines].
  Qed.
  Lemma perm_tells b b' dst dst' : Forall (fun x => x < two64) dst -> Forall (fun x => x < two64) dst' -> masks_ok b -> masks_ok b' ->
    permutation_to_string indent b dst = permutation_to_string indent b' dst' -> dst = dst' /\ b = b'.
  Proof.
    intros Hd Hd' Hb Hb' E. apply (f_equal lines) in E. rewrite !perm_lines in E by assumption. apply app_split in E; [|reflexivity].
    destruct E as [E1 E2]. apply info_inj in E2; [|assumption..]. split; [|exact E2].
    assert (K := f_equal (fun l => nth 1 l []) E1). cbn [nth] in K. do 2 apply app_inv_head in K. apply app_inv_tail in K. now apply listed_inj.
  Qed.
  Variable num : R -> text.
  Hypothesis Hnum : forall r, one_line (num r).
  Definition rot_name (k : rot) : string := match k with RotX => "ParamRX" | RotY => "ParamRY" | RotZ => "ParamRZ" end.
  Definition rot_lines (k : rot) (b : base) (coef : R) : list text :=
    [indent ++ to_text "Gate Type: " ++ to_text (rot_name k); indent ++ to_text "  Parameter Coefficient: " ++ num coef;
     info_line indent "  Target Qubits: {" (mask_to_vector (g_t b)); info_line indent "  Control Qubits: {" (mask_to_vector (g_c b))].
  Lemma rot_text known k b coef : masks_ok b -> exists t, param_to_string num indent (PRot known k b coef) = Some t /\ lines t = rot_lines k b coef.
  Proof.
    intros (H1 & H2 & H3). exists (type_line indent (rot_name k) ++ param_info num indent b coef). split; [destruct k; reflexivity|].
    unfold type_line, param_info. rewrite !lines_line.
    - rewrite lines_last; [reflexivity|destruct indent; discriminate|]. apply (one_info indent Hi "  Control Qubits: {"); [literal|now apply vector_small].
    - apply (one_info indent Hi "  Target Qubits: {"); [literal|now apply vector_small].
    - apply one_app; [exact Hi|]. apply one_app; [literal|apply Hnum].
    - apply one_app; [exact Hi|]. destruct k; literal.
  Qed.
  Lemma rot_says known k b coef : masks_ok b -> exists t ts cs, param_to_string num indent (PRot known k b coef) = Some t /\
    list_of (mask_to_vector (g_t b)) ts /\ list_of (mask_to_vector (g_c b)) cs /\
    lines t = [indent ++ to_text "Gate Type: " ++ to_text (match k with RotX => "ParamRX" | RotY => "ParamRY" | RotZ => "ParamRZ" end);
               indent ++ to_text "  Parameter Coefficient: " ++ num coef;
               indent ++ to_text "  Target Qubits: {" ++ ts ++ to_text "}"; indent ++ to_text "  Control Qubits: {" ++ cs ++ to_text "}"].
  Proof.
    intros Hb. destruct (rot_text known k b coef Hb) as (t & E & L). destruct Hb as (H1 & H2 & H3).
    exists t, (listed (mask_to_vector (g_t b))), (listed (mask_to_vector (g_c b))).
    split; [exact E|]. split; [apply listed_ok; now apply vector_small|]. split; [apply listed_ok; now apply vector_small|exact L].
  Qed.
  Lemma rot_tells known known' k k' b b' coef coef' t : masks_ok b -> masks_ok b' ->
    param_to_string num indent (PRot known k b coef) = Some t -> param_to_string num indent (PRot known' k' b' coef') = Some t ->
    k = k' /\ num coef = num coef' /\ g_t b = g_t b' /\ g_c b = g_c b'.
  Proof.
    intros Hb Hb' E E'. destruct (rot_text known k b coef Hb) as (u & Eu & Lu), (rot_text known' k' b' coef' Hb') as (v & Ev & Lv).
    rewrite E in Eu. injection Eu as <-. rewrite E' in Ev. injection Ev as <-. rewrite Lu in Lv. unfold rot_lines in Lv.
    destruct Hb as (H1 & H2 & H3), Hb' as (H1' & H2' & H3').
    assert (K0 := f_equal (fun l => nth 0 l []) Lv). assert (K1 := f_equal (fun l => nth 1 l []) Lv). assert (K2 := f_equal (fun l => nth 2 l []) Lv).
    assert (K3 := f_equal (fun l => nth 3 l []) Lv). cbn [nth] in K0, K1, K2, K3.
    do 2 apply app_inv_head in K0. do 2 apply app_inv_head in K1.
    apply info_line_inj in K2; [|now apply vector_small..]. apply info_line_inj in K3; [|now apply vector_small..].
    apply (f_equal vector_to_mask) in K2, K3. rewrite !mask_to_vector_to_mask in K2, K3 by assumption. injection K2 as K2. injection K3 as K3.
    split; [destruct k, k'; try reflexivity; discriminate K0|]. auto.
  Qed.
End More.
Lemma param_gates_hide : exists b b', masks_ok b /\ masks_ok b' /\ mask_to_values (g_c b) (g_cv b) = [1] /\ mask_to_values (g_c b') (g_cv b') = [0] /\
  forall num indent known k coef, param_to_string num indent (PRot known k b coef) = param_to_string num indent (PRot known k b' coef).
Proof. exists (GBase 1 2 2), (GBase 1 2 0). repeat split. Qed.
Lemma param_pauli_hides num indent known b p coef coef' :
  param_to_string num indent (PPauliRotation known b p coef) = param_to_string num indent (PPauliRotation known b p coef').
Proof. reflexivity. Qed.
