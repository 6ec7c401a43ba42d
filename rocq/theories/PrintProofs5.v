From Verif Require Export PrintProbSpec PrintProofs3.
Require Import Lia.
Local Open Scope N_scope.
Local Open Scope list_scope.

Lemma lines_some t : t <> [] -> lines t <> [].
Proof. destruct t as [|c t]; [congruence|]. intros _. cbn [lines]. destruct (Ascii.eqb c newline); [discriminate|]. destruct (lines t); discriminate. Qed.
Lemma lines_end u c r : c <> newline -> lines (line (u ++ [c]) ++ r) = lines (u ++ [c]) ++ lines r.
Proof.
  intros Hc. unfold line. induction u as [|d u IH].
  - cbn [app lines]. destruct (Ascii.eqb_spec c newline); [contradiction|]. rewrite Ascii.eqb_refl. reflexivity.
  - change (lines (d :: (((u ++ [c]) ++ [newline]) ++ r)) = lines (d :: (u ++ [c])) ++ lines r). cbn [lines]. rewrite IH.
    destruct (Ascii.eqb d newline); [reflexivity|].
    assert (K : lines (u ++ [c]) <> []) by (apply lines_some; destruct u; discriminate).
    destruct (lines (u ++ [c])) as [|l ls]; [congruence|reflexivity].
Qed.
Lemma cut {A} (D : A) a : forall b x y, ~ In D a -> ~ In D b -> (x = [] \/ exists x', x = D :: x') -> (y = [] \/ exists y', y = D :: y') ->
  a ++ x = b ++ y -> a = b /\ x = y.
Proof.
  induction a as [|c a IH]; intros [|d b] x y Ha Hb Hx Hy E.
  - auto.
  - cbn [app] in E. subst x. destruct Hx as [Hx|(x' & Hx)]; [discriminate|]. injection Hx as -> _. exfalso. apply Hb. now left.
  - cbn [app] in E. subst y. destruct Hy as [Hy|(y' & Hy)]; [discriminate|]. injection Hy as -> _. exfalso. apply Ha. now left.
  - injection E as -> E. destruct (IH b x y) as [-> ->]; auto; intros K; [apply Ha|apply Hb]; now right.
Qed.
Lemma blocks_inj {A} (D : A) bs : forall bs', Forall (fun b => ~ In D b) bs -> Forall (fun b => ~ In D b) bs' ->
  flat_map (cons D) bs = flat_map (cons D) bs' -> bs = bs'.
Proof.
  assert (S : forall l : list (list A), flat_map (cons D) l = [] \/ exists x, flat_map (cons D) l = D :: x) by (intros [|b l]; [now left|right; eexists; reflexivity]).
  induction bs as [|b bs IH]; intros [|b' bs'] F F' E; try discriminate; [reflexivity|].
  inversion F; inversion F'; subst. cbn [flat_map app] in E. assert (K := f_equal (@tl _) E). cbn [tl] in K.
  apply (cut D) in K; auto. destruct K as [-> K]. f_equal. now apply IH.
Qed.
Section Prob.
  Variables (num : R -> text) (indent : text).
  Hypothesis Hnum : forall r, one_line (num r).
  Hypothesis Hi : one_line indent.
  Let inside : text := indent ++ lit "  ".
  Lemma one_inside : one_line inside.
  Proof. apply one_app; [exact Hi|literal]. Qed.
  Definition inner_lines (g : egate) : list text := map (app inside) (head_lines num g) ++ info_lines inside (g_base g).
  Lemma info_end b : exists u, qubit_info inside b = u ++ ["}"%char].
  Proof. unfold qubit_info. eexists. rewrite !app_assoc. reflexivity. Qed.
  Lemma inner_text g : describable g -> exists u, gate_to_string num inside g = Some (u ++ ["}"%char]) /\ lines (u ++ ["}"%char]) = inner_lines g.
  Proof.
    intros ((k & Hk) & Hb). destruct (gate_text inside one_inside num Hnum g k Hk Hb) as (t & E & L).
    pose proof (gate_head inside num g k Hk) as E'. destruct (info_end (g_base g)) as (v & Ev). rewrite Ev in E'. rewrite app_assoc in E'.
    eexists. split; [exact E'|]. rewrite E' in E. injection E as E. rewrite E. exact L.
  Qed.
  Definition ruler : text := indent ++ lit "  --------------------".
  Definition chance (p : R) : text := indent ++ lit "  Probability: " ++ num p.
  Definition body (x : R * egate) : list text := chance (fst x) :: inner_lines (snd x).
  Lemma one_ruler : one_line ruler.
  Proof. apply one_app; [exact Hi|literal]. Qed.
  Lemma one_chance p : one_line (chance p).
  Proof. apply one_app; [exact Hi|]. apply one_app; [literal|apply Hnum]. Qed.
  Lemma entries_text dist : forall gs, length dist = length gs -> Forall describable gs ->
    exists r, prob_entries num indent dist gs = Ok r /\ lines r = flat_map (fun x => ruler :: body x) (combine dist gs) /\ entries_report num indent dist gs (lines r).
  Proof.
    induction dist as [|p dist IH]; intros [|g gs] Hl F; try discriminate.
    - exists []. repeat split. constructor.
    - inversion F as [|? ? Hg Fg]; subst. destruct (IH gs) as (r & Er & Lr & Rr); [now injection Hl|assumption|].
      destruct (inner_text g Hg) as (u & Eu & Lu). cbn [prob_entries]. change (indent ++ lit "  ") with inside. rewrite Eu, Er. cbn [bindR].
      eexists. split; [reflexivity|].
      assert (K : lines ((match dist with [] => u ++ ["}"%char] | _ => line (u ++ ["}"%char]) end) ++ r) = inner_lines g ++ lines r).
      { destruct dist.
        - cbn [prob_entries] in Er. injection Er as <-. cbn [lines]. rewrite !app_nil_r. exact Lu.
        - rewrite lines_end by discriminate. now rewrite Lu. }
      change (indent ++ lit "  --------------------") with ruler. change (indent ++ lit "  Probability: " ++ num p) with (chance p).
      rewrite !lines_line by (apply one_ruler || apply one_chance).
      assert (K' := f_equal (fun l => ruler :: chance p :: l) K). cbv beta in K'. split.
      + refine (eq_trans K' _). rewrite Lr. reflexivity.
      + rewrite K'. rewrite <- Lu. exact (an_entry num indent p dist g gs (u ++ ["}"%char]) (lines r) Eu Rr).
  Qed.
  Lemma prob_says dist gs : length dist = length gs -> Forall describable gs -> exists t l, prob_to_string num indent dist gs = Ok t /\
    lines t = (indent ++ to_text "Gate Type: Probabilistic") :: l /\ entries_report num indent dist gs l.
  Proof.
    intros Hl F. destruct (entries_text dist gs Hl F) as (r & E & _ & Rr). unfold prob_to_string. rewrite E. cbn [bindR]. eexists. exists (lines r).
    split; [reflexivity|]. split; [|exact Rr]. unfold type_line. rewrite lines_line; [reflexivity|]. apply one_app; [exact Hi|literal].
  Qed.
  Lemma not_ruler c t : c <> "-"%char -> inside ++ c :: t <> ruler.
  Proof. intros Hc E. unfold ruler, inside in E. rewrite <- app_assoc in E. apply app_inv_head in E. cbn in E. injection E as E _. congruence. Qed.
  Lemma no_ruler x : describable (snd x) -> ~ In ruler (body x).
  Proof.
    destruct x as (p, g). cbn [snd]. intros ((k & Hk) & Hb) [H|H].
    - cbn [fst] in H. unfold chance, ruler in H. apply app_inv_head in H. discriminate.
    - cbn [snd] in H. apply in_app_or in H. destruct H as [H|H].
      + apply in_map_iff in H. destruct H as (h & E & H). revert E.
        assert (S : exists c t, h = c :: t /\ c <> "-"%char).
        { destruct g; try discriminate Hk; try match goal with y : std1 |- _ => destruct y end; cbn [head_lines In] in H;
            repeat (destruct H as [<-|H]; [do 2 eexists; split; [reflexivity|discriminate]|]); contradiction. }
        destruct S as (c & t & -> & Hc). now apply not_ruler.
      + destruct H as [H|[H|[H|[]]]]; revert H; unfold info_line; (refine (not_ruler _ _ _); discriminate).
  Qed.
  Lemma inner_inj g g' : describable g -> describable g' -> inner_lines g = inner_lines g' -> printed_alike num g g'.
  Proof.
    intros ((k & H) & B) ((k' & H') & B') Lv. exists k, k'. split; [exact H|]. split; [exact H'|]. unfold inner_lines in Lv.
    assert (Len : length (map (app inside) (head_lines num g)) = length (map (app inside) (head_lines num g'))).
    { apply (f_equal (@length _)) in Lv. rewrite !app_length in Lv. unfold info_lines in Lv. cbn [length] in Lv. lia. }
    apply (app_split _ _ _ _ Len) in Lv. destruct Lv as [L1 L2].
    split; [exact (info_inj inside _ _ B B' L2)|]. apply (head_inj num g g' k k' H H').
    clear - L1. revert L1. generalize (head_lines num g'). induction (head_lines num g) as [|a l IH]; intros [|b m] E; try discriminate; [reflexivity|].
    cbn [map] in E. assert (K1 := f_equal (fun l => nth 0 l []) E). assert (K2 := f_equal (@tl _) E). cbn [nth tl] in K1, K2. apply app_inv_head in K1. subst b. f_equal. now apply IH.
  Qed.
  Lemma bodies_inj dist : forall dist' gs gs', length dist = length gs -> length dist' = length gs' -> Forall describable gs -> Forall describable gs' ->
    map body (combine dist gs) = map body (combine dist' gs') -> map num dist = map num dist' /\ Forall2 (printed_alike num) gs gs'.
  Proof.
    induction dist as [|p dist IH]; intros [|p' dist'] [|g gs] [|g' gs'] Hl Hl' F F' E; try discriminate; [split; [reflexivity|constructor]|].
    inversion F; inversion F'; subst. cbn [combine map] in E. assert (K1 := f_equal (fun l => nth 0 l []) E). assert (K2 := f_equal (@tl _) E). cbn [nth tl] in K1, K2.
    destruct (IH dist' gs gs') as [I1 I2]; try assumption; [now injection Hl|now injection Hl'|].
    unfold body in K1. assert (J1 := f_equal (fun l => nth 0 l []) K1). assert (J2 := f_equal (@tl _) K1). cbn [nth tl fst snd] in J1, J2.
    unfold chance in J1. do 2 apply app_inv_head in J1. split; [cbn [map]; now rewrite J1, I1|]. constructor; [now apply inner_inj|exact I2].
  Qed.
  Lemma prob_tells dist dist' gs gs' t : length dist = length gs -> length dist' = length gs' -> Forall describable gs -> Forall describable gs' ->
    prob_to_string num indent dist gs = Ok t -> prob_to_string num indent dist' gs' = Ok t ->
    map num dist = map num dist' /\ Forall2 (printed_alike num) gs gs'.
  Proof.
    intros Hl Hl' F F' E E'. destruct (entries_text dist gs Hl F) as (r & Er & Lr & _), (entries_text dist' gs' Hl' F') as (r' & Er' & Lr' & _).
    unfold prob_to_string in E, E'. rewrite Er in E. rewrite Er' in E'. cbn [bindR] in E, E'. injection E as E. injection E' as E'. rewrite <- E in E'.
    apply app_inv_head in E'. subst r'. rewrite Lr in Lr'. apply bodies_inj; try assumption. apply (blocks_inj ruler).
    - apply Forall_map, Forall_forall. intros x Hx. apply no_ruler. destruct x as (p, g). apply in_combine_r in Hx. rewrite Forall_forall in F. now apply F.
    - apply Forall_map, Forall_forall. intros x Hx. apply no_ruler. destruct x as (p, g). apply in_combine_r in Hx. rewrite Forall_forall in F'. now apply F'.
    - rewrite !flat_map_concat_map, !map_map, <- !flat_map_concat_map. exact Lr'.
  Qed.
End Prob.
