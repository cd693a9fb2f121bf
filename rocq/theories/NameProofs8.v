(** The table of operator names and the interpretation of texts. *)
From Coq Require Import List Arith Bool Ascii String Lia.
From Verif Require Import CanonModel CanonSpec ScenarioModel ScenarioSpec ScenarioProofs SymModel SymSpec SymProofs ColumnModel ColsModel MemoModel MemoSpec ProgramModel NameModel NameSpec NameProofs NameProofs2 NameProofs3 NameProofs4 NameProofs5.
Import ListNotations.
Open Scope string_scope. Open Scope nat_scope. Open Scope list_scope.

(** ** str.replace *)
Lemma replace_id pat rep s : pat <> "" -> (forall a b, s = (a ++ b)%string -> b <> "" -> prefix pat b = false) -> replace pat rep s = s.
Proof.
  intros N. unfold replace. induction s as [|c s IH]; intros H; [reflexivity|]. cbn [replace_from]. rewrite (H "" (String c s) eq_refl) by discriminate. f_equal. apply IH.
  intros a b E. apply (H (String c a) b). cbn [String.append]. rewrite E. reflexivity.
Qed.
Lemma replace_skip a : forall pat rep s, replace_from (String.length a) pat rep (a ++ s)%string = replace_from 0 pat rep s.
Proof. induction a as [|c a IH]; intros pat rep s; [reflexivity|]. cbn [String.length String.append replace_from]. apply IH. Qed.
Lemma prefix_app a s : prefix a (a ++ s)%string = true.
Proof. induction a as [|c a IH]; [destruct s; reflexivity|]. cbn [String.append prefix]. destruct (ascii_dec c c); [exact IH|congruence]. Qed.
Lemma replace_here pat rep s : pat <> "" -> replace pat rep (pat ++ s)%string = (rep ++ replace pat rep s)%string.
Proof.
  intros N. unfold replace. destruct pat as [|c p] eqn:E; [contradiction|]. cbn [String.append replace_from]. change (String c (p ++ s))%string with (String c p ++ s)%string. rewrite prefix_app.
  replace (String.length (String c p) - 1) with (String.length p) by (cbn [String.length]; lia). rewrite replace_skip. reflexivity.
Qed.
Lemma prefix_first c p s : every (fun d => negb (isc c d)) s = true -> prefix (String c p) s = false.
Proof.
  destruct s as [|d s]; [reflexivity|]. cbn [every prefix]. intros H. apply andb_true_iff in H as [H _]. destruct (ascii_dec c d) as [->|_]; [unfold isc in H; rewrite Ascii.eqb_refl in H; discriminate|reflexivity].
Qed.
Lemma replace_before c p rep a s : every (fun d => negb (isc c d)) a = true -> replace (String c p) rep (a ++ s)%string = (a ++ replace (String c p) rep s)%string.
Proof.
  induction a as [|d a IH]; intros H; [reflexivity|]. cbn [every] in H. apply andb_true_iff in H as [H1 H2]. unfold replace in *. cbn [String.append replace_from]. rewrite (IH H2).
  assert (Q : prefix (String c p) (String d (a ++ s)) = false) by (cbn [prefix]; destruct (ascii_dec c d) as [->|_]; [unfold isc in H1; rewrite Ascii.eqb_refl in H1; discriminate|reflexivity]).
  rewrite Q. reflexivity.
Qed.
Lemma replace_absent c p rep s : every (fun d => negb (isc c d)) s = true -> replace (String c p) rep s = s.
Proof. intros H. rewrite <- (sapp_nil s) at 1. rewrite (replace_before c p rep s "" H). cbn. apply sapp_nil. Qed.

(** ** Splitting *)
Lemma split_from_plain c a : forall acc, without c a -> split_from c acc a = [(acc ++ a)%string].
Proof.
  induction a as [|d a IH]; intros acc H; [cbn [split_from]; rewrite sapp_nil; reflexivity|]. unfold without in H. cbn [every] in H. apply andb_true_iff in H as [H1 H2]. cbn [split_from].
  unfold isc in H1. rewrite Ascii.eqb_sym in H1. apply negb_true_iff in H1. rewrite H1, (IH _ H2), sapp_assoc. reflexivity.
Qed.
Lemma split_from_app c a s : forall acc, without c a -> split_from c acc (a ++ String c s) = (acc ++ a)%string :: split_from c "" s.
Proof.
  induction a as [|d a IH]; intros acc H; [cbn [String.append split_from]; rewrite Ascii.eqb_refl, sapp_nil; reflexivity|]. unfold without in H. cbn [every] in H. apply andb_true_iff in H as [H1 H2]. cbn [String.append split_from].
  unfold isc in H1. rewrite Ascii.eqb_sym in H1. apply negb_true_iff in H1. rewrite H1, (IH _ H2), sapp_assoc. reflexivity.
Qed.
Lemma split_concat c l : l <> [] -> (forall s, In s l -> without c s) -> split c (String.concat (String c "") l) = l.
Proof.
  induction l as [|x l IH]; intros N H; [contradiction|]. rewrite concat_cons. unfold split. destruct l as [|y l].
  - rewrite sapp_nil. rewrite split_from_plain by (apply H; left; reflexivity). reflexivity.
  - rewrite split_from_app by (apply H; left; reflexivity). cbn [String.append]. f_equal. apply IH; [discriminate|]. intros s Hs. apply H. right. exact Hs.
Qed.

Section Table.
Variables (sc : scenario) (names : list string).
Hypotheses (W : wf_scenario sc) (GN : good_names sc names).
Notation D := (D sc names).
Notation ops := (seq 1 (List.length (lexorder sc))).

Lemma in_ops x : In x ops <-> is_letter sc x.
Proof. unfold is_letter. rewrite in_seq. lia. Qed.
Lemma table_spec : op_from_name sc names = Some (("0", 0) :: flat_map (fun x => map (fun s => (s, x)) (all_names sc (D x))) ops).
Proof.
  unfold op_from_name. assert (E : map_opt (interpret_operator sc names) (lexorder sc) = Some (map D ops)).
  { assert (R : lexorder sc = map (row_of sc) ops).
    { apply (nth_ext _ _ [] []); [rewrite map_length, seq_length; reflexivity|]. intros n Hn. rewrite (nth_indep (map (row_of sc) ops) [] (row_of sc 0)) by (rewrite map_length, seq_length; exact Hn). rewrite map_nth, seq_nth by exact Hn. reflexivity. }
    rewrite R at 1. assert (H : letters sc ops) by (intros x Hx; apply in_ops, Hx). exact (dicts_of_letters sc names W GN ops H). }
  rewrite E. f_equal. f_equal. rewrite map_length, seq_length. generalize (seq 1 (List.length (lexorder sc))) as l. induction l as [|x l IH]; [reflexivity|]. cbn [map combine flat_map fst snd]. rewrite IH. reflexivity.
Qed.
Lemma first_named_app s l m : first_named s (l ++ m) = match first_named s l with Some i => Some i | None => first_named s m end.
Proof. induction l as [|[s' i] l IH]; [reflexivity|]. cbn [app first_named]. destruct (String.eqb s s'); [reflexivity|exact IH]. Qed.
Lemma first_named_one s x l : first_named s (map (fun s => (s, x)) l) = if existsb (String.eqb s) l then Some x else None.
Proof. induction l as [|y l IH]; [reflexivity|]. cbn [map first_named existsb]. destruct (String.eqb s y); [reflexivity|exact IH]. Qed.
(** the first operator that has the name *)
Lemma table_first s x : s <> "0" -> In x ops -> In s (all_names sc (D x)) -> (forall y, In y ops -> y < x -> ~ In s (all_names sc (D y))) ->
  forall t, op_from_name sc names = Some t -> first_named s t = Some x.
Proof.
  intros N0 Hx Hs U t Et. rewrite table_spec in Et. match type of Et with Some ?T = _ => assert (Et' : t = T) by congruence end. rewrite Et'. clear Et Et' t. cbn [first_named]. destruct (String.eqb_spec s "0") as [->|_]; [contradiction|].
  apply in_seq in Hx. revert Hx U. generalize (List.length (lexorder sc)) 1. intros n. induction n as [|n IH]; intros a Hx U; [lia|]. cbn [seq flat_map]. cbv beta. rewrite first_named_app. rewrite (first_named_one s a (all_names sc (D a))).
  destruct (existsb (String.eqb s) (all_names sc (D a))) eqn:E.
  - apply existsb_exists in E as (s' & Hs' & E). apply String.eqb_eq in E. subst s'. destruct (Nat.eq_dec a x) as [->|Na]; [reflexivity|]. exfalso. apply (U a); [apply in_seq; lia|lia|exact Hs'].
  - apply IH.
    + destruct (Nat.eq_dec a x) as [->|Na]; [|lia]. exfalso. assert (existsb (String.eqb s) (all_names sc (D x)) = true); [|congruence]. apply existsb_exists. exists s. split; [exact Hs|apply String.eqb_refl].
    + intros y Hy. apply U. apply in_seq in Hy. apply in_seq. lia.
Qed.
(** kinds of names *)
Definition has_eq (s : string) : Prop := every (fun c => negb (isc "=" c)) s = false.
Definition has_caret (s : string) : Prop := every no_caret s = false.
Lemma new_name_eq d inc : has_eq (interpretation_to_name d inc).
Proof. unfold has_eq. rewrite name_parts, !every_app. cbn [every]. change (isc "=" "=") with true. cbn [negb andb]. rewrite !andb_false_r. reflexivity. Qed.
Definition old2_text (d : interp) : string := (i_party d ++ ("_" ++ String.concat "_" (map dec (i_copies d) ++ [dec (i_composite d); dec (i_outcome d)])))%string.
Lemma old2_spec x : is_letter sc x -> old_name2 (D x) = old2_text (D x).
Proof.
  intros Hx. assert (N := D_nice sc names W GN x Hx). unfold old_name2. change (interpretation_to_name_old (D x)) with (old_name (D x)).
  assert (T : i_composite_trivial (D x) = true -> i_composite (D x) = 0).
  { destruct (is_letter_letter sc names W GN x Hx) as (p & c & s & o & v & os & LX). rewrite (l_dict _ _ _ _ _ _ _ _ _ LX). cbn [dict_of i_composite_trivial i_composite]. intros E. apply Nat.eqb_eq in E. destruct (l_valid _ _ _ _ _ _ _ _ _ LX) as (_ & _ & _ & V & _). lia. }
  assert (C : i_copies (D x) <> []) by apply N. assert (P := nd_party _ N). generalize dependent (D x). clear Hx. intros d N T C P.
  assert (S1 : special (isc "226")) by (intros c Hc; char_cases c Hc).
  rewrite old_name_parts by exact C. unfold old2_text, old_list, setting_text.
  set (h := String.concat "_" (map dec (i_copies d))).
  assert (EQ : forall a b, (i_party d ++ ("_" ++ String.concat "_" (map dec (i_copies d) ++ [a; b])))%string = ((i_party d ++ "_" ++ h ++ "_") ++ (a ++ ("_" ++ b)))%string).
  { intros a b. change [a; b] with ([a] ++ [b]). rewrite app_assoc, concat_snoc by (intros Q; apply app_eq_nil in Q as [_ Q]; discriminate Q).
    rewrite concat_snoc by (intros Q; apply map_eq_nil in Q; contradiction). fold h. rewrite !sapp_assoc. reflexivity. }
  rewrite !EQ.
  assert (A : every (fun c => negb (isc "226" c)) (i_party d ++ "_" ++ h ++ "_")%string = true).
  { rewrite !every_app, (nice_avoids _ _ S1 P). unfold h. rewrite every_concat; [reflexivity|reflexivity|]. intros s Hs. apply in_map_iff in Hs as (i & <- & _). apply dec_avoids, special_digit, S1. }
  assert (B : every (fun c => negb (isc "226" c)) ("_" ++ dec (i_outcome d))%string = true) by (cbn [String.append every]; rewrite dec_avoids; [reflexivity|apply special_digit, S1]).
  destruct (i_composite_trivial d) eqn:E.
  - rewrite (T eq_refl). change "∅" with (String "226" (String "136" (String "133" ""))) at 1. rewrite replace_before by exact A. f_equal.
    change ("∅" ++ ("_" ++ dec (i_outcome d)))%string with (String "226" (String "136" (String "133" "")) ++ ("_" ++ dec (i_outcome d)))%string. rewrite replace_here by discriminate. rewrite replace_absent by exact B. reflexivity.
  - apply replace_absent. rewrite every_app, A. cbn [andb]. rewrite every_app, B, dec_avoids; [reflexivity|apply special_digit, S1].
Qed.
Lemma old_no_eq x : is_letter sc x -> ~ has_eq (old_name (D x)) /\ ~ has_eq (old_name2 (D x)).
Proof.
  intros Hx. assert (N := D_nice sc names W GN x Hx). assert (S1 : special (isc "=")) by (intros c Hc; char_cases c Hc). unfold has_eq. split.
  - rewrite old_name_inside; [discriminate|exact N|exact S1|reflexivity|reflexivity].
  - rewrite (old2_spec x Hx). unfold old2_text. rewrite !every_app, (nice_avoids _ _ S1 (nd_party _ N)). rewrite every_concat; [discriminate|reflexivity|].
    intros s Hs. apply in_app_or in Hs as [Hs|[<-|[<-|[]]]]; [apply in_map_iff in Hs as (i & <- & _)| |]; apply dec_avoids, special_digit, S1.
Qed.
Lemma old2_inj_or x y : is_letter sc x -> is_letter sc y -> old_name2 (D x) = old_name (D y) \/ old_name2 (D x) = old_name2 (D y) -> x = y.
Proof.
  intros Hx Hy E. rewrite !old2_spec in E by assumption. assert (N1 := D_nice sc names W GN x Hx). assert (N2 := D_nice sc names W GN y Hy).
  assert (S1 : special (isc "_")) by (intros c Hc; char_cases c Hc).
  assert (PL : forall d s, In s (map dec (i_copies d) ++ [dec (i_composite d); dec (i_outcome d)]) -> without "_" s).
  { intros d s Hs. apply in_app_or in Hs as [Hs|[<-|[<-|[]]]]; [apply in_map_iff in Hs as (i & <- & _)| |]; apply dec_avoids, special_digit, S1. }
  assert (Q : i_party (D x) = i_party (D y) /\ i_copies (D x) = i_copies (D y) /\ i_composite (D x) = i_composite (D y) /\ i_outcome (D x) = i_outcome (D y)).
  { destruct E as [E|E].
    - rewrite old_name_parts in E by apply N2. unfold old2_text in E.
      apply (split_eq (isc "_")) in E as [EP E]; [|apply nice_avoids; [exact S1|apply N1]|apply nice_avoids; [exact S1|apply N2]|reflexivity|reflexivity].
      apply (sapp_cancel "_") in E. apply concat_inj in E; [|apply PL|apply old_list_plain|unfold old_list; split; intros Q; apply app_eq_nil in Q as [_ Q]; discriminate Q].
      apply app_snoc2_inj in E as (E1 & E2 & E3). apply map_dec_inj in E1. apply dec_inj in E3. split; [exact EP|]. split; [exact E1|]. split; [|exact E3].
      unfold setting_text in E2. destruct (i_composite_trivial (D y)); [|apply dec_inj, E2]. exfalso. assert (Q := dec_digits (i_composite (D x))). rewrite E2 in Q. discriminate Q.
    - unfold old2_text in E. apply (split_eq (isc "_")) in E as [EP E]; [|apply nice_avoids; [exact S1|apply N1]|apply nice_avoids; [exact S1|apply N2]|reflexivity|reflexivity].
      apply (sapp_cancel "_") in E. apply concat_inj in E; [|apply PL|apply PL|split; intros Q; apply app_eq_nil in Q as [_ Q]; discriminate Q].
      apply app_snoc2_inj in E as (E1 & E2 & E3). apply map_dec_inj in E1. apply dec_inj in E2, E3. auto. }
  destruct Q as (Q1 & Q2 & Q3 & Q4). apply (old_letter_inj sc names W GN); [assumption|assumption|]. destruct (D_trivial sc names W GN x y Hx Hy Q1) as [_ T].
  rewrite !old_name_parts by (apply N1 || apply N2). unfold old_list, setting_text. rewrite Q1, Q2, Q3, Q4, T. reflexivity.
Qed.
Lemma underscore_in d : i_copies d <> [] -> every (fun c => negb (isc "_" c)) (old_name d) = false.
Proof. intros H. rewrite old_name_parts by exact H. rewrite !every_app. cbn [every]. change (isc "_" "_") with true. cbn [negb andb]. apply andb_false_r. Qed.
Lemma underscore_in2 x : is_letter sc x -> every (fun c => negb (isc "_" c)) (old_name2 (D x)) = false.
Proof. intros H. rewrite (old2_spec x H). unfold old2_text. rewrite !every_app. cbn [every]. change (isc "_" "_") with true. cbn [negb andb]. apply andb_false_r. Qed.
(** names without inflation also determine the operator *)
Lemma only_first x p c s o v os : letter sc names x p c s o v os -> any_inflation sc = false -> forall k, nth k c 0 <= 1.
Proof.
  intros LX N k. destruct (Nat.lt_ge_cases k (nr_sources sc)) as [Hk|Hk].
  - assert (B := valid_copy sc p c s o k W (l_valid _ _ _ _ _ _ _ _ _ LX) Hk). enough (nth k (levels sc) 0 <= 1) by lia.
    destruct (Nat.le_gt_cases (nth k (levels sc) 0) 1) as [G|G]; [exact G|]. unfold any_inflation in N. assert (existsb (fun n => 1 <? n) (levels sc) = true); [|congruence].
    apply existsb_exists. exists (nth k (levels sc) 0). split; [apply nth_In; rewrite (wf_levels sc W); exact Hk|apply Nat.ltb_lt; exact G].
  - rewrite nth_overflow; [lia|]. destruct (l_valid _ _ _ _ _ _ _ _ _ LX) as (_ & VL & _). lia.
Qed.
Lemma op_name_inj x y : is_letter sc x -> is_letter sc y -> op_name sc (D x) = op_name sc (D y) -> x = y.
Proof.
  intros Hx Hy. destruct (is_letter_letter sc names W GN x Hx) as (p & c & s & o & v & os & LX). destruct (is_letter_letter sc names W GN y Hy) as (p' & c' & s' & o' & v' & os' & LY).
  rewrite (l_dict _ _ _ _ _ _ _ _ _ LX), (l_dict _ _ _ _ _ _ _ _ _ LY). unfold op_name. intros E.
  apply (op_names_inj sc names W GN _ p c s o v os p' c' s' o' v' os') in E; try (apply LX || apply LY).
  destruct E as (<- & <- & <- & E). assert (c = c') as <-.
  { destruct (any_inflation sc) eqn:N; [apply E; reflexivity|]. exact (copies_by_party sc p c s o s o c' (l_valid _ _ _ _ _ _ _ _ _ LX) (l_valid _ _ _ _ _ _ _ _ _ LY) (only_first _ _ _ _ _ _ _ LX N) (only_first _ _ _ _ _ _ _ LY N)). }
  apply (letter_inj sc names W GN); [assumption|assumption|]. rewrite (l_row' _ _ _ _ _ _ _ _ _ LX), (l_row' _ _ _ _ _ _ _ _ _ LY). reflexivity.
Qed.
Lemma in_all s d : In s (all_names sc d) <-> s = op_name sc d \/ s = copy_free_name d \/ s = old_name d \/ s = old_name2 d.
Proof. unfold all_names. cbn [In]. intuition. Qed.
Lemma not_zero_eq s : has_eq s -> s <> "0".
Proof. intros H ->. discriminate H. Qed.
Lemma name_lookup x t : is_letter sc x -> op_from_name sc names = Some t -> first_named (op_name sc (D x)) t = Some x.
Proof.
  intros Hx. assert (N := D_nice sc names W GN x Hx). apply table_first; [apply not_zero_eq, new_name_eq|apply in_ops, Hx|apply in_all; auto|].
  intros y Hy L I. apply in_ops in Hy. assert (N2 := D_nice sc names W GN y Hy). assert (y = x); [|lia]. apply in_all in I as [E|[E|[E|E]]].
  - symmetry. apply op_name_inj; assumption.
  - unfold op_name in E. destruct (any_inflation sc) eqn:Q.
    + exfalso. apply (f_equal (every no_caret)) in E. unfold copy_free_name in E. rewrite name_caret, name_no_caret in E by assumption. discriminate.
    + symmetry. apply op_name_inj; [assumption|assumption|]. unfold op_name. rewrite Q. exact E.
  - exfalso. apply (proj1 (old_no_eq y Hy)). rewrite <- E. apply new_name_eq.
  - exfalso. apply (proj2 (old_no_eq y Hy)). rewrite <- E. apply new_name_eq.
Qed.
Lemma old_lookup x t : is_letter sc x -> op_from_name sc names = Some t -> first_named (old_name (D x)) t = Some x.
Proof.
  intros Hx. assert (N := D_nice sc names W GN x Hx). apply table_first; [intros E; assert (Q := underscore_in (D x) (nd_copies _ N)); rewrite E in Q; discriminate Q|apply in_ops, Hx|apply in_all; auto|].
  intros y Hy L I. apply in_ops in Hy. assert (y = x); [|lia]. apply in_all in I as [E|[E|[E|E]]].
  - exfalso. apply (proj1 (old_no_eq x Hx)). rewrite E. apply new_name_eq.
  - exfalso. apply (proj1 (old_no_eq x Hx)). rewrite E. apply new_name_eq.
  - symmetry. apply (old_letter_inj sc names W GN); assumption.
  - apply old2_inj_or; [assumption|assumption|]. left. symmetry. exact E.
Qed.
Lemma old2_lookup x t : is_letter sc x -> op_from_name sc names = Some t -> first_named (old_name2 (D x)) t = Some x.
Proof.
  intros Hx. assert (N := D_nice sc names W GN x Hx). apply table_first; [intros E; assert (Q := underscore_in2 x Hx); rewrite E in Q; discriminate Q|apply in_ops, Hx|apply in_all; auto|].
  intros y Hy L I. apply in_ops in Hy. assert (y = x); [|lia]. apply in_all in I as [E|[E|[E|E]]].
  - exfalso. apply (proj2 (old_no_eq x Hx)). rewrite E. apply new_name_eq.
  - exfalso. apply (proj2 (old_no_eq x Hx)). rewrite E. apply new_name_eq.
  - symmetry. apply old2_inj_or; [assumption|assumption|]. left. exact E.
  - symmetry. apply old2_inj_or; [assumption|assumption|]. right. exact E.
Qed.
(** the operator with the first copies *)
Lemma copy_free_lookup x p c s o t : nth_error (lexorder sc) (x - 1) = Some (mkrow (p + 1) c s o) -> 1 <= x -> op_from_name sc names = Some t ->
  exists y c', first_named (copy_free_name (D x)) t = Some y /\ 1 <= y /\ nth_error (lexorder sc) (y - 1) = Some (mkrow (p + 1) c' s o) /\ (forall k, nth k c' 0 <= 1).
Proof.
  intros Ex X1 Et. assert (Hx : is_letter sc x) by (unfold is_letter; assert (x - 1 < List.length (lexorder sc)) by (apply nth_error_Some; congruence); lia).
  destruct (is_letter_letter sc names W GN x Hx) as (p1 & c1 & s1 & o1 & v & os & LX). assert (Q := l_row _ _ _ _ _ _ _ _ _ LX). rewrite Ex in Q. assert (Q' : mkrow (p + 1) c s o = mkrow (p1 + 1) c1 s1 o1) by congruence.
  apply mkrow_inj in Q' as (Q1 & <- & <- & <-). assert (p1 = p) as -> by lia. clear Q Q1.
  assert (V := l_valid _ _ _ _ _ _ _ _ _ LX). set (c' := map (fun a => Nat.min a 1) c).
  assert (NC : forall k, nth k c' 0 = Nat.min (nth k c 0) 1) by (intros k; exact (map_nth (fun a => Nat.min a 1) c 0 k)).
  assert (V' : valid_operator sc p c' s o).
  { destruct V as (V1 & V2 & V3 & V4 & V5). split; [exact V1|]. split; [unfold c'; rewrite map_length; exact V2|]. split; [|split; assumption]. intros k src Hk. destruct (V3 k src Hk) as [A B]. rewrite NC. split.
    - intros R. specialize (A R). lia.
    - intros R. rewrite (B R). reflexivity. }
  assert (In (mkrow (p + 1) c' s o) (lexorder sc)) by (apply (lexorder_in sc _ W); eauto 6). apply In_nth_error in H as (i & Hi).
  assert (Hy : is_letter sc (S i)) by (unfold is_letter; assert (i < List.length (lexorder sc)) by (apply nth_error_Some; congruence); lia).
  exists (S i), c'. split; [|split; [lia|split; [replace (S i - 1) with i by lia; exact Hi|intros k; rewrite NC; lia]]].
  destruct (is_letter_letter sc names W GN (S i) Hy) as (p2 & c2 & s2 & o2 & v2 & os2 & LY). assert (Q := l_row _ _ _ _ _ _ _ _ _ LY). replace (S i - 1) with i in Q by lia. rewrite Hi in Q. assert (Q' : mkrow (p + 1) c' s o = mkrow (p2 + 1) c2 s2 o2) by congruence.
  apply mkrow_inj in Q' as (Q1 & <- & <- & <-). assert (p2 = p) as -> by lia. clear Q Q1.
  assert (ST : v :: os = v2 :: os2) by (assert (A1 := l_setting _ _ _ _ _ _ _ _ _ LX); assert (A2 := l_setting _ _ _ _ _ _ _ _ _ LY); congruence). injection ST as <- <-.
  assert (EN : copy_free_name (D x) = copy_free_name (D (S i))) by (rewrite (l_dict _ _ _ _ _ _ _ _ _ LX), (l_dict _ _ _ _ _ _ _ _ _ LY); reflexivity).
  revert t Et. apply table_first; [apply not_zero_eq, new_name_eq|apply in_ops, Hy|apply in_all; rewrite EN; auto|].
  intros y Iy L I. apply in_ops in Iy. assert (N2 := D_nice sc names W GN y Iy). assert (N1 := D_nice sc names W GN x Hx).
  destruct (is_letter_letter sc names W GN y Iy) as (p3 & c3 & s3 & o3 & v3 & os3 & LZ).
  assert (CF : copy_free_name (D x) = copy_free_name (D y)).
  { apply in_all in I as [E|[E|[E|E]]].
    - unfold op_name in E. destruct (any_inflation sc); [|exact E]. exfalso. apply (f_equal (every no_caret)) in E. unfold copy_free_name in E. rewrite name_caret, name_no_caret in E by assumption. discriminate.
    - exact E.
    - exfalso. apply (proj1 (old_no_eq y Iy)). rewrite <- E. apply new_name_eq.
    - exfalso. apply (proj2 (old_no_eq y Iy)). rewrite <- E. apply new_name_eq. }
  rewrite (l_dict _ _ _ _ _ _ _ _ _ LX), (l_dict _ _ _ _ _ _ _ _ _ LZ) in CF. unfold copy_free_name in CF.
  apply (op_names_inj sc names W GN false p c s o v os p3 c3 s3 o3 v3 os3) in CF; try (apply LX || apply LZ). destruct CF as (<- & <- & <- & _).
  (* y has the same party, setting and outcome, so comes not before *)
  assert (i <= y - 1); [|unfold is_letter in Iy; lia]. apply (index_le sc W _ _ _ _ (l_row _ _ _ _ _ _ _ _ _ LZ) Hi).
  destruct (l_valid _ _ _ _ _ _ _ _ _ LZ) as (_ & L3 & Z & _). destruct V' as (_ & L' & V' & _).
  destruct (pointwise_lex c' c3) as [->|Q]; [congruence| |left; reflexivity|].
  - intros k. rewrite NC. destruct (nth_error (sources sc) k) as [src|] eqn:Ek.
    + destruct (Z k src Ek) as [Z1 Z2]. destruct (V' k src Ek) as [V1 V2]. destruct (hypergraph sc k p) eqn:HG.
      * apply (hypergraph_reaches sc k p src Ek) in HG. specialize (Z1 HG). lia.
      * assert (NR : ~ reaches src p) by (intros Q; apply (hypergraph_reaches sc k p src Ek) in Q; congruence). specialize (V2 NR). rewrite NC in V2. lia.
    + apply nth_error_None in Ek. destruct V as (_ & L0 & _). rewrite (nth_overflow c) by (rewrite L0; exact Ek). lia.
  - right. unfold mkrow. apply lt_tail. apply lex_lt_app_r; [unfold c' in *; congruence|exact Q].
Qed.
End Table.
