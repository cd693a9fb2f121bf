(** The dictionaries of the operators of a scenario. *)
From Coq Require Import List Arith Bool Ascii String Lia.
From Verif Require Import CanonModel ScenarioModel ScenarioSpec ScenarioProofs SymProofs ProgramModel NameModel NameSpec NameProofs.
Import ListNotations.
Open Scope string_scope. Open Scope nat_scope. Open Scope list_scope.

Lemma set_new {V} k (v : V) d : ~ In k (map fst d) -> set string_dec k v d = d ++ [(k, v)].
Proof.
  induction d as [|[k' v'] d IH]; intros N; [reflexivity|]. cbn [set map fst] in *. destruct (string_dec k k') as [->|_]; [exfalso; apply N; left; reflexivity|].
  rewrite IH; [reflexivity|]. intros H. apply N. right. exact H.
Qed.
Lemma update_new {V} (l : list (string * V)) : forall d, NoDup (map fst d ++ map fst l) -> update string_dec d l = d ++ l.
Proof.
  unfold update. induction l as [|[k v] l IH]; intros d N; [rewrite app_nil_r; reflexivity|]. cbn [fold_left fst snd]. rewrite set_new.
  - rewrite IH; [rewrite <- app_assoc; reflexivity|]. rewrite map_app, <- app_assoc. exact N.
  - intros H. cbn [map fst] in N. apply NoDup_remove_2 in N. apply N, in_or_app. left. exact H.
Qed.
Lemma combine_fst {A B} (l : list A) : forall (m : list B), List.length l = List.length m -> map fst (combine l m) = l.
Proof. induction l as [|x l IH]; intros [|y m] E; try discriminate E; [reflexivity|]. cbn. f_equal. apply IH. injection E as E. exact E. Qed.
Lemma NoDup_map_nth (names : list string) l : NoDup names -> NoDup l -> (forall q, In q l -> q < List.length names) -> NoDup (map (fun q => nth q names "") l).
Proof.
  intros N. induction l as [|q l IH]; intros D H; [constructor|]. inversion D as [|q' l' Hq Dl]; subst. cbn [map]. constructor.
  - intros I. apply in_map_iff in I as (q2 & E & I). apply Hq. rewrite <- (proj1 (NoDup_nth names "") N q2 q); [exact I|apply H; right; exact I|apply H; left; reflexivity|exact E].
  - apply IH; [exact Dl|]. intros q2 H2. apply H. right. exact H2.
Qed.

Section Ops.
Variables (sc : scenario) (names : list string).
Hypotheses (W : wf_scenario sc) (GN : good_names sc names).

Definition parent_names (p : nat) : list string := map (fun q => nth q names "") (nth p (parents sc) []).
Lemma nth_parents_in p : nth p (parents sc) [] = [] \/ In (nth p (parents sc) []) (parents sc).
Proof. destruct (lt_dec p (List.length (parents sc))) as [H|H]; [right; apply nth_In; exact H|left; apply nth_overflow; lia]. Qed.
Lemma parent_range p q : In q (nth p (parents sc) []) -> q < List.length names.
Proof.
  intros H. rewrite (gn_length _ _ GN). destruct (nth_parents_in p) as [E|E]; [rewrite E in H; destruct H|]. exact (wf_parents_range sc W _ q E H).
Qed.
Lemma parent_names_NoDup p : NoDup (parent_names p).
Proof.
  apply NoDup_map_nth; [apply (gn_different _ _ GN)| |apply parent_range]. destruct (nth_parents_in p) as [->|E]; [constructor|exact (gn_parents _ _ GN _ E)].
Qed.
Lemma parent_names_nice p s : In s (parent_names p) -> nice s.
Proof. intros H. apply in_map_iff in H as (q & <- & Hq). apply (gn_chars _ _ GN), nth_In, (parent_range p q Hq). Qed.
Lemma name_nice p : p < nr_parties sc -> nice (nth p names "").
Proof. intros H. apply (gn_chars _ _ GN), nth_In. rewrite (gn_length _ _ GN). exact H. Qed.
Lemma name_inj_party p q : p < nr_parties sc -> q < nr_parties sc -> nth p names "" = nth q names "" -> p = q.
Proof. rewrite <- (gn_length _ _ GN). intros Hp Hq E. exact (proj1 (NoDup_nth names "") (gn_different _ _ GN) p q Hp Hq E). Qed.

Definition relevant_of (c : list nat) : list nat := map fst (filter (fun cl => (0 <? snd cl) && (0 <? fst cl)) (combine c (levels sc))).
Definition dict_of (p : nat) (c : list nat) (s o x : nat) (os : list nat) : interp := {|
  i_party := nth p names ""; i_outcome := o; i_composite := s; i_composite_trivial := nr_settings sc p =? 1;
  i_private := x; i_private_trivial := nth p (private_settings sc) 0 =? 1;
  i_do := combine (parent_names p) os; i_copies := c; i_relevant := relevant_of c |}.
Lemma interp_spec p c s o : valid_operator sc p c s o ->
  exists x os, assoc (effective_to_parent sc p) s = Some (x :: os) /\ List.length os = List.length (nth p (parents sc) []) /\
    x < nth p (private_settings sc) 0 /\
    interpret_operator sc names (mkrow (p + 1) c s o) = Some (dict_of p c s o x os).
Proof.
  intros (V1 & V2 & V3 & V4 & V5). destruct (effective_bijection sc p) as (B & _). cbn zeta in B. destruct (B s V4) as (t & Et & Ft).
  unfold setting_shape in Ft. inversion Ft as [|x n os sh Hx Ho]; subst. exists x, os. split; [exact Et|].
  assert (L : List.length os = List.length (nth p (parents sc) [])) by (apply Forall2_len in Ho; rewrite Ho, map_length; reflexivity).
  split; [exact L|]. split; [exact Hx|]. unfold interpret_operator. rewrite mkrow_party, mkrow_setting, mkrow_outcome, mkrow_copies.
  replace (p + 1 - 1) with p by lia. rewrite Et. cbn [hd tl]. fold (parent_names p). rewrite update_new.
  - reflexivity.
  - cbn [map app]. rewrite combine_fst; [apply parent_names_NoDup|]. unfold parent_names. rewrite map_length. symmetry. exact L.
Qed.
Lemma relevant_nonempty p c s o : valid_operator sc p c s o -> relevant_of c <> [].
Proof.
  intros (V1 & V2 & V3 & V4 & V5) E. destruct (wf_sourced sc W p V1) as (src & Hs & R). apply In_nth_error in Hs as (k & Hk).
  destruct (V3 k src Hk) as [A _]. specialize (A R).
  assert (I : In (nth k c 0, nth k (levels sc) 0) (combine c (levels sc))).
  { rewrite <- combine_nth by (rewrite V2, (wf_levels sc W); reflexivity). apply nth_In. rewrite combine_length, V2, (wf_levels sc W), Nat.min_id. unfold nr_sources. apply nth_error_Some. congruence. }
  assert (I2 : In (nth k c 0) (relevant_of c)).
  { unfold relevant_of. apply in_map_iff. exists (nth k c 0, nth k (levels sc) 0). split; [reflexivity|]. apply filter_In. split; [exact I|]. cbn [fst snd].
    apply andb_true_iff. split; apply Nat.ltb_lt; lia. }
  rewrite E in I2. destruct I2.
Qed.
Lemma copies_nonempty p c s o : valid_operator sc p c s o -> c <> [].
Proof. intros V E. apply (relevant_nonempty p c s o V). rewrite E. reflexivity. Qed.
Lemma in_combine_key {A B} (l : list A) (m : list B) kv : In kv (combine l m) -> In (fst kv) l.
Proof. destruct kv as [k v]. apply in_combine_l. Qed.
Lemma dict_nice p c s o x os : valid_operator sc p c s o -> nice_dict (dict_of p c s o x os).
Proof.
  intros V. constructor; cbn [i_party i_do i_copies i_relevant dict_of].
  - apply name_nice, V.
  - intros kv H. apply in_combine_key in H. exact (parent_names_nice p _ H).
  - exact (copies_nonempty p c s o V).
  - exact (relevant_nonempty p c s o V).
Qed.
Lemma assoc_inj p s s' t : assoc (effective_to_parent sc p) s = Some t -> assoc (effective_to_parent sc p) s' = Some t -> s = s'.
Proof.
  intros E E'. destruct (effective_bijection sc p) as (_ & _ & _ & B). destruct (Nat.lt_trichotomy s s') as [H|[H|H]]; [|exact H|].
  - apply (B _ _ _ _ E E') in H. exfalso. exact (lex_lt_irrefl _ H).
  - apply (B _ _ _ _ E' E) in H. exfalso. exact (lex_lt_irrefl _ H).
Qed.
Lemma combine_snd_inj {A B} (l : list A) : forall (m m' : list B), List.length m = List.length l -> List.length m' = List.length l -> combine l m = combine l m' -> m = m'.
Proof.
  induction l as [|x l IH]; intros [|y m] [|y' m'] L L' E; try discriminate; [reflexivity|]. cbn [combine] in E. injection E as -> E. f_equal.
  apply IH; [injection L as L; exact L|injection L' as L'; exact L'|exact E].
Qed.
(** name with or without copies determines the operator, or the operator up to copies *)
Lemma op_names_inj inc p c s o x os p' c' s' o' x' os' :
  valid_operator sc p c s o -> valid_operator sc p' c' s' o' ->
  assoc (effective_to_parent sc p) s = Some (x :: os) -> assoc (effective_to_parent sc p') s' = Some (x' :: os') ->
  List.length os = List.length (nth p (parents sc) []) -> List.length os' = List.length (nth p' (parents sc) []) ->
  x < nth p (private_settings sc) 0 -> x' < nth p' (private_settings sc) 0 ->
  interpretation_to_name (dict_of p c s o x os) inc = interpretation_to_name (dict_of p' c' s' o' x' os') inc ->
  p = p' /\ s = s' /\ o = o' /\ (inc = true -> c = c').
Proof.
  intros V V' A A' L L' X X' E. apply name_inj in E; [|exact (dict_nice p c s o x os V)|exact (dict_nice p' c' s' o' x' os' V')|].
  - cbn [i_party i_private_trivial i_private i_copies i_outcome i_do dict_of] in E. destruct E as (E1 & E2 & E3 & E4 & E5).
    apply name_inj_party in E1; [|apply V|apply V']. subst p'. split; [reflexivity|].
    assert (x = x') as <-. { destruct (Nat.eqb_spec (nth p (private_settings sc) 0) 1) as [Q|Q]; [lia|]. apply E2. reflexivity. }
    apply combine_snd_inj in E5; [|unfold parent_names; rewrite map_length; exact L|unfold parent_names; rewrite map_length; exact L']. subst os'.
    split; [exact (assoc_inj p s s' _ A A')|]. auto.
  - cbn [i_party i_private_trivial dict_of]. intros Q. apply name_inj_party in Q; [|apply V|apply V']. subst p'. reflexivity.
Qed.

(** ** the old names *)
Definition setting_text (d : interp) : string := if i_composite_trivial d then "∅" else dec (i_composite d).
Lemma concat_snoc l x : l <> [] -> String.concat "_" (l ++ [x]) = (String.concat "_" l ++ ("_" ++ x))%string.
Proof.
  induction l as [|y l IH]; intros N; [contradiction|]. destruct l as [|z l]; [reflexivity|].
  assert (E := IH ltac:(discriminate)). change ((y :: z :: l) ++ [x]) with (y :: z :: (l ++ [x])).
  change (String.concat "_" (y :: z :: (l ++ [x]))) with (y ++ ("_" ++ String.concat "_" ((z :: l) ++ [x])))%string. rewrite E.
  change (String.concat "_" (y :: z :: l)) with (y ++ ("_" ++ String.concat "_" (z :: l)))%string. rewrite !sapp_assoc. reflexivity.
Qed.
Definition old_list (d : interp) : list string := map dec (i_copies d) ++ [setting_text d; dec (i_outcome d)].
Lemma old_name_parts d : i_copies d <> [] -> old_name d = (i_party d ++ ("_" ++ String.concat "_" (old_list d)))%string.
Proof.
  intros N. unfold old_name, interpretation_to_name_old, old_list.
  change [setting_text d; dec (i_outcome d)] with ([setting_text d] ++ [dec (i_outcome d)]). rewrite app_assoc.
  rewrite concat_snoc by (intros Q; apply app_eq_nil in Q as [_ Q]; discriminate Q).
  rewrite concat_snoc by (intros Q; apply map_eq_nil in Q; contradiction). rewrite !sapp_assoc. do 3 f_equal.
  unfold setting_text. destruct (i_composite_trivial d); reflexivity.
Qed.
Lemma setting_text_plain d : every (fun c => negb (isc "_" c)) (setting_text d) = true.
Proof. unfold setting_text. destruct (i_composite_trivial d); [reflexivity|]. apply dec_avoids. nodigit. Qed.
Lemma old_list_plain d s : In s (old_list d) -> without "_" s.
Proof.
  unfold old_list. intros H. apply in_app_or in H as [H|[<-|[<-|[]]]].
  - apply in_map_iff in H as (i & <- & _). apply dec_avoids. nodigit.
  - apply setting_text_plain.
  - apply dec_avoids. nodigit.
Qed.
Lemma app_snoc2_inj {A} (l m : list A) a b a' b' : l ++ [a; b] = m ++ [a'; b'] -> l = m /\ a = a' /\ b = b'.
Proof.
  intros E. change [a; b] with ([a] ++ [b]) in E. change [a'; b'] with ([a'] ++ [b']) in E. rewrite !app_assoc in E.
  apply app_inj_tail in E as [E ->]. apply app_inj_tail in E as [-> ->]. auto.
Qed.
Lemma old_name_inj_dict d1 d2 : nice_dict d1 -> nice_dict d2 -> (i_party d1 = i_party d2 -> i_composite_trivial d1 = i_composite_trivial d2) ->
  old_name d1 = old_name d2 ->
  i_party d1 = i_party d2 /\ i_copies d1 = i_copies d2 /\ (i_composite_trivial d1 = false -> i_composite d1 = i_composite d2) /\ i_outcome d1 = i_outcome d2.
Proof.
  intros N1 N2 HT E. rewrite !old_name_parts in E by (apply N1 || apply N2).
  assert (S1 : special (isc "_")) by (intros c Hc; char_cases c Hc).
  apply (split_eq (isc "_")) in E as [EP E]; [|apply nice_avoids; [exact S1|apply N1]|apply nice_avoids; [exact S1|apply N2]|reflexivity|reflexivity].
  apply (sapp_cancel "_") in E. apply concat_inj in E; [|apply old_list_plain|apply old_list_plain|unfold old_list; split; intros Q; apply app_eq_nil in Q as [_ Q]; discriminate Q].
  apply app_snoc2_inj in E as (E1 & E2 & E3). apply map_dec_inj in E1. apply dec_inj in E3. split; [exact EP|]. split; [exact E1|]. split; [|exact E3].
  specialize (HT EP). unfold setting_text in E2. rewrite <- HT in E2. destruct (i_composite_trivial d1); [discriminate|]. intros _. apply dec_inj, E2.
Qed.
Lemma old_names_inj p c s o x os p' c' s' o' x' os' :
  valid_operator sc p c s o -> valid_operator sc p' c' s' o' ->
  old_name (dict_of p c s o x os) = old_name (dict_of p' c' s' o' x' os') -> p = p' /\ s = s' /\ o = o' /\ c = c'.
Proof.
  intros V V' E. apply old_name_inj_dict in E; [|exact (dict_nice p c s o x os V)|exact (dict_nice p' c' s' o' x' os' V')|].
  - cbn [i_party i_copies i_composite_trivial i_composite i_outcome dict_of] in E. destruct E as (E1 & E2 & E3 & E4).
    apply name_inj_party in E1; [|apply V|apply V']. subst p'. split; [reflexivity|]. split; [|auto].
    destruct (Nat.eqb_spec (nr_settings sc p) 1) as [Q|Q]; [|apply E3; reflexivity].
    destruct V as (_ & _ & _ & V & _), V' as (_ & _ & _ & V' & _). lia.
  - cbn [i_party i_composite_trivial dict_of]. intros Q. apply name_inj_party in Q; [|apply V|apply V']. subst p'. reflexivity.
Qed.
End Ops.
