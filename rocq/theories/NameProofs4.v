(** The names of atoms determine them. *)
From Coq Require Import List Arith Bool Ascii String Lia.
From Verif Require Import CanonModel CanonSpec ScenarioModel ScenarioSpec ScenarioProofs SymModel SymProofs ColumnModel MemoModel MemoSpec MemoProofs KnowModel KnowSpec KnowProofs ProgramModel NameModel NameSpec NameProofs NameProofs2 NameProofs3.
Import ListNotations.
Open Scope string_scope. Open Scope nat_scope. Open Scope list_scope.

Lemma Forall2_map_eq {A B C} (f : A -> C) (g : B -> C) l1 : forall l2, map f l1 = map g l2 <-> Forall2 (fun x y => f x = g y) l1 l2.
Proof.
  induction l1 as [|x l1 IH]; intros [|y l2]; cbn [map]; split; intros H; try discriminate; try (inversion H; fail); try constructor; try reflexivity.
  - injection H as H _. exact H.
  - injection H as _ H. apply IH. exact H.
  - inversion H; subst. f_equal; [assumption|]. apply IH. assumption.
Qed.
Lemma Forall2_eq {A} (l1 : list A) : forall l2, Forall2 eq l1 l2 -> l1 = l2.
Proof. induction l1; intros l2 H; inversion H; subst; [reflexivity|]. f_equal. auto. Qed.
Lemma Forall2_impl_in {A B} (P Q : A -> B -> Prop) l1 : forall l2, (forall x y, In x l1 -> In y l2 -> P x y -> Q x y) -> Forall2 P l1 l2 -> Forall2 Q l1 l2.
Proof.
  induction l1 as [|x l1 IH]; intros l2 H F; inversion F as [|a b u v Hab Huv]; subst; constructor.
  - apply H; [left; reflexivity|left; reflexivity|exact Hab].
  - apply IH; [|exact Huv]. intros a c Ha Hc. apply H; right; assumption.
Qed.
Lemma Forall2_conj {A B} (P Q : A -> B -> Prop) l1 : forall l2, Forall2 P l1 l2 -> Forall2 Q l1 l2 -> Forall2 (fun x y => P x y /\ Q x y) l1 l2.
Proof. induction l1; intros l2 F G; inversion F; subst; inversion G; subst; constructor; auto. Qed.

(** ** Cleaned do-values *)
Definition same_outcomes (d1 d2 : interp) : Prop := i_party d1 = i_party d2 /\ i_outcome d1 = i_outcome d2.
Lemma unambiguous_ext ds1 ds2 k v : Forall2 same_outcomes ds1 ds2 -> unambiguous ds1 k v = unambiguous ds2 k v.
Proof.
  intros F. unfold unambiguous. f_equal.
  - induction F as [|a b l m [H1 H2] F IH]; [reflexivity|]. cbn [existsb]. rewrite H1, IH. reflexivity.
  - induction F as [|a b l m [H1 H2] F IH]; [reflexivity|]. cbn [forallb]. rewrite H1, H2, IH. reflexivity.
Qed.
Lemma unambiguous_one ds k v v' : unambiguous ds k v = true -> unambiguous ds k v' = true -> v = v'.
Proof.
  unfold unambiguous. rewrite !andb_true_iff, !forallb_forall. intros [A B] [_ C]. apply existsb_exists in A as (d & Hd & E).
  specialize (B d Hd). specialize (C d Hd). rewrite E in B, C. apply Nat.eqb_eq in B, C. congruence.
Qed.
Lemma filter_keys (f : string * nat -> bool) ks vs k v : In (k, v) (filter f (combine ks vs)) -> In k ks.
Proof. intros H. apply filter_In in H as [H _]. apply in_combine_l in H. exact H. Qed.
(** values that were dropped are determined, the others are there *)
Lemma filter_inj (f : string * nat -> bool) ks : (forall k v v', f (k, v) = false -> f (k, v') = false -> v = v') -> NoDup ks ->
  forall vs vs', List.length vs = List.length ks -> List.length vs' = List.length ks ->
  filter f (combine ks vs) = filter f (combine ks vs') -> vs = vs'.
Proof.
  intros U. induction ks as [|k ks IH]; intros N [|v vs] [|v' vs'] L L' E; try discriminate; [reflexivity|].
  inversion N as [|? ? Nk Nks]; subst. injection L as L. injection L' as L'. cbn [combine filter] in E.
  destruct (f (k, v)) eqn:Fv, (f (k, v')) eqn:Fv'.
  - injection E as -> E. f_equal. apply IH; assumption.
  - exfalso. apply Nk. apply (filter_keys f ks vs' k v). rewrite <- E. left. reflexivity.
  - exfalso. apply Nk. apply (filter_keys f ks vs k v'). rewrite E. left. reflexivity.
  - f_equal; [exact (U k v v' Fv Fv')|]. apply IH; assumption.
Qed.
Lemma filter_all {A} (f : A -> bool) l : List.length (filter f l) = List.length l -> filter f l = l.
Proof.
  induction l as [|x l IH]; [reflexivity|]. cbn [filter]. assert (H : List.length (filter f l) <= List.length l) by (clear; induction l as [|y l IH]; cbn [filter List.length]; [lia|destruct (f y); cbn [List.length]; lia]). destruct (f x); cbn [List.length]; intros E; [f_equal; apply IH; lia|lia].
Qed.

Section Atoms.
Variables (sc : scenario) (names : list string).
Hypotheses (W : wf_scenario sc) (GN : good_names sc names).

(** ** Letters *)
Definition is_letter (x : nat) : Prop := 1 <= x <= List.length (lexorder sc).
Definition row_of (x : nat) : row := nth x (sdp_lexorder sc) [].
Definition default_dict : interp := {| i_party := ""; i_outcome := 0; i_composite := 0; i_composite_trivial := true; i_private := 0; i_private_trivial := true; i_do := []; i_copies := []; i_relevant := [] |}.
Definition D (x : nat) : interp := match interpret_operator sc names (row_of x) with Some d => d | None => default_dict end.
Record letter (x p : nat) (c : list nat) (s o v : nat) (os : list nat) : Prop := {
  l_row : nth_error (lexorder sc) (x - 1) = Some (mkrow (p + 1) c s o);
  l_row' : row_of x = mkrow (p + 1) c s o;
  l_valid : valid_operator sc p c s o;
  l_setting : assoc (effective_to_parent sc p) s = Some (v :: os);
  l_length : List.length os = List.length (nth p (parents sc) []);
  l_private : v < nth p (private_settings sc) 0;
  l_dict : D x = dict_of sc names p c s o v os;
  l_interp : interpret_operator sc names (row_of x) = Some (D x) }.
Lemma is_letter_letter x : is_letter x -> exists p c s o v os, letter x p c s o v os.
Proof.
  intros Hx. unfold is_letter in Hx. destruct (lexorder_parts sc (x - 1) W ltac:(lia)) as (p & c & s & o & E & V).
  assert (E' : row_of x = mkrow (p + 1) c s o).
  { unfold row_of. destruct x as [|x]; [lia|]. replace (S x - 1) with x in E by lia. unfold sdp_lexorder. cbn [nth]. apply (nth_error_nth _ _ _ E). }
  destruct (interp_spec sc names W GN p c s o V) as (v & os & A & L & P & I). exists p, c, s, o, v, os.
  assert (D x = dict_of sc names p c s o v os) by (unfold D; rewrite E', I; reflexivity).
  constructor; try assumption. rewrite E', I. congruence.
Qed.
Lemma letter_inj x y : is_letter x -> is_letter y -> row_of x = row_of y -> x = y.
Proof.
  intros Hx Hy E. destruct (is_letter_letter x Hx) as (p & c & s & o & v & os & LX). destruct (is_letter_letter y Hy) as (p' & c' & s' & o' & v' & os' & LY).
  rewrite (l_row' _ _ _ _ _ _ _ LX), (l_row' _ _ _ _ _ _ _ LY) in E. assert (E1 := l_row _ _ _ _ _ _ _ LX). assert (E2 := l_row _ _ _ _ _ _ _ LY). rewrite E, <- E2 in E1.
  unfold is_letter in *. assert (x - 1 = y - 1); [|lia]. apply (proj1 (NoDup_nth_error (lexorder sc)) (lexorder_NoDup sc W)); [lia|exact E1].
Qed.
(** an operator is determined by its dictionary, as far as the names show it *)
Lemma letter_by_dict x y : is_letter x -> is_letter y -> i_party (D x) = i_party (D y) ->
  (i_private_trivial (D x) = false -> i_private (D x) = i_private (D y)) -> i_outcome (D x) = i_outcome (D y) ->
  i_do (D x) = i_do (D y) -> i_copies (D x) = i_copies (D y) -> x = y.
Proof.
  intros Hx Hy. destruct (is_letter_letter x Hx) as (p & c & s & o & v & os & LX). destruct (is_letter_letter y Hy) as (p' & c' & s' & o' & v' & os' & LY).
  rewrite (l_dict _ _ _ _ _ _ _ LX), (l_dict _ _ _ _ _ _ _ LY). cbn [i_party i_private_trivial i_private i_outcome i_do i_copies dict_of]. intros E1 E2 E3 E4 E5.
  assert (V := l_valid _ _ _ _ _ _ _ LX). assert (V' := l_valid _ _ _ _ _ _ _ LY).
  apply (name_inj_party sc names GN) in E1; [|apply V|apply V']. subst p' o' c'.
  assert (v = v') as <-.
  { assert (Q1 := l_private _ _ _ _ _ _ _ LX). assert (Q2 := l_private _ _ _ _ _ _ _ LY). destruct (Nat.eqb_spec (nth p (private_settings sc) 0) 1) as [Q|Q]; [lia|]. apply E2. reflexivity. }
  apply combine_snd_inj in E4; [|unfold parent_names; rewrite map_length; apply LX|unfold parent_names; rewrite map_length; apply LY]. subst os'.
  assert (s = s') as <- by exact (assoc_inj sc p s s' _ (l_setting _ _ _ _ _ _ _ LX) (l_setting _ _ _ _ _ _ _ LY)).
  apply letter_inj; [assumption|assumption|]. rewrite (l_row' _ _ _ _ _ _ _ LX), (l_row' _ _ _ _ _ _ _ LY). reflexivity.
Qed.
Lemma D_nice x : is_letter x -> nice_dict (D x).
Proof. intros Hx. destruct (is_letter_letter x Hx) as (p & c & s & o & v & os & LX). rewrite (l_dict _ _ _ _ _ _ _ LX). apply (dict_nice sc names W GN p c s o), LX. Qed.
Lemma D_trivial x y : is_letter x -> is_letter y -> i_party (D x) = i_party (D y) -> i_private_trivial (D x) = i_private_trivial (D y) /\ i_composite_trivial (D x) = i_composite_trivial (D y).
Proof.
  intros Hx Hy. destruct (is_letter_letter x Hx) as (p & c & s & o & v & os & LX). destruct (is_letter_letter y Hy) as (p' & c' & s' & o' & v' & os' & LY).
  rewrite (l_dict _ _ _ _ _ _ _ LX), (l_dict _ _ _ _ _ _ _ LY). cbn [i_party i_private_trivial i_composite_trivial dict_of]. intros E.
  apply (name_inj_party sc names GN) in E; [|apply LX|apply LY]. subst p'. auto.
Qed.
Lemma D_do x : is_letter x -> exists p os, i_party (D x) = nth p names "" /\ p < nr_parties sc /\ i_do (D x) = combine (parent_names sc names p) os /\ List.length os = List.length (parent_names sc names p).
Proof.
  intros Hx. destruct (is_letter_letter x Hx) as (p & c & s & o & v & os & LX). rewrite (l_dict _ _ _ _ _ _ _ LX). exists p, os. split; [reflexivity|]. split; [apply LX|]. split; [reflexivity|].
  unfold parent_names. rewrite map_length. apply LX.
Qed.
Definition letters (w : word) : Prop := forall x, In x w -> is_letter x.
Lemma dicts_of_letters w : letters w -> dicts_of sc names w = Some (map D w).
Proof.
  intros H. unfold dicts_of, rows_of. apply map_opt_some. induction w as [|x w IH]; [constructor|]. cbn [map]. constructor.
  - destruct (is_letter_letter x (H x (or_introl eq_refl))) as (p & c & s & o & v & os & LX). apply LX.
  - apply IH. intros y Hy. apply H. right. exact Hy.
Qed.
Lemma atom_letters w : atom_word sc w -> letters w.
Proof. intros (_ & H & _) x Hx. exact (H x Hx). Qed.
Lemma rows_of_valid w : letters w -> forall r, In r (rows_of sc w) -> exists p c s o, r = mkrow (p + 1) c s o /\ valid_operator sc p c s o.
Proof.
  intros H r Hr. unfold rows_of in Hr. apply in_map_iff in Hr as (x & <- & Hx). destruct (is_letter_letter x (H x Hx)) as (p & c & s & o & v & os & LX).
  exists p, c, s, o. split; [exact (l_row' _ _ _ _ _ _ _ LX)|apply LX].
Qed.
Lemma not_zero w : letters w -> is_zero w = false.
Proof.
  intros H. unfold is_zero. rewrite negb_false_iff, forallb_forall. intros x Hx. specialize (H x Hx). unfold is_letter in H. destruct x; [lia|reflexivity].
Qed.
(** without inflation there is only one copy *)
Lemma no_inflation_one_copy w : letters w -> any_inflation sc = false -> one_copy_per_source (rows_of sc w).
Proof.
  intros H N p c s o p' c' s' o' k H1 H2 N1 N2.
  assert (Q : forall p c s o, In (mkrow p c s o) (rows_of sc w) -> nth k c 0 <> 0 -> nth k c 0 = 1).
  { clear - H N W GN. intros p c s o Hin Nz. destruct (rows_of_valid w H _ Hin) as (p1 & c1 & s1 & o1 & E & V). apply mkrow_inj in E as (_ & -> & _).
    destruct (Nat.lt_ge_cases k (nr_sources sc)) as [Hk|Hk]; [|rewrite nth_overflow in Nz; [congruence|]; destruct V as (_ & VL & _); rewrite VL; exact Hk].
    assert (B := valid_copy sc p1 c1 s1 o1 k W V Hk).
    unfold any_inflation in N. assert (L1 : nth k (levels sc) 0 <= 1).
    { destruct (Nat.le_gt_cases (nth k (levels sc) 0) 1) as [G|G]; [exact G|]. assert (existsb (fun n => 1 <? n) (levels sc) = true); [|congruence].
      apply existsb_exists. exists (nth k (levels sc) 0). split; [apply nth_In; rewrite (wf_levels sc W); exact Hk|apply Nat.ltb_lt; exact G]. }
    lia. }
  rewrite (Q _ _ _ _ H1 N1), (Q _ _ _ _ H2 N2). reflexivity.
Qed.
(** ** Names of atoms *)
(** the name of an operator inside an atom *)
Definition inner (cl inc : bool) (w : word) (x : nat) : string :=
  interpretation_to_name (if cl then clean (map D w) (D x) else D x) inc.
Definition dn (w : word) : string := ("<" ++ String.concat " " (map (fun x => op_name sc (D x)) w) ++ ">")%string.
Definition named (w : word) (n : string) : Prop :=
  atom_name sc names w = Some n \/ (sub_any (sdp_notcomm sc) w = true /\ n = dn w).
Lemma named_form w n : atom_word sc w -> named w n ->
  exists cl inc, n = brackets (is_all_commuting sc w) (map (inner cl inc w) w) /\
   (inc = true -> cl = false) /\ (inc = false -> one_copy_per_source (rows_of sc w)).
Proof.
  intros A. assert (H := atom_letters w A). assert (Z := not_zero w H). intros [E|[S E]].
  - unfold atom_name in E. destruct w as [|x0 w0] eqn:Ew; [destruct A as (A & _); contradiction|]. rewrite <- Ew in *. rewrite Z, (dicts_of_letters w H) in E. injection E as <-.
    destruct (nb_is_do_conditional (nr_sources sc) (rows_of sc w)) eqn:DC.
    + exists true, false. split; [|split; [discriminate|]].
      * f_equal. rewrite map_map. reflexivity.
      * intros _. apply (do_conditional_spec sc _ W (rows_of_valid w H)). exact DC.
    + exists false, (any_inflation sc). split; [f_equal; rewrite map_map; reflexivity|]. split; [reflexivity|]. apply no_inflation_one_copy, H.
  - subst n. exists false, (any_inflation sc). split; [|split; [reflexivity|apply no_inflation_one_copy, H]].
    unfold brackets, is_all_commuting. rewrite Z, S. cbn [negb orb]. reflexivity.
Qed.
Lemma clean_nice w x : is_letter x -> nice_dict (clean (map D w) (D x)).
Proof.
  intros Hx. destruct (D_nice x Hx) as [N1 N2 N3 N4]. constructor; cbn [clean i_party i_do i_copies i_relevant]; try assumption.
  intros kv Hk. apply filter_In in Hk as [Hk _]. apply N2, Hk.
Qed.
Lemma inner_nice (cl : bool) w x : is_letter x -> nice_dict (if cl then clean (map D w) (D x) else D x).
Proof. intros Hx. destruct cl; [apply clean_nice|apply D_nice]; exact Hx. Qed.
(** no blanks or brackets inside *)
Lemma name_inside d inc : nice_dict d -> every inside (interpretation_to_name d inc) = true.
Proof.
  intros [N1 N2 N3 N4]. rewrite name_parts, !every_app, (nice_inside _ N1), (do_suffix_inside _ N2), (nice_inside _ (dec_nice _)). rewrite andb_true_r.
  assert (J : forall c l, inside c = true -> every inside (String.concat (String c "") (map dec l)) = true).
  { intros c l Hc. apply every_concat; [exact Hc|]. intros s Hs. apply in_map_iff in Hs as (i & <- & _). apply nice_inside, dec_nice. }
  assert (P : every inside (private_text d) = true) by (unfold private_text; destruct (i_private_trivial d); [reflexivity|]; cbn [String.append every]; rewrite (nice_inside _ (dec_nice _)); reflexivity).
  rewrite P. cbn [andb]. destruct inc; [|reflexivity]. unfold copies_text. rewrite !every_app, (J "_"%char) by reflexivity.
  destruct (i_relevant d); [reflexivity|]. rewrite !every_app, (J ","%char) by reflexivity. reflexivity.
Qed.
Definition no_caret : ascii -> bool := fun c => negb (isc "^" c).
Lemma name_no_caret d : nice_dict d -> every no_caret (interpretation_to_name d false) = true.
Proof.
  intros [N1 N2 N3 N4]. rewrite name_parts, !every_app.
  assert (K : forall s, nice s -> every no_caret s = true) by (intros s; apply every_impl; intros c Hc; char_cases c Hc).
  rewrite (K _ N1), (K _ (dec_nice _)).
  assert (P : every no_caret (private_text d) = true) by (unfold private_text; destruct (i_private_trivial d); [reflexivity|]; cbn [String.append every]; rewrite (K _ (dec_nice _)); reflexivity).
  rewrite P. cbn [andb every]. unfold do_suffix. destruct (i_do d) as [|a l] eqn:Ed; [reflexivity|]. rewrite !every_app. rewrite (every_concat no_caret ","); [reflexivity|reflexivity|].
  intros s Hs. apply in_map_iff in Hs as (kv & <- & Hk). apply (every_impl (fun c => name_char c || isc "=" c)); [|apply do_text_chars, N2; first [rewrite Ed; exact Hk|exact Hk]].
  intros c Hc. apply orb_true_iff in Hc as [Hc|Hc]; [char_cases c Hc|apply Ascii.eqb_eq in Hc; subst c; reflexivity].
Qed.
Lemma name_caret d : nice_dict d -> every no_caret (interpretation_to_name d true) = false.
Proof.
  intros [N1 N2 N3 N4]. rewrite name_parts, !every_app. unfold copies_text. destruct (i_relevant d) as [|r l]; [contradiction|]. rewrite !every_app.
  cbn [every no_caret isc]. change (no_caret "^") with false. cbn [andb]. rewrite !andb_false_r. reflexivity.
Qed.
Lemma brackets_inj b b' w w' : (forall s, In s w -> every inside s = true) -> (forall s, In s w' -> every inside s = true) ->
  (w = [] <-> w' = []) -> brackets b w = brackets b' w' -> b = b' /\ w = w'.
Proof.
  intros H H' N E. assert (Q : b = b') by (destruct b, b'; [reflexivity|discriminate E|discriminate E|reflexivity]). split; [exact Q|]. subst b'.
  assert (K : String.concat " " w = String.concat " " w').
  { unfold brackets in E. destruct b; apply sapp_cancel in E; apply sapp_cancel_r in E; exact E. }
  apply (concat_inj " "); [| |exact N|exact K].
  - intros s Hs. apply (every_impl inside); [|exact (H s Hs)]. intros c Hc. char_cases c Hc.
  - intros s Hs. apply (every_impl inside); [|exact (H' s Hs)]. intros c Hc. char_cases c Hc.
Qed.
Lemma first_letters w : first_word sc w -> letters w.
Proof. intros (_ & H & _). exact H. Qed.
Lemma first_copies_eq w1 w2 x y : first_word sc w1 -> first_word sc w2 -> one_copy_per_source (rows_of sc w1) -> one_copy_per_source (rows_of sc w2) ->
  In x w1 -> In y w2 -> i_party (D x) = i_party (D y) -> i_copies (D x) = i_copies (D y).
Proof.
  intros A1 A2 O1 O2 Hx Hy. destruct (is_letter_letter x (first_letters w1 A1 x Hx)) as (p & c & s & o & v & os & LX). destruct (is_letter_letter y (first_letters w2 A2 y Hy)) as (p' & c' & s' & o' & v' & os' & LY).
  rewrite (l_dict _ _ _ _ _ _ _ LX), (l_dict _ _ _ _ _ _ _ LY). cbn [i_party i_copies dict_of]. intros E.
  apply (name_inj_party sc names GN) in E; [|apply LX|apply LY]. subst p'.
  apply (copies_by_party sc p c s o s' o' c' (l_valid _ _ _ _ _ _ _ LX) (l_valid _ _ _ _ _ _ _ LY)).
  - exact (first_copies sc W w1 A1 O1 x p c s o Hx (l_row' _ _ _ _ _ _ _ LX) (l_valid _ _ _ _ _ _ _ LX)).
  - exact (first_copies sc W w2 A2 O2 y p c' s' o' Hy (l_row' _ _ _ _ _ _ _ LY) (l_valid _ _ _ _ _ _ _ LY)).
Qed.
(** two texts of this form, for words that no relabelling makes smaller *)
Lemma forms_inj b1 b2 cl1 inc1 cl2 inc2 w1 w2 : first_word sc w1 -> first_word sc w2 ->
  (inc1 = true -> cl1 = false) -> (inc1 = false -> one_copy_per_source (rows_of sc w1)) ->
  (inc2 = true -> cl2 = false) -> (inc2 = false -> one_copy_per_source (rows_of sc w2)) ->
  brackets b1 (map (inner cl1 inc1 w1) w1) = brackets b2 (map (inner cl2 inc2 w2) w2) -> w1 = w2.
Proof.
  intros A1 A2 C1 O1 C2 O2 E2. assert (H1 := first_letters w1 A1). assert (H2 := first_letters w2 A2).
  assert (NE1 : w1 <> []) by apply A1. assert (NE2 : w2 <> []) by apply A2.
  apply brackets_inj in E2 as [_ E].
  2:{ intros s Hs. apply in_map_iff in Hs as (x & <- & Hx). apply name_inside, inner_nice, H1, Hx. }
  2:{ intros s Hs. apply in_map_iff in Hs as (x & <- & Hx). apply name_inside, inner_nice, H2, Hx. }
  2:{ split; intros Q; apply map_eq_nil in Q; contradiction. }
  apply Forall2_map_eq in E.
  assert (inc1 = inc2).
  { destruct w1 as [|x w1']; [contradiction|]. inversion E as [|? y ? w2' Q _]; subst w2. unfold inner in Q. 
    assert (M1 := inner_nice cl1 (x :: w1') x (H1 x (or_introl eq_refl))). assert (M2 := inner_nice cl2 (y :: w2') y (H2 y (or_introl eq_refl))).
    destruct inc1, inc2; try reflexivity; exfalso; apply (f_equal (every no_caret)) in Q; rewrite name_caret, name_no_caret in Q by assumption; discriminate Q. }
  subst inc2.
  assert (F : Forall2 (fun x y => i_party (D x) = i_party (D y) /\ (i_private_trivial (D x) = false -> i_private (D x) = i_private (D y)) /\ i_outcome (D x) = i_outcome (D y) /\
     (inc1 = true -> i_copies (D x) = i_copies (D y)) /\
     i_do (if cl1 then clean (map D w1) (D x) else D x) = i_do (if cl2 then clean (map D w2) (D y) else D y)) w1 w2).
  { apply (Forall2_impl_in _ _ _ _ (fun x y Hx Hy Q => Q)) in E. revert E. apply Forall2_impl_in. intros x y Hx Hy Q. unfold inner in Q.
    apply name_inj in Q; [|apply inner_nice, H1, Hx|apply inner_nice, H2, Hy|].
    - destruct Q as (Q1 & Q2 & Q3 & Q4 & Q5). destruct cl1, cl2; cbn [clean i_party i_private_trivial i_private i_outcome i_copies i_do] in *; auto 6.
    - intros P. destruct cl1, cl2; cbn [clean i_party i_private_trivial] in *; apply D_trivial; auto. }
  assert (U : forall k v, unambiguous (map D w1) k v = unambiguous (map D w2) k v).
  { intros k v. apply unambiguous_ext. clear - F. induction F as [|x y l m Q _ IH]; [constructor|]. cbn [map]. constructor; [split; apply Q|exact IH]. }
  apply Forall2_eq. revert F. apply Forall2_impl_in. intros x y Hx Hy (Q1 & Q2 & Q3 & Q4 & Q5).
  apply letter_by_dict; [apply H1, Hx|apply H2, Hy|exact Q1|exact Q2|exact Q3| |].
  - destruct (D_do x (H1 x Hx)) as (p & os & P1 & P2 & P3 & P4). destruct (D_do y (H2 y Hy)) as (p' & os' & P1' & P2' & P3' & P4').
    rewrite P1, P1' in Q1. apply (name_inj_party sc names GN) in Q1; [|exact P2|exact P2']. subst p'.
    assert (LL : List.length (combine (parent_names sc names p) os) = List.length (combine (parent_names sc names p) os')) by (rewrite !combine_length, P4, P4'; reflexivity).
    destruct cl1, cl2; cbn [clean i_do] in Q5; rewrite P3, P3' in *.
    + f_equal. apply (filter_inj (fun kv => negb (unambiguous (map D w1) (fst kv) (snd kv))) (parent_names sc names p)); [|apply (parent_names_NoDup sc names W GN)|exact P4|exact P4'|].
      * cbn [fst snd]. intros k v v' G G'. apply negb_false_iff in G, G'. exact (unambiguous_one _ _ _ _ G G').
      * rewrite Q5. apply filter_ext. intros [k v]. cbn [fst snd]. rewrite U. reflexivity.
    + rewrite <- Q5. symmetry. apply filter_all. rewrite Q5. symmetry. exact LL.
    + rewrite Q5. apply filter_all. rewrite <- Q5. exact LL.
    + exact Q5.
  - destruct inc1; [apply Q4; reflexivity|]. apply (first_copies_eq w1 w2 x y); auto.
Qed.
Lemma named_inj w1 w2 n : atom_word sc w1 -> atom_word sc w2 -> named w1 n -> named w2 n -> w1 = w2.
Proof.
  intros A1 A2 N1 N2. destruct (named_form w1 n A1 N1) as (cl1 & inc1 & E1 & C1 & O1). destruct (named_form w2 n A2 N2) as (cl2 & inc2 & E2 & C2 & O2). rewrite E1 in E2.
  apply (forms_inj _ _ _ _ _ _ w1 w2 (atom_first sc w1 A1) (atom_first sc w2 A2) C1 O1 C2 O2 E2).
Qed.
End Atoms.
