(** Names of moments of linear programmes: the dictionary of moments. *)
From Coq Require Import List Arith Bool Ascii String Lia Permutation Sorted.
From Verif Require Import CanonModel CanonSpec CanonProofs ScenarioModel ScenarioSpec ScenarioProofs SymModel SymProofs ColumnModel ColsModel ColsProofs3 ColsProofs4 MemoModel MemoSpec ProgramModel ProgramProofs NameModel NameSpec NameProofs NameProofs2 NameProofs3 NameProofs4 NameProofs5 NameProofs6 NameProofs7 NameLPModel NameLPSpec NameLPProofs.
Import ListNotations.
Open Scope string_scope. Open Scope nat_scope. Open Scope list_scope.

Section Book.
Variables (sc : scenario) (names : list string).
Hypotheses (W : wf_scenario sc) (GN : good_names sc names).
Notation good_lp := (good_lp sc names).

Definition good_m (m : moment) : Prop := exists atoms, Forall good_lp atoms /\ m = lp_new_moment atoms.
Lemma good_m_factors m : good_m m -> Forall good_lp (m_factors m) /\ m_name m = name_from_atom_names (map a_name (m_factors m)) /\ m_legacy m = name_from_atom_names (map a_legacy (m_factors m)).
Proof.
  intros (l & F & ->). cbn [lp_new_moment m_factors m_name m_legacy]. split; [|split; reflexivity]. rewrite Forall_forall in *. intros a Ha. apply F.
  exact (Permutation_in _ (Permutation_sym (py_sorted_perm atom_lt l)) Ha).
Qed.
Lemma atoms_words l1 : forall l2, Forall good_lp l1 -> Forall good_lp l2 -> map a_word l1 = map a_word l2 -> l1 = l2.
Proof.
  induction l1 as [|a l1 IH]; intros [|b l2] F1 F2 E; try discriminate E; [reflexivity|]. inversion F1; subst. inversion F2; subst. injection E as E1 E2.
  f_equal; [apply (good_lp_same sc names); assumption|apply IH; assumption].
Qed.
Lemma good_m_eq m1 m2 : good_m m1 -> good_m m2 -> m_key m1 = m_key m2 -> m1 = m2.
Proof.
  intros G1 G2 E. destruct (good_m_factors m1 G1) as (F1 & N1 & L1), (good_m_factors m2 G2) as (F2 & N2 & L2).
  assert (Q : m_factors m1 = m_factors m2) by (apply atoms_words; assumption). destruct m1 as [x1 y1 z1], m2 as [x2 y2 z2]. cbn [m_factors m_name m_legacy] in *. subst. reflexivity.
Qed.
Lemma good_m_perm m1 m2 : good_m m1 -> good_m m2 -> Permutation (m_key m1) (m_key m2) -> m1 = m2.
Proof.
  intros G1 G2 P. apply good_m_eq; [exact G1|exact G2|]. apply SS_perm_eq; [| |exact P].
  - destruct G1 as (l & _ & ->). unfold m_key. cbn [lp_new_moment m_factors]. rewrite sort_atoms. apply py_sorted_sorted.
  - destruct G2 as (l & _ & ->). unfold m_key. cbn [lp_new_moment m_factors]. rewrite sort_atoms. apply py_sorted_sorted.
Qed.
Lemma name_name m1 m2 : good_m m1 -> good_m m2 -> m_name m1 = m_name m2 -> m1 = m2.
Proof.
  intros G1 G2 E. apply good_m_perm; [exact G1|exact G2|]. destruct (good_m_factors m1 G1) as (F1 & N1 & _), (good_m_factors m2 G2) as (F2 & N2 & _). rewrite N1, N2 in E.
  unfold m_key. rewrite Forall_forall in F1, F2. apply (product_inj f_name) in E; [|exact class_name| |].
  - revert E. apply perm_words. intros a b Ha Hb E. destruct (good_lp_forms sc names W GN a (F1 a Ha)) as [N _], (good_lp_forms sc names W GN b (F2 b Hb)) as [N' _]. rewrite <- E in N'.
    exact (lp_name_inj sc names W GN _ _ _ (proj1 (F1 a Ha)) (proj1 (F2 b Hb)) N N').
  - intros s Hs. apply in_map_iff in Hs as (a & <- & Ha). apply (lp_name_closed sc names W GN), F1, Ha.
  - intros s Hs. apply in_map_iff in Hs as (a & <- & Ha). apply (lp_name_closed sc names W GN), F2, Ha.
Qed.
Lemma legacy_legacy m1 m2 : prefix_free names -> good_m m1 -> good_m m2 -> m_legacy m1 = m_legacy m2 -> m1 = m2.
Proof.
  intros PF G1 G2 E. apply good_m_perm; [exact G1|exact G2|]. destruct (good_m_factors m1 G1) as (F1 & _ & N1), (good_m_factors m2 G2) as (F2 & _ & N2). rewrite N1, N2 in E.
  unfold m_key. rewrite Forall_forall in F1, F2. apply (product_inj f_legacy) in E; [|exact class_legacy| |].
  - revert E. apply perm_words. intros a b Ha Hb E. destruct (good_lp_forms sc names W GN a (F1 a Ha)) as [_ N], (good_lp_forms sc names W GN b (F2 b Hb)) as [_ N']. rewrite <- E in N'.
    exact (lp_legacy_inj sc names W GN _ _ _ PF (proj1 (F1 a Ha)) (proj1 (F2 b Hb)) N N').
  - intros s Hs. apply in_map_iff in Hs as (a & <- & Ha). apply (lp_legacy_closed sc names W GN), F1, Ha.
  - intros s Hs. apply in_map_iff in Hs as (a & <- & Ha). apply (lp_legacy_closed sc names W GN), F2, Ha.
Qed.
Lemma good_one : good_m one_moment.
Proof. exists []. split; [constructor|reflexivity]. Qed.
Lemma no_factors m : good_m m -> m_factors m = [] -> m = one_moment.
Proof. intros G E. apply good_m_eq; [exact G|exact good_one|]. unfold m_key. rewrite E. reflexivity. Qed.
Lemma name_eq_in m : good_m m -> m_factors m <> [] -> every no_eq (m_name m) = false.
Proof.
  intros G N. destruct (good_m_factors m G) as (F & -> & _). rewrite Forall_forall in F. apply product_has; [intros Q; apply map_eq_nil in Q; contradiction|].
  intros s Hs. apply in_map_iff in Hs as (a & <- & Ha). apply (lp_name_closed sc names W GN), F, Ha.
Qed.
Lemma legacy_eq_out m : good_m m -> every no_eq (m_legacy m) = true.
Proof.
  intros G. destruct (good_m_factors m G) as (F & _ & ->). rewrite Forall_forall in F. apply product_chars; [reflexivity|reflexivity|intros c Hc; char_cases c Hc|].
  intros s Hs. apply in_map_iff in Hs as (a & <- & Ha). apply (lp_legacy_closed sc names W GN), F, Ha.
Qed.
Lemma legacy_end m : good_m m -> m_factors m <> [] -> every (fun c => negb (f_legacy c)) (m_legacy m) = false.
Proof.
  intros G N. destruct (good_m_factors m G) as (F & _ & ->). rewrite Forall_forall in F. apply product_has; [intros Q; apply map_eq_nil in Q; contradiction|].
  intros s Hs. apply in_map_iff in Hs as (a & <- & Ha). destruct (lp_legacy_closed sc names W GN a (F a Ha)) as [(b & c & -> & _ & Fc & _) _].
  rewrite every_app. cbn [every]. rewrite Fc. cbn [negb andb]. apply andb_false_r.
Qed.
Lemma name_legacy m1 m2 : good_m m1 -> good_m m2 -> m_name m1 = m_legacy m2 -> m1 = one_moment /\ m2 = one_moment.
Proof.
  intros G1 G2 E. destruct (m_factors m1) as [|a l] eqn:F1.
  - assert (E1 := no_factors m1 G1 F1). split; [exact E1|]. subst m1. destruct (m_factors m2) as [|b l2] eqn:F2; [exact (no_factors m2 G2 F2)|].
    assert (Q := legacy_end m2 G2). rewrite F2, <- E in Q. specialize (Q ltac:(discriminate)). discriminate Q.
  - exfalso. assert (Q := name_eq_in m1 G1). rewrite F1, E, (legacy_eq_out m2 G2) in Q. specialize (Q ltac:(discriminate)). discriminate Q.
Qed.
Lemma not_constant m : good_m m -> m_name m <> "constant_term" /\ m_legacy m <> "constant_term".
Proof.
  intros G. destruct (m_factors m) as [|a l] eqn:F; [rewrite (no_factors m G F); split; discriminate|]. split; intros E.
  - assert (Q := name_eq_in m G). rewrite F, E in Q. specialize (Q ltac:(discriminate)). discriminate Q.
  - assert (Q := legacy_end m G). rewrite F, E in Q. specialize (Q ltac:(discriminate)). discriminate Q.
Qed.

(** ** The dictionaries *)
Record lp_inv (b : book) : Prop := {
  li_good : forall k m, In (k, m) (by_atoms b) -> k = m_key m /\ good_m m;
  li_all : forall k m, In (k, m) (by_atoms b) -> In (m_name m, m) (by_name b) /\ In (m_legacy m, m) (by_name b);
  li_names : forall s m, In (s, m) (by_name b) -> (s = "constant_term" /\ m = constant_term) \/ (good_m m /\ (s = m_name m \/ s = m_legacy m)) }.
Lemma start_inv : lp_inv start_book.
Proof.
  constructor; cbn [start_book by_atoms by_name]; [intros k m []|intros k m []|].
  intros s m [H|[H|[H|[]]]]; injection H as <- <-; [left; auto|right; split; [exact good_one|right; reflexivity]|right; split; [exact good_one|left; reflexivity]].
Qed.
Lemma found_by_name b m : lp_inv b -> good_m m -> In (m_name m, m) (by_name b) -> find_name (m_name m) (by_name b) = Some m.
Proof.
  intros I G H. apply find_name_first; [exact H|]. intros m' H'. destruct (li_names b I _ _ H') as [[E _]|(G' & [E|E])].
  - exfalso. exact (proj1 (not_constant m G) E).
  - symmetry. apply name_name; assumption.
  - destruct (name_legacy m m' G G' E) as [-> ->]. reflexivity.
Qed.
Lemma found_by_legacy b m : prefix_free names -> lp_inv b -> good_m m -> In (m_legacy m, m) (by_name b) -> find_name (m_legacy m) (by_name b) = Some m.
Proof.
  intros PF I G H. apply find_name_first; [exact H|]. intros m' H'. destruct (li_names b I _ _ H') as [[E _]|(G' & [E|E])].
  - exfalso. exact (proj2 (not_constant m G) E).
  - symmetry in E. destruct (name_legacy m' m G' G E) as [-> ->]. reflexivity.
  - symmetry. apply legacy_legacy; assumption.
Qed.
Notation usable := (lp_usable sc).
Lemma lp_atoms_made ws : (forall w, In w ws -> lp_atom_word sc w) -> exists l, map_opt (lp_new_atom sc names) ws = Some l /\ map a_word l = ws /\ Forall good_lp l.
Proof.
  induction ws as [|w ws IH]; intros H; [exists []; split; [reflexivity|split; [reflexivity|constructor]]|].
  destruct IH as (l & E & Ew & F); [intros v Hv; apply H; right; exact Hv|]. assert (A := H w (or_introl eq_refl)).
  destruct (lp_atom_total sc names W GN w A) as (a & Ea & Eaw & _). exists (a :: l). cbn [map_opt map]. rewrite Ea, E, Eaw, Ew. split; [reflexivity|]. split; [reflexivity|].
  constructor; [|exact F]. split; rewrite Eaw; assumption.
Qed.
Lemma lp_monomial_good ws b : lp_inv b -> (forall w, In w ws -> usable w) ->
  exists m b', lp_monomial sc names ws b = Some (m, b') /\ lp_inv b' /\ good_m m /\ Permutation (m_key m) (proper ws) /\
    In (m_name m, m) (by_name b') /\ In (m_legacy m, m) (by_name b') /\ (forall s m', In (s, m') (by_name b) -> In (s, m') (by_name b')).
Proof.
  intros I H. unfold lp_monomial. fold (proper ws). destruct (lp_atoms_made (proper ws)) as (atoms & -> & Ew & F).
  { intros w Hw. unfold proper in Hw. apply filter_In in Hw as [Hw N]. destruct (H w Hw) as [->|A]; [discriminate N|exact A]. }
  unfold lp_monomial_from_atoms. set (key := map a_word (py_sorted atom_lt atoms)).
  assert (G : good_m (lp_new_moment atoms)) by (exists atoms; auto). assert (K : m_key (lp_new_moment atoms) = key) by reflexivity.
  assert (P : Permutation key (proper ws)). { rewrite <- Ew. unfold key. apply Permutation_map, Permutation_sym, py_sorted_perm. }
  destruct (find_key key (by_atoms b)) as [m|] eqn:E.
  - apply find_key_some in E. destruct (li_good b I _ _ E) as [Ek Gm]. assert (m = lp_new_moment atoms) by (apply good_m_eq; [exact Gm|exact G|congruence]). subst m.
    destruct (li_all b I _ _ E) as [A1 A2]. exists (lp_new_moment atoms), b. split; [reflexivity|]. repeat (split; [assumption|]). auto.
  - exists (lp_new_moment atoms). eexists. split; [reflexivity|]. cbn [by_name]. split; [|split; [exact G|]; split; [exact P|]; split; [right; left; reflexivity|]; split; [left; reflexivity|intros s m' Hm; right; right; exact Hm]].
    constructor; cbn [by_atoms by_name].
    + intros k m [Q|Q]; [injection Q as <- <-; auto|exact (li_good b I k m Q)].
    + intros k m [Q|Q]; [injection Q as <- <-; split; [right; left; reflexivity|left; reflexivity]|]. destruct (li_all b I k m Q). split; right; right; assumption.
    + intros s m [Q|[Q|Q]]; [injection Q as <- <-; right; split; [exact G|right; reflexivity]|injection Q as <- <-; right; split; [exact G|left; reflexivity]|exact (li_names b I s m Q)].
Qed.
Lemma lp_history_good h : forall b, lp_inv b -> (forall ws w, In ws h -> In w ws -> usable w) ->
  exists ms b', lp_history sc names h b = Some (ms, b') /\ lp_inv b' /\
    Forall2 (fun ws m => good_m m /\ Permutation (m_key m) (proper ws) /\ In (m_name m, m) (by_name b') /\ In (m_legacy m, m) (by_name b')) h ms /\
    (forall s m', In (s, m') (by_name b) -> In (s, m') (by_name b')).
Proof.
  induction h as [|ws h IH]; intros b I H; [exists [], b; split; [reflexivity|]; split; [exact I|]; split; [constructor|auto]|].
  destruct (lp_monomial_good ws b I) as (m & b1 & E1 & I1 & G & P & A1 & A2 & M1); [intros w; apply H; left; reflexivity|].
  destruct (IH b1 I1) as (ms & b2 & E2 & I2 & F & M2); [intros ws' w Hw; apply H; right; exact Hw|].
  cbn [lp_history]. rewrite E1, E2. exists (m :: ms), b2. split; [reflexivity|]. split; [exact I2|]. split; [|auto].
  constructor; [|exact F]. split; [exact G|]. split; [exact P|]. split; apply M2; assumption.
Qed.
End Book.
