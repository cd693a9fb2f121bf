(** Property theorems C51 (names in linear programmes).  Statements use NameLPModel and LPMomentModel
    (the code), NameSpec and NameLPSpec. *)
From Coq Require Import List Arith Bool Ascii String Permutation Sorted Lia.
From Verif Require Import CanonModel ScenarioModel ScenarioSpec SymModel LPModel ProgramModel ProgramLP LPMomentModel NameModel NameSpec NameLPModel NameLPSpec FactCondModel PropSound PropName.
From Verif Require NameLPProofs NameLPProofs2 NameLPProofs3 LPMomentProofs2 SoundProofs FactCondProofs FactCondProofs2 PropFactCond ProgramProofs ProgramProofs2 LPProofs9 LPProofs8.
Import ListNotations.
Open Scope string_scope. Open Scope nat_scope. Open Scope list_scope.

(** ** Atoms *)
(** The atoms of a generated programme, and the representatives that are made later for other factors,
    are atoms of the specification. *)
Theorem C51_atoms_of_programmes : forall sc all_outcomes supports r, ready sc -> generate sc all_outcomes supports = Some r ->
  forall w, In w (r_atoms r) -> lp_atom_word sc w.
Proof.
  intros sc ao sup r [W AC Hout Hset Np FC] G w Hw. destruct (SoundProofs.generate_is sc W Hout FC ao sup r G) as (prog & EP & _ & _ & E & _). rewrite E in Hw.
  exact (NameLPProofs3.programme_atoms sc W Hout FC prog ao w EP Hw).
Qed.
Print Assumptions C51_atoms_of_programmes.
Theorem C51_representatives_are_atoms : forall sc, wf_scenario sc -> (forall o, In o (outcomes sc) -> 1 <= o) ->
  forall f, f <> [] -> StronglySorted lt f -> (forall i, In i f -> i < List.length (lexorder sc)) ->
  lp_atom_word sc (fst (atomic_monomial (List.length (lexorder sc)) (discover_lexorder_symmetries sc) f [])).
Proof.
  intros sc W Hout f NE Sf R. destruct (LPMomentProofs2.rep_step sc W Hout f []) as [-> _]; [intros k m []|exact Sf|exact R|].
  apply (NameLPProofs3.rep_is_atom sc W Hout); assumption.
Qed.
Print Assumptions C51_representatives_are_atoms.
(** Every atom has a name and a legacy name, and each of them determines it (for the legacy names no
    name of a party may be the beginning of another one). *)
Theorem C51_atom_names : forall sc names, wf_scenario sc -> good_names sc names ->
  (forall w, lp_atom_word sc w -> exists a, lp_new_atom sc names w = Some a /\ a_word a = w) /\
  (forall w1 w2 a1 a2, lp_atom_word sc w1 -> lp_atom_word sc w2 -> lp_new_atom sc names w1 = Some a1 -> lp_new_atom sc names w2 = Some a2 ->
     (a_name a1 = a_name a2 -> w1 = w2) /\ (prefix_free names -> a_legacy a1 = a_legacy a2 -> w1 = w2) /\ a_name a1 <> a_legacy a2).
Proof.
  intros sc names W GN. split.
  - intros w A. destruct (NameLPProofs.lp_atom_total sc names W GN w A) as (a & E & F & _). eauto.
  - intros w1 w2 a1 a2 A1 A2 E1 E2. destruct (NameLPProofs.lp_atom_total sc names W GN w1 A1) as (b1 & E1' & W1 & N1 & L1). destruct (NameLPProofs.lp_atom_total sc names W GN w2 A2) as (b2 & E2' & W2 & N2 & L2).
    assert (b1 = a1) by congruence. assert (b2 = a2) by congruence. subst b1 b2. split; [|split].
    + intros E. rewrite <- E in N2. exact (NameLPProofs.lp_name_inj sc names W GN _ _ _ A1 A2 N1 N2).
    + intros PF E. rewrite <- E in L2. exact (NameLPProofs.lp_legacy_inj sc names W GN _ _ _ PF A1 A2 L1 L2).
    + intros E. assert (G1 : NameLPProofs.good_lp sc names a1) by (split; rewrite W1; assumption). assert (G2 : NameLPProofs.good_lp sc names a2) by (split; rewrite W2; assumption).
      assert (Q1 := proj2 (NameLPProofs.lp_name_closed sc names W GN a1 G1)). assert (Q2 := proj2 (NameLPProofs.lp_legacy_closed sc names W GN a2 G2)). rewrite E in Q1. congruence.
Qed.
Print Assumptions C51_atom_names.

(** ** Moments *)
(** Whatever moments are made, in whatever order and however often: each of them is the product of the
    given factors; it is found again under its name, and under its legacy name, whatever is made
    afterwards; two moments have the same name, or the same legacy name, only if they are the same
    product; and the name of a moment does not depend on what was made before. *)
Theorem C51_moments : forall sc names, wf_scenario sc -> good_names sc names ->
  forall h, (forall ws w, In ws h -> In w ws -> lp_usable sc w) ->
  exists ms b, lp_history sc names h start_book = Some (ms, b) /\ List.length ms = List.length h /\
  forall i ws m, nth_error h i = Some ws -> nth_error ms i = Some m ->
    Permutation (m_key m) (proper ws) /\
    (exists b', lp_monomial sc names ws start_book = Some (m, b')) /\
    find_name (m_name m) (by_name b) = Some m /\ (prefix_free names -> find_name (m_legacy m) (by_name b) = Some m) /\
    forall j ws' m', nth_error h j = Some ws' -> nth_error ms j = Some m' ->
      (m_name m = m_name m' <-> Permutation (proper ws) (proper ws')) /\
      (prefix_free names -> (m_legacy m = m_legacy m' <-> Permutation (proper ws) (proper ws'))) /\
      (m_name m = m_legacy m' <-> proper ws = [] /\ proper ws' = []).
Proof.
  intros sc names W GN h H. destruct (NameLPProofs2.lp_history_good sc names W GN h start_book (NameLPProofs2.start_inv sc names) H) as (ms & b & E & I & F & _).
  exists ms, b. split; [exact E|]. split; [symmetry; clear - F; induction F; cbn [List.length]; congruence|].
  assert (K : forall i ws m, nth_error h i = Some ws -> nth_error ms i = Some m -> (forall w, In w ws -> lp_usable sc w) /\
    NameLPProofs2.good_m sc names m /\ Permutation (m_key m) (proper ws) /\ In (m_name m, m) (by_name b) /\ In (m_legacy m, m) (by_name b)).
  { intros i ws m A B. split; [intros w; apply H; exact (nth_error_In _ _ A)|]. revert i A B. clear - F. induction F as [|ws0 m0 h ms0 Q F IH]; intros [|i] A B; cbn in A, B; try discriminate.
    - injection A as <-. injection B as <-. exact Q.
    - exact (IH i A B). }
  intros i ws m A B. destruct (K i ws m A B) as (U & G & P & In1 & In2). split; [exact P|]. split; [|split; [|split]].
  - destruct (NameLPProofs2.lp_monomial_good sc names W GN ws start_book (NameLPProofs2.start_inv sc names) U) as (m1 & b1 & E1 & _ & G1 & P1 & _). exists b1. rewrite E1.
    replace m1 with m; [reflexivity|]. apply (NameLPProofs2.good_m_perm sc names); [exact G|exact G1|]. eapply Permutation_trans; [exact P|apply Permutation_sym, P1].
  - exact (NameLPProofs2.found_by_name sc names W GN b m I G In1).
  - intros PF. exact (NameLPProofs2.found_by_legacy sc names W GN b m PF I G In2).
  - intros j ws' m' A' B'. destruct (K j ws' m' A' B') as (_ & G' & P' & _).
    assert (S1 : Permutation (proper ws) (proper ws') -> m = m').
    { intros Q. apply (NameLPProofs2.good_m_perm sc names); [exact G|exact G'|]. eapply Permutation_trans; [exact P|]. eapply Permutation_trans; [exact Q|apply Permutation_sym, P']. }
    assert (S2 : m = m' -> Permutation (proper ws) (proper ws')).
    { intros Q. rewrite <- Q in P'. eapply Permutation_trans; [apply Permutation_sym, P|exact P']. }
    assert (Z : forall m ws, NameLPProofs2.good_m sc names m -> Permutation (m_key m) (proper ws) -> (m = one_moment <-> proper ws = [])).
    { clear. intros m ws G P. split.
      - intros ->. unfold m_key in P. cbn in P. apply Permutation_nil in P. exact P.
      - intros Q. rewrite Q in P. apply Permutation_sym, Permutation_nil in P. unfold m_key in P. apply map_eq_nil in P. exact (NameLPProofs2.no_factors sc names m G P). }
    split; [|split].
    + split; [intros Q; apply S2; exact (NameLPProofs2.name_name sc names W GN m m' G G' Q)|intros Q; rewrite (S1 Q); reflexivity].
    + intros PF. split; [intros Q; apply S2; exact (NameLPProofs2.legacy_legacy sc names W GN m m' PF G G' Q)|intros Q; rewrite (S1 Q); reflexivity].
    + split.
      * intros Q. destruct (NameLPProofs2.name_legacy sc names W GN m m' G G' Q) as [Q1 Q2]. split; [apply (Z m ws G P), Q1|apply (Z m' ws' G' P'), Q2].
      * intros [Q1 Q2]. apply (Z m ws G P) in Q1. apply (Z m' ws' G' P') in Q2. subst m m'. reflexivity.
Qed.
Print Assumptions C51_moments.

(** ** The columns of a generated programme *)
(** the factors of a column, a list of numbers of atoms *)
Definition column_words (r : relaxation) (c : list nat) : list word := map (fun a => nth a (r_atoms r) []) c.
Lemma column_facts sc ao sup r c : ready sc -> generate sc ao sup = Some r -> In c (columns (r_programme r)) ->
  StronglySorted le c /\ (forall a, In a c -> a < List.length (r_atoms r)).
Proof.
  intros [W AC Hout Hset Np FC] G H. destruct (SoundProofs.generate_is sc W Hout FC ao sup r G) as (prog & EP & _ & _ & E & C & _). rewrite C in H. rewrite E.
  apply in_map_iff in H as (l & <- & Hl). unfold moment_of. split; [apply FactCondProofs2.sort_sorted|].
  intros a Ha. apply (Permutation_in _ (ProgramProofs2.sort_atoms_perm _)) in Ha. apply in_map_iff in Ha as (w & <- & Hw). apply (SoundProofs.number_ok sc prog).
  apply (SoundProofs.atoms_in sc prog). eauto.
Qed.
Lemma atoms_different sc ao sup r : ready sc -> generate sc ao sup = Some r -> NoDup (r_atoms r).
Proof.
  intros [W AC Hout Hset Np FC] G. destruct (SoundProofs.generate_is sc W Hout FC ao sup r G) as (prog & EP & _ & _ & E & _). rewrite E. apply SoundProofs.atoms_nodup.
Qed.
Lemma sorted_perm l1 : forall l2, StronglySorted le l1 -> StronglySorted le l2 -> Permutation l1 l2 -> l1 = l2.
Proof.
  induction l1 as [|x l1 IH]; intros l2 S1 S2 P; [apply Permutation_nil in P; congruence|].
  destruct l2 as [|y l2]; [apply Permutation_sym, Permutation_nil in P; discriminate P|].
  inversion S1 as [|? ? S1' F1]; subst. inversion S2 as [|? ? S2' F2]; subst. rewrite Forall_forall in F1, F2.
  assert (x = y) as <-.
  { assert (Hx : In x (y :: l2)) by (apply (Permutation_in _ P); left; reflexivity). assert (Hy : In y (x :: l1)) by (apply (Permutation_in _ (Permutation_sym P)); left; reflexivity).
    destruct Hx as [Hx|Hx]; [auto|]. destruct Hy as [Hy|Hy]; [auto|]. specialize (F1 y Hy). specialize (F2 x Hx). lia. }
  f_equal. apply IH; [exact S1'|exact S2'|]. apply (Permutation_cons_inv P).
Qed.
Lemma map_perm_inv {A B} (f : A -> B) l1 l2 : (forall a b, In a l1 -> In b l2 -> f a = f b -> a = b) -> Permutation (map f l1) (map f l2) -> Permutation l1 l2.
Proof.
  intros H P. apply Permutation_map_inv in P as (l3 & E & P). eapply Permutation_trans; [|apply Permutation_sym, P].
  assert (Q : l1 = l3); [|rewrite Q; apply Permutation_refl].
  assert (H3 : forall a b, In a l1 -> In b l3 -> f a = f b -> a = b) by (intros a b Ha Hb; apply H; [exact Ha|exact (Permutation_in _ (Permutation_sym P) Hb)]).
  clear - E H3. revert l3 E H3. induction l1 as [|a l1 IH]; intros [|b l3] E H3; try discriminate E; [reflexivity|]. injection E as E1 E2. f_equal.
  - apply H3; [left; reflexivity|left; reflexivity|congruence].
  - apply IH; [exact E2|]. intros x y Hx Hy. apply H3; right; assumption.
Qed.
Lemma column_words_inj sc ao sup r c c' : ready sc -> generate sc ao sup = Some r -> In c (columns (r_programme r)) -> In c' (columns (r_programme r)) ->
  Permutation (proper (column_words r c)) (proper (column_words r c')) -> c = c'.
Proof.
  intros RD G H H' P. destruct (column_facts sc ao sup r c RD G H) as [S1 R1]. destruct (column_facts sc ao sup r c' RD G H') as [S2 R2].
  assert (PR : forall c, (forall a, In a c -> a < List.length (r_atoms r)) -> proper (column_words r c) = column_words r c).
  { intros d R. unfold proper, column_words. induction d as [|a d IH]; [reflexivity|]. cbn [map filter]. assert (A := C51_atoms_of_programmes sc ao sup r RD G (nth a (r_atoms r) []) (nth_In _ _ (R a (or_introl eq_refl)))).
    destruct (nth a (r_atoms r) []) as [|x w] eqn:Q; [destruct A; contradiction|]. rewrite <- Q. cbn [map]. f_equal. apply IH. intros b Hb. apply R. right. exact Hb. }
  rewrite (PR c R1), (PR c' R2) in P. apply sorted_perm; [exact S1|exact S2|]. revert P. apply map_perm_inv. intros a b Ha Hb E.
  apply (proj1 (NoDup_nth (r_atoms r) []) (atoms_different sc ao sup r RD G)); [apply R1, Ha|apply R2, Hb|exact E].
Qed.
Lemma column_usable sc ao sup r c w : ready sc -> generate sc ao sup = Some r -> In c (columns (r_programme r)) -> In w (column_words r c) -> lp_usable sc w.
Proof.
  intros RD G H Hw. destruct (column_facts sc ao sup r c RD G H) as [_ R]. apply in_map_iff in Hw as (a & <- & Ha). right. apply (C51_atoms_of_programmes sc ao sup r RD G). apply nth_In, R, Ha.
Qed.
(** After the columns are made, and whatever moments [more] are made after them, every column is found
    under its name and its legacy name, and no two columns share a name or a legacy name. *)
Theorem C51_columns : forall sc names all_outcomes supports r more, ready sc -> good_names sc names -> generate sc all_outcomes supports = Some r ->
  (forall ws w, In ws more -> In w ws -> lp_usable sc w) -> let cols := columns (r_programme r) in
  exists ms b, lp_history sc names (map (column_words r) cols ++ more) start_book = Some (ms, b) /\
  forall i c, nth_error cols i = Some c -> exists m, nth_error ms i = Some m /\
    Permutation (m_key m) (proper (column_words r c)) /\
    find_name (m_name m) (by_name b) = Some m /\ (prefix_free names -> find_name (m_legacy m) (by_name b) = Some m) /\
    forall j c' m', nth_error cols j = Some c' -> nth_error ms j = Some m' ->
      (m_name m = m_name m' -> i = j) /\ (prefix_free names -> m_legacy m = m_legacy m' -> i = j).
Proof.
  intros sc names ao sup r more RD GN G U cols. assert (RD' := RD). destruct RD' as [W AC Hout Hset Np FC].
  destruct (C51_moments sc names W GN (map (column_words r) cols ++ more)) as (ms & b & E & L & K).
  { intros ws w Hws. apply in_app_or in Hws as [Hws|Hws]; [|apply U, Hws]. apply in_map_iff in Hws as (c & <- & Hc). exact (column_usable sc ao sup r c w RD G Hc). }
  exists ms, b. split; [exact E|]. assert (N : NoDup cols) by (destruct (PropFactCond.generated_facts sc ao sup r RD G) as (prog0 & _ & _ & N0); exact N0).
  assert (A : forall i c, nth_error cols i = Some c -> nth_error (map (column_words r) cols ++ more) i = Some (column_words r c)).
  { intros i c Hc. rewrite nth_error_app1 by (rewrite map_length; apply nth_error_Some; intros Q; discriminate (eq_trans (eq_sym Hc) Q)). apply map_nth_error, Hc. }
  intros i c Hc. destruct (nth_error ms i) as [m|] eqn:Hm.
  - exists m. split; [reflexivity|]. destruct (K i _ m (A i c Hc) Hm) as (P & _ & F1 & F2 & J). split; [exact P|]. split; [exact F1|]. split; [exact F2|].
    intros j c' m' Hc' Hm'. destruct (J j _ m' (A j c' Hc') Hm') as (J1 & J2 & _).
    assert (Q : Permutation (proper (column_words r c)) (proper (column_words r c')) -> i = j).
    { intros Q. apply (column_words_inj sc ao sup r) in Q; [|exact RD|exact G|exact (nth_error_In _ _ Hc)|exact (nth_error_In _ _ Hc')]. subst c'.
      apply (proj1 (NoDup_nth_error cols) N); [apply nth_error_Some; intros Q0; discriminate (eq_trans (eq_sym Hc) Q0)|exact (eq_trans Hc (eq_sym Hc'))]. }
    split; [intros Q1; apply Q, J1, Q1|intros PF Q1; apply Q, (J2 PF), Q1].
  - exfalso. apply nth_error_None in Hm. assert (Q : i < List.length (map (column_words r) cols ++ more)) by (apply nth_error_Some; rewrite (A i c Hc); discriminate). rewrite L in Hm. exact (Nat.lt_irrefl _ (Nat.lt_le_trans _ _ _ Q Hm)).
Qed.
Print Assumptions C51_columns.

(** ** Factorisation conditions by name *)
Lemma set_new {V} (k : string) (v : V) d : ~ In k (keys d) -> set string_dec k v d = d ++ [(k, v)].
Proof.
  induction d as [|(k0, v0) d IH]; intros H; [reflexivity|]. cbn [set]. destruct (string_dec k k0) as [->|]; [exfalso; apply H; left; reflexivity|].
  cbn [app]. f_equal. apply IH. intros K. apply H. right. exact K.
Qed.
Lemma update_new {V} (e : list (string * V)) : forall d, NoDup (keys (d ++ e)) -> update string_dec d e = d ++ e.
Proof.
  unfold update. induction e as [|(k, v) e IH]; intros d N; cbn [fold_left fst snd]; [rewrite app_nil_r; reflexivity|].
  rewrite set_new.
  - rewrite IH; rewrite <- app_assoc; [reflexivity|exact N].
  - unfold keys in N. rewrite map_app in N. cbn [map fst] in N. apply NoDup_remove_2 in N. intros K. apply N, in_or_app. left. exact K.
Qed.
Lemma column_names_inj sc names ao sup r c c' m m' b b' : ready sc -> good_names sc names -> generate sc ao sup = Some r ->
  In c (columns (r_programme r)) -> In c' (columns (r_programme r)) ->
  lp_monomial sc names (column_words r c) start_book = Some (m, b) -> lp_monomial sc names (column_words r c') start_book = Some (m', b') ->
  m_name m = m_name m' -> c = c'.
Proof.
  intros RD GN G Hc Hc' E E' Q. assert (RD' := RD). destruct RD' as [W AC Hout Hset Np FC].
  destruct (C51_moments sc names W GN [column_words r c; column_words r c']) as (ms & b0 & _ & L & K).
  { intros ws w [<-|[<-|[]]] Hw; [exact (column_usable sc ao sup r c w RD G Hc Hw)|exact (column_usable sc ao sup r c' w RD G Hc' Hw)]. }
  destruct ms as [|m1 [|m2 [|]]]; cbn [List.length] in L; try discriminate L.
  destruct (K 0 _ m1 eq_refl eq_refl) as (_ & (b1 & E1) & _ & _ & J). destruct (K 1 _ m2 eq_refl eq_refl) as (_ & (b2 & E2) & _).
  assert (m1 = m) by congruence. assert (m2 = m') by congruence. subst m1 m2.
  apply (column_words_inj sc ao sup r c c' RD G Hc Hc'). apply (proj1 (J 1 _ m' eq_refl eq_refl)). exact Q.
Qed.
(** The dictionaries of factorisation conditions by name say the same as the dictionaries on moments:
    the same entries in the same order, none overwritten by another one with the same name, and every
    name in them belongs to one column. *)
Theorem C51_conditions_by_name : forall sc names all_outcomes supports r made full quad (object : list nat -> NameModel.moment),
  ready sc -> good_names sc names -> generate sc all_outcomes supports = Some r -> incl (columns (r_programme r)) made ->
  factorization_conditions made (columns (r_programme r)) = Some full -> quadratic_factorization_conditions made (columns (r_programme r)) = Some quad ->
  (forall c, In c (columns (r_programme r)) -> exists b, lp_monomial sc names (column_words r c) start_book = Some (object c, b)) ->
  (forall c c', In c (columns (r_programme r)) -> In c' (columns (r_programme r)) -> m_name (object c) = m_name (object c') -> c = c') /\
  forall conditions, conditions = full \/ conditions = quad ->
    (forall c parts, In (c, parts) conditions -> In c (columns (r_programme r)) /\ forall p, In p parts -> In p (columns (r_programme r))) /\
    conditions_by_name (map (fun q => (object (fst q), map object (snd q))) conditions) =
      map (fun q => (m_name (object (fst q)), map (fun p => m_name (object p)) (snd q))) conditions.
Proof.
  intros sc names ao sup r made full quad object RD GN G MADE EF EQ OBJ.
  assert (INJ : forall c c', In c (columns (r_programme r)) -> In c' (columns (r_programme r)) -> m_name (object c) = m_name (object c') -> c = c').
  { intros c c' Hc Hc' Q. destruct (OBJ c Hc) as (b & E), (OBJ c' Hc') as (b' & E'). exact (column_names_inj sc names ao sup r c c' _ _ _ _ RD GN G Hc Hc' E E' Q). }
  split; [exact INJ|]. destruct (PropFactCond.C50_conditions_exist sc ao sup r made RD G MADE) as (full' & quad' & sf & sq & EF' & EQ' & _ & _ & CF & CQ & _ & _ & NF & NQ & _).
  cbn zeta in *. assert (full' = full) by (apply PropFactCond.some_is; transitivity (factorization_conditions made (columns (r_programme r))); [symmetry; exact EF'|exact EF]).
  assert (quad' = quad) by (apply PropFactCond.some_is; transitivity (quadratic_factorization_conditions made (columns (r_programme r))); [symmetry; exact EQ'|exact EQ]). subst full' quad'.
  destruct (PropFactCond.generated_facts sc ao sup r RD G) as (prog & EP & C & N). destruct RD as [W AC Hout Hset Np FC].
  assert (SI : forall m f, In m (columns (r_programme r)) -> In f m -> In [f] (columns (r_programme r))) by (rewrite C; apply (FactCondProofs2.single sc W Hout FC prog ao EP)).
  assert (RE : forall m, In m (columns (r_programme r)) -> In (skipn 1 m) (columns (r_programme r))) by (rewrite C; apply (FactCondProofs2.rest sc W Hout FC prog ao EP)).
  assert (PARTS : forall conditions, conditions = full \/ conditions = quad -> NoDup (map fst conditions) /\ forall c parts, In (c, parts) conditions -> In c (columns (r_programme r)) /\ forall p, In p parts -> In p (columns (r_programme r))).
  { intros conditions [-> | ->].
    - split; [exact NF|]. intros c parts H. apply CF in H as (Hc & _ & ->). split; [exact Hc|]. intros p Hp. apply in_map_iff in Hp as (f & <- & Hf). exact (SI c f Hc Hf).
    - split; [exact NQ|]. intros c parts H. apply CQ in H as (Hc & f & o & -> & _ & ->). split; [exact Hc|]. intros p [<-|[<-|[]]]; [apply (SI _ f Hc); left; reflexivity|exact (RE _ Hc)]. }
  intros conditions H. destruct (PARTS conditions H) as [ND P]. split; [exact P|]. unfold conditions_by_name. rewrite map_map. cbn [fst snd].
  rewrite update_new; cbn [app].
  - apply map_ext. intros q. rewrite map_map. reflexivity.
  - unfold keys. rewrite map_map. cbn [fst]. rewrite <- (map_map fst (fun c => m_name (object c))). apply NameLPProofs.nodup_map_in; [|exact ND].
    intros a b Ha Hb. apply in_map_iff in Ha as ((a' & pa) & <- & Ha), Hb as ((b' & pb) & <- & Hb). cbn [fst]. apply INJ; [exact (proj1 (P _ _ Ha))|exact (proj1 (P _ _ Hb))].
Qed.
Print Assumptions C51_conditions_by_name.

(** ** Examples *)
Definition names_of_columns (sc : scenario) (names : list string) : option (list (string * string)) :=
  match generate sc false false with
  | None => None
  | Some r => option_map (fun q => map (fun m => (m_name m, m_legacy m)) (fst q)) (lp_history sc names (map (column_words r) (columns (r_programme r))) start_book)
  end.
Lemma ab_different : NoDup ["A"; "B"]%string.
Proof. constructor; [intros [H|[]]; discriminate H|]. constructor; [intros []|constructor]. Qed.
Lemma ab_good : good_names tiny_sc ["A"; "B"]%string /\ good_names bell_sc ["A"; "B"]%string /\ prefix_free ["A"; "B"]%string.
Proof.
  repeat apply conj.
  - constructor; [reflexivity|exact ab_different|intros s [<-|[<-|[]]]; reflexivity|intros ps [<-|[<-|[]]]; constructor].
  - constructor; [reflexivity|exact ab_different|intros s [<-|[<-|[]]]; reflexivity|intros ps [<-|[<-|[]]]; constructor].
  - intros s [<-|[<-|[]]]; discriminate.
  - intros s t [<-|[<-|[]]] [H|[H|[]]]; cbn in H; congruence.
Qed.
(** two independent parties, one of them with two settings *)
Example C51_names_of_tiny : ready tiny_sc /\ good_names tiny_sc ["A"; "B"] /\ prefix_free ["A"; "B"] /\
  names_of_columns tiny_sc ["A"; "B"] = Some
    [("1", "1"); ("P[A=0]", "pA(0|0)"); ("P[B_0=0]", "pB(0|0)"); ("P[B_1=0]", "pB(0|1)");
     ("P[A=0]*P[B_0=0]", "pA(0|0)*pB(0|0)"); ("P[A=0]*P[B_1=0]", "pA(0|0)*pB(0|1)");
     ("P[B_0=0 B_1=0]", "<B_0_1_0_0 B_0_1_1_0>"); ("P[A=0]*P[B_0=0 B_1=0]", "pA(0|0)*<B_0_1_0_0 B_0_1_1_0>")]%string.
Proof. split; [exact tiny_ready|]. split; [apply ab_good|]. split; [apply ab_good|]. vm_compute. reflexivity. Qed.
(** two copies of a shared source *)
Definition two_sc : scenario :=
  {| outcomes := [2; 2]; private_settings := [1; 1]; parents := [[]; []];
     sources := [{| s_classical := false; s_children := [0; 1]; s_latents := [] |}]; levels := [2] |}.
Example C51_names_of_copies : names_of_columns two_sc ["A"; "B"] = Some
    [("1", "1"); ("P[A=0]", "pA(0|0)"); ("P[B=0]", "pB(0|0)"); ("P[A=0]^2", "pA(0|0)^2"); ("P[A=0 B=0]", "pAB(00|00)");
     ("P[A=0]*P[B=0]", "pA(0|0)*pB(0|0)"); ("P[B=0]^2", "pB(0|0)^2"); ("P[A=0]*P[A=0 B=0]", "pA(0|0)*pAB(00|00)");
     ("P[B=0]*P[A=0 B=0]", "pB(0|0)*pAB(00|00)"); ("P[A=0 B=0]^2", "pAB(00|00)^2")]%string.
Proof. vm_compute. reflexivity. Qed.
Definition conditions_of_tiny : option (list (string * list string)) :=
  match generate tiny_sc false false with
  | None => None
  | Some r => let cols := columns (r_programme r) in
      match factorization_conditions cols cols, map_opt (fun c => option_map fst (lp_monomial tiny_sc ["A"; "B"]%string (column_words r c) start_book)) cols with
      | Some full, Some objects => let object c := nth (index_of m_eqb c cols) objects one_moment in
          Some (conditions_by_name (map (fun q => (object (fst q), map object (snd q))) full))
      | _, _ => None
      end
  end.
Example C51_conditions_of_tiny : conditions_of_tiny = Some
  [("P[A=0]*P[B_0=0]", ["P[A=0]"; "P[B_0=0]"]); ("P[A=0]*P[B_1=0]", ["P[A=0]"; "P[B_1=0]"]);
   ("P[A=0]*P[B_0=0 B_1=0]", ["P[A=0]"; "P[B_0=0 B_1=0]"])]%string.
Proof. vm_compute. reflexivity. Qed.

(** ** What the code does not guarantee *)
(** With a party whose name begins with the name of another one, two different moments share a legacy
    name, and only the second one is found under it; their names differ. *)
Theorem C51_prefix_refuted : exists ms b,
  lp_history prefix_sc ["AB"; "A"; "BA"]%string [[[0; 2]]; [[2; 4]]] start_book = Some (ms, b) /\
  map (fun m => (m_key m, m_name m, m_legacy m)) ms = [([[0; 2]], "P[AB=0 A=0]", "pABA(00|00)"); ([[2; 4]], "P[A=0 BA=0]", "pABA(00|00)")]%string /\
  option_map m_key (find_name "pABA(00|00)" (by_name b)) = Some [[2; 4]] /\ lp_atom_word prefix_sc [0; 2] /\ lp_atom_word prefix_sc [2; 4].
Proof.
  eexists. eexists. split; [vm_compute; reflexivity|]. split; [vm_compute; reflexivity|]. split; [vm_compute; reflexivity|].
  assert (W : wf_scenario prefix_sc).
  { constructor; try reflexivity.
    - intros ps q [<-|[<-|[<-|[]]]] [].
    - intros m [<-|[]]; lia.
    - intros p Hp. exists {| s_classical := false; s_children := [0; 1; 2]; s_latents := [] |}. split; [left; reflexivity|]. left. destruct p as [|[|[|p]]]; cbn in *; auto; lia. }
  assert (H : forall f, f <> [] -> StronglySorted lt f -> (forall i, In i f -> i < 6) ->
    fst (atomic_monomial (List.length (lexorder prefix_sc)) (discover_lexorder_symmetries prefix_sc) f []) = f -> lp_atom_word prefix_sc f).
  { intros f NE S R E. rewrite <- E. apply (C51_representatives_are_atoms prefix_sc W); try assumption. intros o [<-|[<-|[<-|[]]]]; lia. }
  split; apply H; try discriminate; try (vm_compute; reflexivity); try (repeat constructor; lia).
  - intros i [<-|[<-|[]]]; lia.
  - intros i [<-|[<-|[]]]; lia.
Qed.
Print Assumptions C51_prefix_refuted.
