(** Products of names; conjugates; the choice between a product and its conjugate. *)
From Coq Require Import List Arith Bool Ascii String Lia Permutation Sorted.
From Verif Require Import CanonModel CanonSpec CanonProofs ScenarioModel ScenarioSpec ScenarioProofs SymModel SymProofs ColumnModel ColumnSpec ColumnProofs ColumnProofs3 ColsModel ColsProofs3 ColsProofs4 MemoModel MemoSpec MemoProofs ProgramModel ProgramProofs NameModel NameSpec NameProofs.
Import ListNotations.
Open Scope string_scope. Open Scope nat_scope. Open Scope list_scope.

(** ** Counting *)
Lemma count_in_set x y n d : count_in x (set string_dec y n d) = if string_dec x y then n else count_in x d.
Proof. unfold count_in. rewrite get_set. destruct (string_dec x y); reflexivity. Qed.
Lemma counter_count l : forall x, count_in x (counter l) = count_occ string_dec l x.
Proof.
  assert (G : forall l d x, count_in x (fold_left (fun d x => set string_dec x (S (count_in x d)) d) l d) = count_in x d + count_occ string_dec l x).
  { clear l. induction l as [|y l IH]; intros d x; [cbn; lia|]. cbn [fold_left count_occ]. rewrite IH, count_in_set. destruct (string_dec x y) as [E|N], (string_dec y x) as [E'|N']; try congruence; try (subst; lia). }
  intros x. apply G.
Qed.
Lemma counter_in l k n : In (k, n) (counter l) -> In k l /\ 1 <= n.
Proof.
  assert (G : forall l d, In (k, n) (fold_left (fun d x => set string_dec x (S (count_in x d)) d) l d) -> In (k, n) d \/ (In k l /\ 1 <= n)).
  { clear l. induction l as [|y l IH]; intros d H; [left; exact H|]. cbn [fold_left] in H. apply IH in H as [H|[H1 H2]]; [|right; split; [right; exact H1|exact H2]].
    assert (Q : forall v d, In (k, n) (set string_dec y v d) -> In (k, n) d \/ (k = y /\ n = v)).
    { clear. intros v. induction d as [|[k' v'] d IH]; cbn [set]; intros H; [destruct H as [H|[]]; injection H as <- <-; auto|].
      destruct (string_dec y k') as [->|N]; destruct H as [H|H]; try (injection H as <- <-; auto); [left; right; exact H|left; left; reflexivity|].
      apply IH in H as [H|H]; [left; right; exact H|right; exact H]. }
    apply Q in H as [H|[-> ->]]; [left; exact H|right; split; [left; reflexivity|lia]]. }
  intros H. apply G in H as [[]|H]. exact H.
Qed.
Lemma counter_nil l : counter l = [] -> l = [].
Proof.
  intros E. destruct l as [|x l]; [reflexivity|]. assert (Q := counter_count (x :: l) x). rewrite E in Q. cbn in Q. destruct (string_dec x x); [discriminate|congruence].
Qed.
Lemma counter_perm l1 l2 : counter l1 = counter l2 -> Permutation l1 l2.
Proof. intros E. apply (Permutation_count_occ string_dec). intros x. rewrite <- !counter_count, E. reflexivity. Qed.

(** ** Texts of products *)
(** texts that end at the first character of a class *)
Definition closed (f : ascii -> bool) (s : string) : Prop :=
  exists b c, s = (b ++ String c "")%string /\ every (fun d => negb (f d)) b = true /\ f c = true /\ without "*" s.
Record class (f : ascii -> bool) : Prop := { cl_digit : no_digit f; cl_caret : f "^"%char = false; cl_star : f "*"%char = false }.
Lemma power_text_inj f a b : class f -> closed f (fst a) -> closed f (fst b) -> 1 <= snd a -> 1 <= snd b -> power_text a = power_text b -> a = b.
Proof.
  intros C (b1 & c1 & E1 & N1 & F1 & _) (b2 & c2 & E2 & N2 & F2 & _) P1 P2. unfold power_text. rewrite E1, E2, !sapp_assoc. intros E.
  apply (split_eq f) in E as [-> E]; [|exact N1|exact N2|exact F1|exact F2]. cbn [String.append] in E. injection E as -> E.
  destruct a as [s1 n1], b as [s2 n2]. cbn [fst snd] in *. f_equal; [congruence|].
  destruct (Nat.ltb_spec 1 n1) as [L1|L1], (Nat.ltb_spec 1 n2) as [L2|L2]; try discriminate E; [|lia]. injection E as E. apply dec_inj, E.
Qed.
Lemma power_text_star a : without "*" (fst a) -> without "*" (power_text a).
Proof.
  intros H. unfold power_text, without. rewrite every_app, H. destruct (1 <? snd a); [|reflexivity]. cbn [String.append every andb]. rewrite dec_avoids; [reflexivity|nodigit].
Qed.
Lemma product_inj f l1 l2 : class f -> (forall s, In s l1 -> closed f s) -> (forall s, In s l2 -> closed f s) ->
  name_from_atom_names l1 = name_from_atom_names l2 -> Permutation l1 l2.
Proof.
  intros C H1 H2.
  assert (K : forall l, l <> [] -> (forall s, In s l -> closed f s) -> name_from_atom_names l <> "1").
  { intros l N H E. destruct l as [|x l0] eqn:El; [contradiction|]. rewrite <- El in *. unfold name_from_atom_names in E. rewrite El in E. rewrite <- El in E.
    destruct (counter l) as [|[k n] d] eqn:Ec; [apply counter_nil in Ec; contradiction|].
    assert (Hk : In k l /\ 1 <= n) by (apply counter_in; rewrite Ec; left; reflexivity). destruct Hk as [Hk Hn]. destruct (H k Hk) as (b & c & -> & _ & Fc & _).
    assert (Q : every digit "1" = false); [|discriminate Q]. rewrite <- E. cbn [map]. rewrite concat_cons, every_app. unfold power_text. cbn [fst snd]. rewrite !every_app.
    cbn [every]. destruct (digit c) eqn:Dc; [rewrite (cl_digit f C c Dc) in Fc; discriminate|]. cbn [andb]. rewrite andb_false_r. reflexivity. }
  intros E. destruct l1 as [|x1 m1] eqn:L1.
  - destruct l2 as [|x2 m2] eqn:L2; [constructor|]. exfalso. symmetry in E. revert E. apply K; [discriminate|exact H2].
  - destruct l2 as [|x2 m2] eqn:L2; [exfalso; revert E; apply K; [discriminate|exact H1]|]. rewrite <- L1, <- L2 in *.
    assert (E' : String.concat "*" (map power_text (counter l1)) = String.concat "*" (map power_text (counter l2))).
    { unfold name_from_atom_names in E. rewrite L1, L2 in E. rewrite <- L1, <- L2 in E. exact E. }
    apply counter_perm. apply concat_inj in E'.
    + assert (P1 : forall a, In a (counter l1) -> closed f (fst a) /\ 1 <= snd a) by (intros [k n] Ha; apply counter_in in Ha as [Ha Hb]; split; [apply H1, Ha|exact Hb]).
      assert (P2 : forall a, In a (counter l2) -> closed f (fst a) /\ 1 <= snd a) by (intros [k n] Ha; apply counter_in in Ha as [Ha Hb]; split; [apply H2, Ha|exact Hb]).
      revert P1 P2 E'. generalize (counter l1) (counter l2). clear - C. intros d1. induction d1 as [|a d1 IH]; intros [|b d2] P1 P2 E; try discriminate E; [reflexivity|]. cbn [map] in E. injection E as E1 E2. f_equal.
      * destruct (P1 a (or_introl eq_refl)), (P2 b (or_introl eq_refl)). apply (power_text_inj f); assumption.
      * apply IH; [intros c Hc; apply P1; right; exact Hc|intros c Hc; apply P2; right; exact Hc|exact E2].
    + intros s Hs. apply in_map_iff in Hs as ([k n] & <- & Hk). apply counter_in in Hk as [Hk _]. apply power_text_star. destruct (H1 k Hk) as (b & c & _ & _ & _ & Q). exact Q.
    + intros s Hs. apply in_map_iff in Hs as ([k n] & <- & Hk). apply counter_in in Hk as [Hk _]. apply power_text_star. destruct (H2 k Hk) as (b & c & _ & _ & _ & Q). exact Q.
    + split; intros Q; apply map_eq_nil in Q; apply counter_nil in Q; congruence.
Qed.
(** a character of a factor is in the product *)
Lemma product_has g l : l <> [] -> (forall s, In s l -> every g s = false) -> every g (name_from_atom_names l) = false.
Proof.
  intros N H. unfold name_from_atom_names. destruct l as [|x l0] eqn:El; [contradiction|]. rewrite <- El in *.
  destruct (counter l) as [|[k n] d] eqn:Ec; [apply counter_nil in Ec; congruence|].
  assert (Hk : In k l /\ 1 <= n) by (apply counter_in; rewrite Ec; left; reflexivity). destruct Hk as [Hk Hn].
  cbn [map]. rewrite concat_cons, every_app. unfold power_text. cbn [fst snd]. rewrite every_app, (H k Hk). reflexivity.
Qed.
Lemma product_chars g l : g "*"%char = true -> g "^"%char = true -> (forall c, digit c = true -> g c = true) -> (forall s, In s l -> every g s = true) -> every g (name_from_atom_names l) = true.
Proof.
  intros G1 G2 G3 H. unfold name_from_atom_names. destruct l as [|x l0] eqn:El; [cbn [every]; rewrite G3; reflexivity|]. rewrite <- El in *.
  apply every_concat; [exact G1|]. intros s Hs. apply in_map_iff in Hs as ([k n] & <- & Hk). apply counter_in in Hk as [Hk _]. unfold power_text. cbn [fst snd]. rewrite every_app, (H k Hk). cbn [andb].
  destruct (1 <? n); [|reflexivity]. cbn [String.append every]. rewrite G2. cbn [andb]. apply (every_impl digit); [exact G3|apply dec_digits].
Qed.

(** ** Sorting *)
Lemma SS_perm_eq l1 : forall l2, StronglySorted word_le l1 -> StronglySorted word_le l2 -> Permutation l1 l2 -> l1 = l2.
Proof.
  induction l1 as [|x l1 IH]; intros l2 S1 S2 P; [apply Permutation_nil in P; symmetry; exact P|].
  destruct l2 as [|y l2]; [apply Permutation_sym, Permutation_nil in P; discriminate P|].
  inversion S1 as [|? ? S1' F1]; subst. inversion S2 as [|? ? S2' F2]; subst. rewrite Forall_forall in F1, F2.
  assert (x = y) as <-.
  { assert (Hx : In x (y :: l2)) by (apply (Permutation_in _ P); left; reflexivity). assert (Hy : In y (x :: l1)) by (apply (Permutation_in _ (Permutation_sym P)); left; reflexivity).
    destruct Hx as [Hx|Hx]; [auto|]. destruct Hy as [Hy|Hy]; [auto|]. destruct (F1 y Hy) as [Q|Q]; [exact Q|]. destruct (F2 x Hx) as [Q'|Q']; [auto|].
    assert (R := word_lt_trans _ _ _ Q Q'). rewrite word_lt_irrefl in R. discriminate R. }
  f_equal. apply IH; [exact S1'|exact S2'|]. apply (Permutation_cons_inv P).
Qed.
Definition sortw : list word -> list word := py_sorted word_lt.
Lemma sortw_ext l1 l2 : Permutation l1 l2 -> sortw l1 = sortw l2.
Proof.
  intros P. apply SS_perm_eq; [apply py_sorted_sorted|apply py_sorted_sorted|]. unfold sortw.
  eapply Permutation_trans; [apply Permutation_sym, py_sorted_perm|]. eapply Permutation_trans; [exact P|apply py_sorted_perm].
Qed.
Lemma sortw_perm l : Permutation l (sortw l).
Proof. apply py_sorted_perm. Qed.
Lemma sort_atoms l : map a_word (py_sorted atom_lt l) = sortw (map a_word l).
Proof.
  assert (I : forall x l, map a_word (sort_insert atom_lt x l) = sort_insert word_lt (a_word x) (map a_word l)).
  { clear. intros x. induction l as [|y l IH]; [reflexivity|]. cbn [sort_insert map]. unfold atom_lt at 1. destruct (word_lt (a_word y) (a_word x)); cbn [map]; [f_equal; exact IH|reflexivity]. }
  induction l as [|x l IH]; [reflexivity|]. unfold sortw in *. cbn [py_sorted map]. rewrite I, IH. reflexivity.
Qed.
Fixpoint words_lt (a b : list word) : bool :=
  match a, b with
  | [], _ :: _ => true
  | x :: a', y :: b' => if word_eqb x y then words_lt a' b' else word_lt x y
  | _, _ => false
  end.
Lemma atoms_words_lt a : forall b, atoms_lt a b = words_lt (map a_word a) (map a_word b).
Proof. induction a as [|x a IH]; intros [|y b]; try reflexivity. cbn [atoms_lt words_lt map]. rewrite IH. reflexivity. Qed.
Lemma words_lt_irrefl a : words_lt a a = false.
Proof. induction a as [|x a IH]; [reflexivity|]. cbn [words_lt]. rewrite word_eqb_refl. exact IH. Qed.
Lemma words_lt_total a : forall b, words_lt a b = false -> words_lt b a = false -> a = b.
Proof.
  induction a as [|x a IH]; intros [|y b] H1 H2; try reflexivity; try discriminate. cbn [words_lt] in *.
  destruct (word_eqb x y) eqn:E.
  - apply word_eqb_true in E. subst y. rewrite word_eqb_refl in H2. f_equal. apply IH; assumption.
  - destruct (word_eqb y x) eqn:E'; [apply word_eqb_true in E'; subst y; rewrite word_eqb_refl in E; discriminate|].
    destruct (word_lt_total _ _ H1) as [->|Q]; [rewrite word_eqb_refl in E; discriminate|congruence].
Qed.
Lemma words_lt_asym a : forall b, words_lt a b = true -> words_lt b a = false.
Proof.
  induction a as [|x a IH]; intros [|y b] H; try reflexivity; try discriminate. cbn [words_lt] in *. destruct (word_eqb x y) eqn:E.
  - apply word_eqb_true in E. subst y. rewrite word_eqb_refl. apply IH, H.
  - destruct (word_eqb y x) eqn:E'; [apply word_eqb_true in E'; subst y; rewrite word_eqb_refl in E; discriminate|]. destruct (word_lt y x) eqn:Q; [|reflexivity]. assert (R := word_lt_trans _ _ _ H Q). rewrite word_lt_irrefl in R. discriminate R.
Qed.
Definition minw (a b : list word) : list word := if words_lt b a then b else a.
Lemma minw_comm a b : minw a b = minw b a.
Proof.
  unfold minw. destruct (words_lt b a) eqn:E1, (words_lt a b) eqn:E2; try reflexivity.
  - apply words_lt_asym in E1. congruence.
  - apply words_lt_total; assumption.
Qed.

(** ** Conjugates *)
Section Conj.
Variables (sc : scenario) (conj : word -> word).
Hypotheses (W : wf_scenario sc) (CJ : conjugates sc conj).
Notation nc := (sdp_notcomm sc).
Notation ortho := (sdp_orthomat sc).
Notation syms := (sdp_lexorder_symmetries sc).
Notation L := (S (List.length (lexorder sc))).
Notation rep := (is_representative nc syms).

Lemma conj_commuting w : sub_any nc w = false -> conj w = w.
Proof.
  intros E. apply (CJ w). intros a b Ha Hb. destruct (nc a b) eqn:Q; [|reflexivity]. assert (sub_any nc w = true) by (apply sub_any_spec; eauto). congruence.
Qed.
Lemma atom_in_range w : atom_word sc w -> in_range L w.
Proof. intros (_ & H & _) x Hx. specialize (H x Hx). lia. Qed.
Lemma sub_any_perm u v : Permutation u v -> sub_any nc u = true -> sub_any nc v = true.
Proof.
  intros P E. apply sub_any_spec in E as (a & b & Ha & Hb & E). apply sub_any_spec. exists a, b. split; [exact (Permutation_in _ P Ha)|]. split; [exact (Permutation_in _ P Hb)|exact E].
Qed.
Lemma conj_noncommuting w : atom_word sc w -> sub_any nc w = true -> rep (rev w) (conj w).
Proof. intros A E. apply (CJ w); [exact A|]. apply sub_any_spec, E. Qed.
Lemma sub_any_gf g w : In g syms -> in_range L w -> sub_any nc w = true -> sub_any nc (map (gf g) w) = true.
Proof.
  intros Hg R E. pose proof (scenario_symmetries sc W) as OS. apply sub_any_spec in E as (a & b & Ha & Hb & E). apply sub_any_spec. exists (gf g a), (gf g b).
  split; [apply in_map, Ha|]. split; [apply in_map, Hb|]. rewrite (gf_nc nc ortho L syms [] OS g a b Hg); [exact E|..]; auto.
Qed.
Lemma conj_atom w : atom_word sc w -> atom_word sc (conj w) /\ conj (conj w) = w /\ sub_any nc (conj w) = sub_any nc w.
Proof.
  intros A. destruct (sub_any nc w) eqn:E; [|rewrite !(conj_commuting w E); auto].
  pose proof (scenario_symmetries sc W) as OS. pose proof (scenario_good_tables sc W) as G.
  pose proof (gt_nc_sym _ _ G) as NS.
  assert (R := conj_noncommuting w A E). assert (A0 := A). destruct A0 as (NE & HR & HW & RED).
  assert (IR := atom_in_range w A). assert (IRr : in_range L (rev w)) by (intros x Hx; apply IR, in_rev, Hx).
  destruct R as [(g & Hg & Eg) M]. assert (R : rep (rev w) (conj w)) by (split; [exists g; auto|exact M]).
  assert (Eg' := Eg). rewrite (apply_gf nc ortho L syms [] OS g (rev w) Hg IRr) in Eg'.
  assert (RED' : reduced nc ortho (conj w)).
  { apply (reduced_ce nc ortho _ _ Eg'). eapply reduced_gf; [exact G|exact OS|exact Hg|]. apply (reduced_rev nc ortho G). exact RED. }
  assert (IR' : in_range L (conj w)).
  { eapply ranged_ce; [exact Eg'|]. eapply ranged_gf; eassumption. }
  assert (NE' : conj w <> []).
  { intros Q. rewrite Q in Eg'. apply ce_length in Eg'. rewrite map_length, rev_length in Eg'. destruct w; [contradiction|discriminate]. }
  assert (SA : sub_any nc (conj w) = true).
  { apply (sub_any_perm (map (gf g) (rev w))); [apply (ce_perm nc), Eg'|]. apply sub_any_gf; [exact Hg|exact IRr|]. apply (sub_any_perm w); [apply Permutation_rev|exact E]. }
  assert (A' : atom_word sc (conj w)).
  { split; [exact NE'|]. split; [|split; [|exact RED']].
    - intros x Hx. specialize (IR' x Hx). destruct RED' as [N0 _]. destruct x; [contradiction|]. lia.
    - eapply (rep_orbit nc ortho L syms) with (g := g) (w := rev w); eassumption. }
  split; [exact A'|]. split; [|exact SA].
  assert (R2 := conj_noncommuting (conj w) A' SA).
  (* rev (conj w) is in the orbit of w *)
  assert (Q : rep (rev (conj w)) w).
  { eapply (rep_orbit nc ortho L syms) with (g := g) (w := w); [exact OS|exact Hg|exact IR| |exact HW].
    rewrite (apply_gf nc ortho L syms [] OS g w Hg IR). apply (ce_rev nc NS) in Eg'. rewrite <- map_rev, rev_involutive in Eg'. exact Eg'. }
  exact (rep_unique nc syms _ _ _ R2 Q).
Qed.

Definition K (ws : list word) : list word := minw (sortw ws) (sortw (map conj ws)).
Lemma map_conj_conj ws : (forall w, In w ws -> atom_word sc w) -> map conj (map conj ws) = ws.
Proof. intros H. rewrite map_map. rewrite <- (map_id ws) at 2. apply map_ext_in. intros w Hw. apply conj_atom, H, Hw. Qed.
Lemma K_perm ws ws' : Permutation ws ws' -> K ws = K ws'.
Proof. intros P. unfold K. rewrite (sortw_ext _ _ P), (sortw_ext _ _ (Permutation_map conj P)). reflexivity. Qed.
Lemma K_conj ws : (forall w, In w ws -> atom_word sc w) -> K (map conj ws) = K ws.
Proof. intros H. unfold K. rewrite (map_conj_conj ws H). apply minw_comm. Qed.
Lemma K_cases ws : Permutation ws (K ws) \/ Permutation (map conj ws) (K ws).
Proof. unfold K, minw. destruct (words_lt _ _); [right|left]; apply sortw_perm. Qed.
Lemma K_idem ws : (forall w, In w ws -> atom_word sc w) -> K (K ws) = K ws.
Proof. intros H. destruct (K_cases ws) as [P|P]; apply K_perm in P; rewrite <- P; [reflexivity|apply K_conj, H]. Qed.
End Conj.
