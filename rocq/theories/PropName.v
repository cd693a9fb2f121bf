(** Property theorems C38 (names).  Statements use NameModel (the code) and NameSpec. *)
From Coq Require Import List Arith Bool Ascii String Permutation Lia.
From Verif Require Import CanonModel CanonSpec ScenarioModel ScenarioSpec SymModel ColumnModel FactorModel MemoModel MemoSpec NameModel NameSpec QuantumSpec.
From Verif Require NameProofs NameProofs4 NameProofs5 NameProofs6 NameProofs7 NameProofs8 NameProofs9 QuantumProofs ScenarioProofs MemoProofs.
From Verif Require PropScenario PropMemo ColumnProofs3 ColumnProofs CanonProofs CanonProofs2.
Import PropScenario.
Import ListNotations.
Open Scope string_scope. Open Scope nat_scope. Open Scope list_scope.

(** ** Operators *)
(** The table op_from_name always exists; the name and both old names of the x-th operator are read
    back as that operator, so different operators have different names; the name without copies is
    read as the operator with the same party, setting and outcome on the first copies. *)
Theorem C38_operator_names : forall sc names, wf_scenario sc -> good_names sc names ->
  exists t, op_from_name sc names = Some t /\
  forall x r, nth_error (lexorder sc) x = Some r ->
  exists d, interpret_operator sc names r = Some d /\
    first_named (op_name sc d) t = Some (S x) /\
    first_named (old_name d) t = Some (S x) /\
    first_named (old_name2 d) t = Some (S x) /\
    exists y r', first_named (copy_free_name d) t = Some (S y) /\ nth_error (lexorder sc) y = Some r' /\
      row_party r' = row_party r /\ row_setting r' = row_setting r /\ row_outcome r' = row_outcome r /\
      forall c, In c (row_copies r') -> c <= 1.
Proof.
  intros sc names W GN.
  assert (T := NameProofs8.table_spec sc names W GN). eexists. split; [exact T|]. intros x r Hr.
  assert (L : NameProofs4.is_letter sc (S x)). { split; [lia|]. assert (x < List.length (lexorder sc)) by (apply nth_error_Some; congruence). lia. }
  destruct (NameProofs4.is_letter_letter sc names W GN (S x) L) as (p & c & s & o & v & os & LX).
  assert (R := NameProofs4.l_row _ _ _ _ _ _ _ _ _ LX). replace (S x - 1) with x in R by lia.
  assert (E : r = mkrow (p + 1) c s o) by congruence. 
  exists (NameProofs4.D sc names (S x)). split; [|split; [|split; [|split]]].
  - rewrite <- (NameProofs4.l_interp _ _ _ _ _ _ _ _ _ LX), (NameProofs4.l_row' _ _ _ _ _ _ _ _ _ LX), E. reflexivity.
  - exact (NameProofs8.name_lookup sc names W GN _ _ L T).
  - exact (NameProofs8.old_lookup sc names W GN _ _ L T).
  - exact (NameProofs8.old2_lookup sc names W GN _ _ L T).
  - assert (R' : nth_error (lexorder sc) (S x - 1) = Some (mkrow (p + 1) c s o)) by (replace (S x - 1) with x by lia; exact R).
    destruct (NameProofs8.copy_free_lookup sc names W GN (S x) p c s o _ R' ltac:(lia) T) as (y & c' & F & Hy & Ry & C).
    exists (y - 1), (mkrow (p + 1) c' s o). replace (S (y - 1)) with y by lia. split; [exact F|]. split; [exact Ry|].
    rewrite E, !ScenarioProofs.mkrow_copies. unfold row_party, mkrow. cbn [hd]. split; [reflexivity|].
    assert (S1 : forall q l, row_setting (q :: l ++ [s; o]) = s /\ row_outcome (q :: l ++ [s; o]) = o).
    { intros q l. change (q :: l ++ [s; o]) with ((q :: l) ++ [s; o]). unfold row_setting, row_outcome. rewrite removelast_app by discriminate. cbn [removelast].
      split; [apply last_last|]. change [s; o] with ([s] ++ [o]). rewrite app_assoc. apply last_last. }
    destruct (S1 (p + 1) c') as [-> ->]. destruct (S1 (p + 1) c) as [-> ->]. split; [reflexivity|]. split; [reflexivity|].
    intros k Hk. apply In_nth with (d := 0) in Hk as (i & _ & <-). apply C.
Qed.
Print Assumptions C38_operator_names.

(** ** Atoms *)
(** Every atom has a name and a legacy name, and each of them determines it (for the legacy names no
    name of a party may be the beginning of another one). *)
Theorem C38_atom_names : forall sc names, wf_scenario sc -> good_names sc names ->
  (forall w, atom_word sc w -> exists a, new_atom sc names w = Some a /\ a_word a = w) /\
  (forall w1 w2 a1 a2, atom_word sc w1 -> atom_word sc w2 -> new_atom sc names w1 = Some a1 -> new_atom sc names w2 = Some a2 ->
     (a_name a1 = a_name a2 -> w1 = w2) /\ (prefix_free names -> a_legacy a1 = a_legacy a2 -> w1 = w2)).
Proof.
  intros sc names W GN. split.
  - intros w A. destruct (NameProofs7.new_atom_good sc names (fun w => w) W GN w A) as (a & E & F & _). exists a. auto.
  - intros w1 w2 a1 a2 A1 A2 E1 E2. unfold new_atom in E1, E2.
    destruct (atom_name sc names w1) as [n1|] eqn:N1; [|discriminate]. destruct (legacy_name sc names w1) as [l1|] eqn:L1; [|discriminate].
    destruct (atom_name sc names w2) as [n2|] eqn:N2; [|discriminate]. destruct (legacy_name sc names w2) as [l2|] eqn:L2; [|discriminate].
    apply (f_equal (option_map (fun a => (a_name a, a_legacy a)))) in E1, E2. cbn in E1, E2. split.
    + intros E. assert (n1 = n2) by congruence. subst n2. apply (NameProofs4.named_inj sc names W GN w1 w2 n1 A1 A2); left; assumption.
    + intros P E. assert (l1 = l2) by congruence. subst l2. exact (NameProofs5.legacy_inj sc names W GN P w1 w2 l1 A1 A2 L1 L2).
Qed.
Print Assumptions C38_atom_names.

(** The conjugation of the code is one in the sense of the specification. *)
Theorem C38_conjugation : forall sc commuting, wf_scenario sc ->
  (commuting = true -> forall a b, sdp_notcomm sc a b = false) -> conjugates sc (code_conj sc commuting).
Proof. intros sc commuting W H. exact (NameProofs9.code_conj_ok sc W commuting H). Qed.
Print Assumptions C38_conjugation.

(** ** Moments *)
(** a history of constructions from factors that are atoms, zero or one *)
Definition proper_step (sc : scenario) (s : step) : Prop :=
  match s with FromWords ws => forall w, In w ws -> usable sc w | FromFactors _ _ => True end.

(** After every history the dictionary finds every moment made under its name and under its legacy
    name, no text names two moments, and the reading of either name is that moment. *)
Theorem C38_dictionary : forall sc names conj, wf_scenario sc -> good_names sc names -> prefix_free names -> conjugates sc conj ->
  forall h b, Forall (proper_step sc) h -> do_steps sc names conj h empty_book = Some b ->
  forall k m, In (k, m) (by_atoms b) ->
   (find_name (m_name m) (by_name b) = Some m /\ find_name (m_legacy m) (by_name b) = Some m) /\
   (forall k' m', In (k', m') (by_atoms b) ->
      m_name m' = m_name m \/ m_name m' = m_legacy m \/ m_legacy m' = m_legacy m -> m' = m) /\
   (forall known kill table s, s = m_name m \/ s = m_legacy m -> s <> "1" -> interpret_name b known kill table s = Some (Known m)).
Proof.
  intros sc names conj W GN PF CJ h b Hh Hb k m Hm.
  assert (H : Forall (NameProofs7.good_step sc) h) by exact Hh.
  destruct (NameProofs7.do_steps_inv sc names conj W GN CJ h empty_book b (NameProofs7.inv_empty _ _ _) H Hb) as [I _].
  assert (L : forall k m s, In (k, m) (by_atoms b) -> NameProofs7.is_name m s -> find_name s (by_name b) = Some m) by (intros k0 m0 s; apply (NameProofs7.inv_lookup sc names conj W GN PF CJ b k0 m0 s I)).
  split; [split; apply (L k m _ Hm); [left|right]; reflexivity|]. split.
  - intros k' m' Hm' E. destruct E as [E|[E|E]].
    + assert (A := L k m _ Hm (or_introl eq_refl)). assert (B := L k' m' _ Hm' (or_introl eq_refl)). congruence.
    + assert (A := L k m _ Hm (or_intror eq_refl)). assert (B := L k' m' _ Hm' (or_introl eq_refl)). congruence.
    + assert (A := L k m _ Hm (or_intror eq_refl)). assert (B := L k' m' _ Hm' (or_intror eq_refl)). congruence.
  - intros known kill table s Hs N1. unfold interpret_name. destruct (String.eqb_spec s "1") as [E|_]; [contradiction|]. rewrite (L k m s Hm Hs). reflexivity.
Qed.
Print Assumptions C38_dictionary.

(** After every history, moments can be made from any factors; two products get the same moment
    exactly when they are the same up to order, unit factors and conjugation, and exactly then they
    have the same name. *)
Theorem C38_same_moment : forall sc names conj, wf_scenario sc -> good_names sc names -> prefix_free names -> conjugates sc conj ->
  forall h b, Forall (proper_step sc) h -> do_steps sc names conj h empty_book = Some b ->
  forall ws1 ws2, (forall w, In w ws1 -> usable sc w) -> (forall w, In w ws2 -> usable sc w) ->
  exists m1 b1 m2 b2,
    do_step sc names conj (FromWords ws1) b = Some (m1, b1) /\
    do_step sc names conj (FromWords ws2) b1 = Some (m2, b2) /\
    find_name (m_name m1) (by_name b2) = Some m1 /\ find_name (m_name m2) (by_name b2) = Some m2 /\
    (m1 = m2 <-> same_moment conj ws1 ws2) /\
    (m_name m1 = m_name m2 <-> same_moment conj ws1 ws2) /\
    (m_legacy m1 = m_legacy m2 <-> same_moment conj ws1 ws2).
Proof.
  intros sc names conj W GN PF CJ h b Hh Hb ws1 ws2 U1 U2.
  assert (H : Forall (NameProofs7.good_step sc) h) by exact Hh.
  destruct (NameProofs7.do_steps_inv sc names conj W GN CJ h empty_book b (NameProofs7.inv_empty _ _ _) H Hb) as [I _].
  destruct (NameProofs7.from_words_good sc names conj W GN CJ ws1 b I U1) as (m1 & b1 & E1 & I1 & K1 & _).
  destruct (NameProofs7.from_words_good sc names conj W GN CJ ws2 b1 I1 U2) as (m2 & b2 & E2 & I2 & K2 & M2).
  apply M2 in K1. exists m1, b1, m2, b2. split; [exact E1|]. split; [exact E2|].
  assert (L : forall k m s, In (k, m) (by_atoms b2) -> NameProofs7.is_name m s -> find_name s (by_name b2) = Some m) by (intros k0 m0 s; apply (NameProofs7.inv_lookup sc names conj W GN PF CJ b2 k0 m0 s I2)).
  split; [apply (L _ _ _ K1); left; reflexivity|]. split; [apply (L _ _ _ K2); left; reflexivity|].
  assert (Z : forall ws, existsb (fun w => MemoModel.word_eqb w [0]) ws = true <-> In [0] ws).
  { intros ws. rewrite existsb_exists. split; [intros (w & Hw & E)|intros Hw; exists [0]; split; [exact Hw|reflexivity]].
    apply MemoProofs.word_eqb_true in E. subst w. exact Hw. }
  assert (P : forall ws, filter (fun w => negb (MemoModel.word_eqb w [])) ws = proper ws).
  { intros ws. apply filter_ext. intros [|x w]; reflexivity. }
  assert (PA : forall ws, (forall w, In w ws -> usable sc w) -> ~ In [0] ws -> forall w, In w (proper ws) -> atom_word sc w).
  { intros ws U N w Hw. apply filter_In in Hw as [Hw NE]. destruct (U w Hw) as [A|[->| -> ]]; [exact A|contradiction|discriminate]. }
  assert (S1 : m1 = m2 <-> same_moment conj ws1 ws2).
  { unfold same_moment. assert (Ek : m1 = m2 <-> NameProofs7.key_of conj ws1 = NameProofs7.key_of conj ws2).
    { split.
      - intros <-. destruct (NameProofs7.iv_good _ _ _ _ I2 _ _ K1) as [-> _]. destruct (NameProofs7.iv_good _ _ _ _ I2 _ _ K2) as [-> _]. reflexivity.
      - intros E. rewrite E in K1. assert (ND := NameProofs7.iv_keys _ _ _ _ I2). revert K1 K2 ND. generalize (NameProofs7.key_of conj ws2) (by_atoms b2). clear.
        intros k l. induction l as [|[k' m'] l IH]; intros A B ND; [destruct A|]. cbn [map fst] in ND. inversion ND as [|? ? NI ND']; subst.
        destruct A as [A|A], B as [B|B]; try congruence; [..|exact (IH A B ND')].
        + exfalso. apply NI. assert (k' = k) by congruence. subst. apply (in_map fst) in B. exact B.
        + exfalso. apply NI. assert (k' = k) by congruence. subst. apply (in_map fst) in A. exact A. }
    rewrite Ek. unfold NameProofs7.key_of. rewrite !P.
    assert (NK : forall ws, (forall w, In w ws -> usable sc w) -> ~ In [0] ws -> [[0]] <> NameProofs6.K conj (proper ws)).
    { intros ws U N E. assert (A : forall w, In w (NameProofs6.K conj (proper ws)) -> atom_word sc w).
      { intros w Hw. destruct (NameProofs6.K_cases conj (proper ws)) as [Q|Q]; apply Permutation_sym in Q; apply (Permutation_in w Q) in Hw; [exact (PA ws U N w Hw)|].
        apply in_map_iff in Hw as (v & <- & Hv). apply (NameProofs6.conj_atom sc conj W CJ v). exact (PA ws U N v Hv). }
      destruct (A [0]) as (_ & R & _); [rewrite <- E; left; reflexivity|]. specialize (R 0 (or_introl eq_refl)). lia. }
    destruct (existsb _ ws1) eqn:X1; destruct (existsb _ ws2) eqn:X2.
    - apply Z in X1, X2. tauto.
    - apply Z in X1. assert (X2' : ~ In [0] ws2) by (intros C; apply Z in C; congruence). split; [intros E; exfalso; exact (NK ws2 U2 X2' E)|intros [[_ C]|[C _]]; contradiction].
    - apply Z in X2. assert (X1' : ~ In [0] ws1) by (intros C; apply Z in C; congruence). split; [intros E; exfalso; exact (NK ws1 U1 X1' (eq_sym E))|intros [[C _]|[_ [C _]]]; contradiction].
    - assert (X1' : ~ In [0] ws1) by (intros C; apply Z in C; congruence). assert (X2' : ~ In [0] ws2) by (intros C; apply Z in C; congruence).
      assert (A1 := PA ws1 U1 X1'). assert (A2 := PA ws2 U2 X2'). split.
      + intros E. right. split; [exact X1'|]. split; [exact X2'|].
        assert (C1 := NameProofs6.K_cases conj (proper ws1)). assert (C2 := NameProofs6.K_cases conj (proper ws2)). rewrite <- E in C2.
        assert (CC : forall l, (forall w, In w l -> atom_word sc w) -> map conj (map conj l) = l) by (intros l Hl; exact (NameProofs6.map_conj_conj sc conj W CJ l Hl)).
        destruct C1 as [C1|C1], C2 as [C2|C2].
        * left. exact (Permutation_trans C1 (Permutation_sym C2)).
        * right. exact (Permutation_trans C1 (Permutation_sym C2)).
        * right. assert (Q := Permutation_map conj (Permutation_trans C1 (Permutation_sym C2))). rewrite (CC _ A1) in Q. exact Q.
        * left. assert (Q := Permutation_map conj (Permutation_trans C1 (Permutation_sym C2))). rewrite (CC _ A1), (CC _ A2) in Q. exact Q.
      + intros [[C _]|(_ & _ & [Q|Q])]; [contradiction| |]; rewrite (NameProofs6.K_perm conj _ _ Q); [reflexivity|apply (NameProofs6.K_conj sc conj W CJ _ A2)]. }
  split; [exact S1|]. rewrite <- S1. split; (split; [|intros <-; reflexivity]); intros E.
  - assert (A := L _ _ _ K1 (or_introl eq_refl)). assert (B := L _ _ _ K2 (or_introl eq_refl)). congruence.
  - assert (A := L _ _ _ K1 (or_intror eq_refl)). assert (B := L _ _ _ K2 (or_intror eq_refl)). congruence.
Qed.
Print Assumptions C38_same_moment.

(** ** Texts *)
(** [t] is the name or one of the old names of the operator x (counted from 1) *)
Definition names_operator (sc : scenario) (names : list string) (t : string) (x : nat) : Prop :=
  exists r d, nth_error (lexorder sc) (x - 1) = Some r /\ 1 <= x /\ interpret_operator sc names r = Some d /\
    (t = op_name sc d \/ t = old_name d \/ t = old_name2 d).
Definition bracket (ts : list string) : string := ("<" ++ String.concat " " ts ++ ">")%string.

(** A text <..>*...*<..> of names of operators is read as the product of these operators, when it is
    not the name of a moment and its factors are no names of atoms already made; whatever the order
    in which the set of substrings is visited. *)
Theorem C38_parse : forall sc names, wf_scenario sc -> good_names sc names ->
  forall b known kill t tss xss, op_from_name sc names = Some t -> (forall k, In k kill <-> In k substrings_to_kill) ->
  tss <> [] -> Forall2 (fun ts xs => ts <> [] /\ Forall2 (names_operator sc names) ts xs /\ known (bracket ts) = None) tss xss ->
  find_name (String.concat "*" (map bracket tss)) (by_name b) = None ->
  interpret_name b known kill t (String.concat "*" (map bracket tss)) = Some (Product (List.concat xss)).
Proof.
  intros sc names W GN b known kill t tss xss T HK NE F FN.
  assert (OP : forall s x, names_operator sc names s x -> NameProofs9.op_text s /\ first_named s t = Some x).
  { intros s x (r & d & Hr & Hx & Hd & Hs).
    assert (L : NameProofs4.is_letter sc x). { split; [lia|]. assert (x - 1 < List.length (lexorder sc)) by (apply nth_error_Some; congruence). lia. }
    assert (Ed : d = NameProofs4.D sc names x).
    { destruct (NameProofs4.is_letter_letter sc names W GN x L) as (p & c & s' & o & v & os & LX).
      assert (R := NameProofs4.l_row _ _ _ _ _ _ _ _ _ LX). assert (R' := NameProofs4.l_row' _ _ _ _ _ _ _ _ _ LX). assert (I := NameProofs4.l_interp _ _ _ _ _ _ _ _ _ LX).
      assert (E : r = NameProofs4.row_of sc x) by congruence. rewrite E, I in Hd. congruence. }
    subst d. destruct Hs as [->|[->| ->]].
    - split; [apply (NameProofs9.new_text sc names W GN x (any_inflation sc) L)|exact (NameProofs8.name_lookup sc names W GN x t L T)].
    - split; [apply (NameProofs9.old_text sc names W GN x L)|exact (NameProofs8.old_lookup sc names W GN x t L T)].
    - split; [apply (NameProofs9.old2_text' sc names W GN x L)|exact (NameProofs8.old2_lookup sc names W GN x t L T)]. }
  assert (G : Forall2 (fun ts xs => ts <> [] /\ Forall2 (fun s x => NameProofs9.op_text s /\ first_named s t = Some x) ts xs /\ known (bracket ts) = None) tss xss).
  { clear - F OP. induction F as [|ts xs tss xss (A & B & C) _ IH]; constructor; [|exact IH]. split; [exact A|]. split; [|exact C].
    clear - B OP. induction B as [|s x ts xs A _ IH]; constructor; [apply OP, A|exact IH]. }
  unfold interpret_name. destruct (String.eqb_spec (String.concat "*" (map bracket tss)) "1") as [E|_].
  { exfalso. destruct tss as [|ts [|ts' tss]]; [contradiction| |]; discriminate E. }
  rewrite FN. change "*"%string with (String "*" "") at 1. rewrite NameProofs8.split_concat.
  - assert (E : map_opt (interpret_atomic_string known kill t) (map bracket tss) = Some xss).
    { clear - G HK. induction G as [|ts xs tss xss (A & B & C) _ IH]; [reflexivity|]. cbn [map map_opt].
      unfold bracket at 1. rewrite (NameProofs9.parse_bracket known kill t ts xs C A HK B), IH. reflexivity. }
    rewrite E. reflexivity.
  - destruct tss; [contradiction|discriminate].
  - intros s Hs. apply in_map_iff in Hs as (ts & <- & Hts).
    assert (X : forall s, In s ts -> NameProofs9.op_text s).
    { clear - G Hts. induction G as [|ts' xs tss xss (_ & B & _) _ IH]; [destruct Hts|]. destruct Hts as [->|Hts]; [|exact (IH Hts)].
      clear - B. induction B as [|s x ts xs [A _] _ IH]; [intros s []|]. intros u [<-|Hu]; [exact A|exact (IH u Hu)]. }
    unfold bracket, NameProofs.without. rewrite !NameProofs.every_app. cbn [every]. rewrite (NameProofs9.without_concat "*" ts eq_refl); [reflexivity|].
    intros s Hs. apply (NameProofs9.ot_star _ (X s Hs)).
Qed.
Print Assumptions C38_parse.

(** ** The atoms of the package are atoms of the specification *)
(** Whatever was asked before, the representative of a product without zero, equal or orthogonal
    neighbours (this is what _AtomicMonomial makes, sdp/InflationSDP.py:1345-1361) is one. *)
Theorem C38_representatives_are_atoms : forall sc commuting h only w, wf_scenario sc ->
  let nc := sdp_notcomm sc in let ortho := sdp_orthomat sc in
  let L := S (List.length (lexorder sc)) in let syms := sdp_lexorder_symmetries sc in
  (commuting = true -> forall a b, nc a b = false) ->
  Forall (good_call nc ortho L) h -> reduced nc ortho w -> in_range L w -> w <> [] ->
  exists before r m, run nc ortho commuting syms (h ++ [Repr only w]) memo_empty = Some (before ++ [r], m) /\ atom_word sc r.
Proof.
  intros sc commuting h only w W nc ortho L syms Hc H R Rg N.
  destruct (PropMemo.C35_representative_is_first sc commuting h w only W Hc H R Rg N) as (before & r & m & E & Rep).
  exists before, r, m. split; [exact E|]. fold nc syms in Rep.
  pose proof (ScenarioProofs.scenario_good_tables sc W) as G. pose proof (ColumnProofs3.scenario_symmetries sc W) as OS.
  assert (Rep' := Rep). destruct Rep' as [(g & Hg & Eg) _].
  assert (Rr : is_representative nc syms r r) by exact (MemoProofs.rep_orbit nc ortho L syms OS g w r r Hg Rg Eg Rep).
  assert (Eg' := Eg). rewrite (ColumnProofs.apply_gf nc ortho L syms [] OS g w Hg Rg) in Eg'.
  assert (Red : reduced nc ortho r) by (eapply MemoProofs.reduced_ce; [exact Eg'|]; exact (MemoProofs.reduced_gf nc ortho L syms G OS g w Hg R)).
  assert (Rgr : in_range L r) by (eapply MemoProofs.ranged_ce; [exact Eg'|]; exact (MemoProofs.ranged_gf nc ortho L syms OS g w Hg Rg)).
  split; [|split; [|split; [exact Rr|exact Red]]].
  - intros ->. apply N. apply CanonProofs.ce_length in Eg'. rewrite map_length in Eg'. destruct w; [reflexivity|discriminate].
  - intros x Hx. assert (x <> 0) by (intros ->; apply Red, Hx). specialize (Rgr x Hx). unfold L in Rgr. lia.
Qed.
Print Assumptions C38_representatives_are_atoms.

(** ** The hypotheses are met *)
Lemma atom_check sc w : wf_scenario sc -> w <> [] -> (forall x, In x w -> 1 <= x <= List.length (lexorder sc)) ->
  to_canonical_1d_internal (sdp_notcomm sc) (sdp_orthomat sc) false false w = Some w ->
  option_map fst (run (sdp_notcomm sc) (sdp_orthomat sc) false (sdp_lexorder_symmetries sc) [Repr false w] memo_empty) = Some [w] -> atom_word sc w.
Proof.
  intros W N R C E.
  assert (Hc : false = true -> forall a b, sdp_notcomm sc a b = false) by discriminate.
  assert (Red : reduced (sdp_notcomm sc) (sdp_orthomat sc) w).
  { apply (MemoProofs.canonical_reduced _ _ false (ScenarioProofs.scenario_good_tables sc W) Hc w w C). intros ->. specialize (R 0 (or_introl eq_refl)). lia. }
  destruct (C38_representatives_are_atoms sc false [] false w W Hc (Forall_nil _) Red) as (before & r & m & E' & A); [intros x Hx; specialize (R x Hx); lia|exact N|].
  cbn [app] in E'. rewrite E' in E. apply (f_equal (fun o => match o with Some l => last l [] | None => [] end)) in E. cbn [option_map fst] in E. rewrite last_last in E. cbn [last] in E. subst r. exact A.
Qed.
Definition ex_names : list string := ["A"; "B"; "C"].
Example ex_good_names : good_names ex_sc ex_names /\ prefix_free ex_names.
Proof.
  split; [split|split].
  - reflexivity.
  - repeat constructor; cbn; intuition discriminate.
  - intros s [<-|[<-|[<-|[]]]]; reflexivity.
  - intros ps [<-|[<-|[<-|[]]]]; repeat constructor; cbn; tauto.
  - intros s [<-|[<-|[<-|[]]]]; discriminate.
  - intros s t [<-|[<-|[<-|[]]]] [E|[E|[E|[]]]]; cbn in E; congruence.
Qed.
Ltac atoms := apply atom_check; [exact ex_sc_wf|discriminate|intros x Hx; cbn in Hx; cbv; intuition lia|vm_compute; reflexivity|vm_compute; reflexivity].
Example ex_atoms : atom_word ex_sc [1] /\ atom_word ex_sc [25] /\ atom_word ex_sc [1; 3] /\ atom_word ex_sc [3; 1] /\ atom_word ex_sc [1; 25] /\ atom_word ex_sc [17].
Proof. split; [atoms|]. split; [atoms|]. split; [atoms|]. split; [atoms|]. split; atoms. Qed.
Definition ex_history : list step :=
  [FromWords [[1; 3]; [25]]; FromWords [[25]; [3; 1]]; FromWords [[25]; [25]; []; [1]]; FromWords [[0]; [1]];
   FromFactors 1 [0; 1]; FromWords []; FromWords [[1; 25]]].
Example C38_history : Forall (proper_step ex_sc) ex_history /\ conjugates ex_sc (code_conj ex_sc false) /\
  option_map (fun b => map (fun km => (fst km, m_name (snd km), m_legacy (snd km))) (by_atoms b))
    (do_steps ex_sc ex_names (code_conj ex_sc false) ex_history empty_book)
  = Some [([[1; 25]], "P[A_0=0 C=0]", "pAC(00|00)"); ([], "1", "1"); ([[1]; [25]], "P[A_0=0]*P[C=0]", "pA(0|0)*pC(0|0)");
          ([[0]], "0", "0"); ([[1]; [25]; [25]], "P[A_0=0]*P[C=0]^2", "pA(0|0)*pC(0|0)^2");
          ([[25]; [1; 3]], "P[C=0]*<A_0=0 A_1=0>", "pC(0|0)*<A_1_0_1_0_0 A_1_0_1_1_0>")].
Proof.
  split; [|split; [apply C38_conjugation; [exact ex_sc_wf|discriminate]|vm_compute; reflexivity]].
  destruct ex_atoms as (A1 & A2 & A3 & A4 & A5 & _). unfold ex_history.
  repeat apply Forall_cons; try apply Forall_nil; cbn [proper_step]; try exact I; intros w Hw; cbn in Hw;
  repeat (destruct Hw as [<-|Hw]; [unfold usable; solve [left; assumption|right; left; reflexivity|right; right; reflexivity]|]); destruct Hw.
Qed.
Example C38_same_moment_nonvacuous : same_moment (code_conj ex_sc false) [[1; 3]; [25]] [[25]; []; [3; 1]] /\
  ~ same_moment (code_conj ex_sc false) [[1; 3]; [25]] [[1; 3]; [25]; [25]].
Proof.
  split.
  - right. split; [cbn; intuition discriminate|]. split; [cbn; intuition discriminate|]. right.
    replace (map (code_conj ex_sc false) (proper [[25]; []; [3; 1]])) with [[25]; [1; 3]] by (vm_compute; reflexivity). apply perm_swap.
  - intros [[H _]|(_ & _ & [P|P])]; [cbn in H; intuition discriminate|apply Permutation_length in P; discriminate P|apply Permutation_length in P; discriminate P].
Qed.
Definition ex_table : list (string * nat) := match op_from_name ex_sc ex_names with Some t => t | None => [] end.
Example C38_parse_nonvacuous :
  names_operator ex_sc ex_names "A_0^{1,1}_1_0_1=0" 1 /\ names_operator ex_sc ex_names "C_0_1_1_∅_0" 25 /\ names_operator ex_sc ex_names "C_0_1_1_0_0" 25 /\
  interpret_name empty_book (fun _ => None) substrings_to_kill ex_table "<A_0^{1,1}_1_0_1=0 C_0_1_1_0_0>*<C_0_1_1_∅_0>" = Some (Product [1; 25; 25]).
Proof.
  split; [|split; [|split; [|vm_compute; reflexivity]]].
  - do 2 eexists. split; [vm_compute; reflexivity|]. split; [lia|]. split; [vm_compute; reflexivity|]. left. vm_compute. reflexivity.
  - do 2 eexists. split; [vm_compute; reflexivity|]. split; [lia|]. split; [vm_compute; reflexivity|]. right. left. vm_compute. reflexivity.
  - do 2 eexists. split; [vm_compute; reflexivity|]. split; [lia|]. split; [vm_compute; reflexivity|]. right. right. vm_compute. reflexivity.
Qed.

(** ** What fails *)
(** The name of a moment depends on what was made before: the same product of operators that do not
    commute is called <A_0=0 A_1=0> when it is made directly and by the names with copy indices when
    it is made as a conjugate; then its legacy name spells the conjugate. *)
Theorem C38_name_depends_on_history_refuted :
  let made ws := option_map (fun mb => (m_key (fst mb), m_name (fst mb), m_legacy (fst mb)))
                   (do_step ex_sc ex_names (code_conj ex_sc false) (FromWords ws) empty_book) in
  made [[1; 3]] = Some ([[1; 3]], "<A_0=0 A_1=0>", "<A_1_0_1_0_0 A_1_0_1_1_0>") /\
  made [[3; 1]] = Some ([[1; 3]], "<A_0^{1,1}_1_0_1=0 A_1^{1,1}_1_0_1=0>", "<A_1_0_1_1_0 A_1_0_1_0_0>").
Proof. split; vm_compute; reflexivity. Qed.
Print Assumptions C38_name_depends_on_history_refuted.

(** Texts written in the form of the names of the package are not always read as those moments:
    before the moment exists, P[A_0=0 C=0] and P[B=0|do(A=0)] and P[A_0=0]^2 are rejected, and
    P[A_0=0]*P[C=0] is read as the joint product on the same copies, which is the moment P[A_0=0 C=0]. *)
Theorem C38_reading_names_refuted :
  let read s := interpret_name empty_book (fun _ => None) substrings_to_kill ex_table s in
  let name ws := option_map (fun mb => m_name (fst mb)) (do_step ex_sc ex_names (code_conj ex_sc false) (FromWords ws) empty_book) in
  (name [[1; 25]] = Some "P[A_0=0 C=0]" /\ read "P[A_0=0 C=0]" = None) /\
  (name [[17]] = Some "P[B=0|do(A=0)]" /\ read "P[B=0|do(A=0)]" = None) /\
  (name [[1]; [1]] = Some "P[A_0=0]^2" /\ read "P[A_0=0]^2" = None) /\
  (name [[1]; [25]] = Some "P[A_0=0]*P[C=0]" /\ read "P[A_0=0]*P[C=0]" = Some (Product [1; 25])).
Proof. repeat split; vm_compute; reflexivity. Qed.
Print Assumptions C38_reading_names_refuted.

(** The conditions on the names of parties are needed: with an underscore in a name, two different
    operators and atoms share a name; *)
Definition underscore_sc : scenario := {| outcomes := [2; 2]; private_settings := [2; 1]; parents := [[]; []];
  sources := [ {| s_classical := false; s_children := [0; 1]; s_latents := [] |} ]; levels := [1] |}.
Theorem C38_underscore_refuted :
  atom_name underscore_sc ["A"; "A_1"] [3] = Some "P[A_1=0]" /\ atom_name underscore_sc ["A"; "A_1"] [5] = Some "P[A_1=0]" /\
  nth_error (lexorder underscore_sc) 2 <> nth_error (lexorder underscore_sc) 4 /\
  (exists t, op_from_name underscore_sc ["A"; "A_1"] = Some t /\ first_named "A_1=0" t = Some 3).
Proof. split; [vm_compute; reflexivity|]. split; [vm_compute; reflexivity|]. split; [vm_compute; discriminate|]. eexists. split; vm_compute; reflexivity. Qed.
(** with a name that begins with another one, two different moments share a legacy name, and the
    dictionary finds the second one only. *)
Definition prefix_sc : scenario := {| outcomes := [2; 2; 2]; private_settings := [1; 1; 1]; parents := [[]; []; []];
  sources := [ {| s_classical := false; s_children := [0; 1; 2]; s_latents := [] |} ]; levels := [1] |}.
Theorem C38_prefix_refuted :
  exists b, do_steps prefix_sc ["AB"; "A"; "BA"] (code_conj prefix_sc false) [FromWords [[1; 3]]; FromWords [[3; 5]]] empty_book = Some b /\
    map (fun km => (fst km, m_legacy (snd km))) (by_atoms b) = [([[3; 5]], "pABA(00|00)"); ([[1; 3]], "pABA(00|00)")] /\
    option_map m_key (find_name "pABA(00|00)" (by_name b)) = Some [[3; 5]].
Proof. eexists. split; [vm_compute; reflexivity|]. split; vm_compute; reflexivity. Qed.
