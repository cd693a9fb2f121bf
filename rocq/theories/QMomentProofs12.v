(** The names of the code are a good naming of the moments of a relaxation. *)
From Coq Require Import Permutation QArith Qcanon List Arith Bool Lia Sorted String Ascii.
From Verif Require Import CanonModel CanonSpec MomentModel MomentSpec OrbitModel ScenarioModel ScenarioSpec SymModel SymSpec KnowModel KnowSpec FactorModel FactorSpec
  MargModel QcSum QcArith ColumnModel ColumnSpec MemoModel MemoSpec NormModel NormSpec NameModel NameSpec ProgramModel ProgramSpec ProgramProofs ProgramProofs2 ProgramProofs3 LPMomentModel QuantumSpec QuantumProofs QInflationSpec SDPMomentModel SDPRunSpec SoundProofs QMomentProofs QMomentProofs2 QMomentProofs3 QMomentProofs4 QMomentProofs5 QMomentProofs6 QMomentProofs7 QMomentProofs8 QMomentProofs9.
From Verif Require NameProofs4 NameProofs6 NameProofs7 MemoProofs PropName.
Import ListNotations.
Close Scope Q_scope. Close Scope Qc_scope. Open Scope string_scope. Open Scope nat_scope. Open Scope list_scope.

(** ** Moments from atoms *)
Lemma insert_sorted x l : StronglySorted le l -> StronglySorted le (insert_atom x l).
Proof.
  induction 1 as [|y l H IH F]; cbn [insert_atom]; [repeat constructor|]. destruct (x <=? y) eqn:E.
  - apply Nat.leb_le in E. constructor; [constructor; assumption|]. constructor; [exact E|]. rewrite Forall_forall in *. intros z Hz. specialize (F z Hz). lia.
  - apply Nat.leb_gt in E. constructor; [exact IH|]. rewrite Forall_forall in *. intros z Hz.
    assert (P : Permutation (insert_atom x l) (x :: l)).
    { clear. induction l as [|y l IH]; cbn [insert_atom]; [reflexivity|]. destruct (x <=? y); [reflexivity|]. rewrite IH. apply perm_swap. }
    apply (Permutation_in _ P) in Hz as [<-|Hz]; [lia|exact (F z Hz)].
Qed.
Lemma sort_sorted l : StronglySorted le (sort_atoms l).
Proof. induction l as [|x l IH]; cbn [sort_atoms fold_right]; [constructor|apply insert_sorted, IH]. Qed.
Lemma sorted_unique l : forall l', StronglySorted le l -> StronglySorted le l' -> Permutation l l' -> l = l'.
Proof.
  induction l as [|x l IH]; intros l' A B P; [apply Permutation_nil in P; congruence|].
  destruct l' as [|y l']; [apply Permutation_sym, Permutation_nil in P; discriminate|].
  inversion A as [|? ? A1 A2]; subst. inversion B as [|? ? B1 B2]; subst. rewrite Forall_forall in A2, B2.
  assert (x = y).
  { assert (X : In x (y :: l')) by (eapply Permutation_in; [exact P|left; reflexivity]). assert (Y : In y (x :: l)) by (eapply Permutation_in; [apply Permutation_sym, P|left; reflexivity]).
    destruct X as [X|X]; [congruence|]. destruct Y as [Y|Y]; [congruence|]. specialize (B2 x X). specialize (A2 y Y). lia. }
  subst y. f_equal. apply IH; [assumption|assumption|]. eapply Permutation_cons_inv; exact P.
Qed.
Lemma sort_ext l l' : Permutation l l' -> sort_atoms l = sort_atoms l'.
Proof. intros P. apply sorted_unique; [apply sort_sorted|apply sort_sorted|]. rewrite (sort_atoms_perm l), (sort_atoms_perm l'). exact P. Qed.
Lemma lex_asym a : forall b, ProgramModel.lex_lt a b = true -> ProgramModel.lex_lt b a = false.
Proof.
  induction a as [|x a IH]; intros [|y b]; cbn [ProgramModel.lex_lt]; try discriminate; try reflexivity.
  destruct (x <? y) eqn:E1; destruct (y <? x) eqn:E2; try (apply Nat.ltb_lt in E1); try (apply Nat.ltb_lt in E2); try lia; try discriminate; try reflexivity.
  apply IH.
Qed.
Lemma lex_total a : forall b, ProgramModel.lex_lt a b = false -> ProgramModel.lex_lt b a = false -> a = b.
Proof.
  induction a as [|x a IH]; intros [|y b]; cbn [ProgramModel.lex_lt]; try discriminate; try reflexivity.
  destruct (x <? y) eqn:E1; [discriminate|]. destruct (y <? x) eqn:E2; [discriminate|]. apply Nat.ltb_ge in E1, E2. intros A B. assert (x = y) by lia. subst. f_equal. exact (IH b A B).
Qed.
Definition min_lex (a b : list nat) : list nat := if ProgramModel.lex_lt b a then b else a.
Lemma min_lex_comm a b : min_lex a b = min_lex b a.
Proof.
  unfold min_lex. destruct (ProgramModel.lex_lt b a) eqn:E1; destruct (ProgramModel.lex_lt a b) eqn:E2; try reflexivity; [rewrite (lex_asym _ _ E1) in E2; discriminate|exact (lex_total _ _ E2 E1)].
Qed.
Section Atoms.
Variables (c : context) (D : dagger_involutive c).
(** lists without zero and one *)
Definition clean_list (l : list nat) : Prop := forall a, In a l -> ProgramModel.is_zero c a = false /\ is_one c a = false.
Lemma from_clean l : clean_list l -> ProgramModel.monomial_from_atoms c l = min_lex (sort_atoms l) (sort_atoms (map (ProgramModel.dagger c) l)).
Proof.
  intros H. unfold ProgramModel.monomial_from_atoms.
  assert (F : find (ProgramModel.is_zero c) l = None).
  { destruct (find _ l) eqn:F; [|reflexivity]. apply find_some in F as [F1 F2]. rewrite (proj1 (H _ F1)) in F2. discriminate. }
  rewrite F. assert (E : filter (fun a => negb (is_one c a)) l = l).
  { clear F. induction l as [|a l IH]; [reflexivity|]. cbn [filter]. rewrite (proj2 (H a (or_introl eq_refl))). cbn [negb]. f_equal. apply IH. intros b Hb. apply H. right. exact Hb. }
  rewrite E. unfold min_lex. rewrite (sort_ext (map (ProgramModel.dagger c) (sort_atoms l)) (map (ProgramModel.dagger c) l)); [reflexivity|apply Permutation_map, sort_atoms_perm].
Qed.
Lemma from_perm l l' : clean_list l -> Permutation l l' -> ProgramModel.monomial_from_atoms c l = ProgramModel.monomial_from_atoms c l'.
Proof.
  intros H P. rewrite (from_clean l H), (from_clean l'); [|intros a Ha; apply H; exact (Permutation_in _ (Permutation_sym P) Ha)].
  rewrite (sort_ext l l' P), (sort_ext _ _ (Permutation_map (ProgramModel.dagger c) P)). reflexivity.
Qed.
Lemma from_dagger l : clean_list l -> clean_list (map (ProgramModel.dagger c) l) -> ProgramModel.monomial_from_atoms c (map (ProgramModel.dagger c) l) = ProgramModel.monomial_from_atoms c l.
Proof.
  intros H H'. rewrite (from_clean l H), (from_clean _ H'). rewrite map_map. rewrite (map_ext (fun a => ProgramModel.dagger c (ProgramModel.dagger c a)) (fun a => a)) by (intros a; apply D). rewrite map_id. apply min_lex_comm.
Qed.
Lemma from_cases l : clean_list l -> Permutation (ProgramModel.monomial_from_atoms c l) l \/ Permutation (ProgramModel.monomial_from_atoms c l) (map (ProgramModel.dagger c) l).
Proof. intros H. rewrite (from_clean l H). unfold min_lex. destruct (ProgramModel.lex_lt _ _); [right|left]; apply sort_atoms_perm. Qed.
End Atoms.
Lemma nth_perm (atoms : list word) l l' : NoDup atoms -> (forall a, In a l -> a < List.length atoms) -> (forall a, In a l' -> a < List.length atoms) ->
  Permutation (map (fun a => nth a atoms []) l) (map (fun a => nth a atoms []) l') -> Permutation l l'.
Proof.
  intros ND B B' P. apply Permutation_sym in P. apply Permutation_map_inv in P as (l3 & E & P).
  assert (l3 = l').
  { assert (B3 : forall a, In a l3 -> a < List.length atoms) by (intros a Ha; apply B; exact (Permutation_in _ (Permutation_sym P) Ha)).
    clear P B l. revert l' B' E. induction l3 as [|x l3 IH]; intros [|y l'] B' E; try discriminate; [reflexivity|]. cbn [map] in E.
    assert (E1 : nth x atoms [] = nth y atoms []) by congruence. assert (E2 : map (fun a => nth a atoms []) l' = map (fun a => nth a atoms []) l3) by congruence.
    f_equal; [|apply IH; [intros a Ha; apply B3; right; exact Ha|intros a Ha; apply B'; right; exact Ha|exact E2]].
    apply (proj1 (NoDup_nth (A := word) atoms []) ND); [apply B3; left; reflexivity|apply B'; left; reflexivity|exact E1]. }
  subst l3. exact P.
Qed.
(** texts that begin with P, <, 0 or 1 *)
Lemma concat_first a l s : String.concat s (a :: l) = match l with [] => a | _ => (a ++ s ++ String.concat s l)%string end.
Proof. destruct l; reflexivity. Qed.
Section Names.
Variables (sc : scenario) (W : wf_scenario sc) (names : list string) (GN : good_names sc names).
Lemma named_plain w t : atom_word sc w -> NameProofs4.named sc names w t -> exists ch u, t = String ch u /\ (ch = "P"%char \/ ch = "<"%char).
Proof.
  intros A N. destruct (NameProofs4.named_form sc names W GN w t A N) as (cl & inc & -> & _). unfold brackets. destruct (is_all_commuting sc w); eexists _, _; (split; [reflexivity|auto]).
Qed.
Variables (conj : word -> word) (CJ : conjugates sc conj).
Lemma good_plain m : NameProofs7.good_moment sc names conj m -> plain_name (NameModel.m_name m).
Proof.
  intros [->|(fl & G & _ & -> & _)]; [split; discriminate|]. destruct (m_factors m) as [|a l] eqn:E; [split; discriminate|].
  unfold name_from_atom_names. cbn [map]. destruct (counter (a_name a :: map a_name l)) as [|[k n] d] eqn:EC.
  { apply NameProofs6.counter_nil in EC. discriminate. }
  assert (Hk : In k (a_name a :: map a_name l)) by (apply (NameProofs6.counter_in (a_name a :: map a_name l) k n); rewrite EC; left; reflexivity).
  assert (Q : exists b, In b (a :: l) /\ a_name b = k) by (change (In k (map a_name (a :: l))) in Hk; apply in_map_iff in Hk as (b & Eb & Hb); eauto).
  destruct Q as (b & Hb & <-). unfold NameProofs7.good_list in G. rewrite Forall_forall in G. destruct (G b Hb) as (A & N & _).
  destruct (named_plain _ _ A N) as (ch & u & Eu & Hch). cbn [map]. rewrite concat_first. unfold power_text. cbn [fst snd]. rewrite Eu.
  assert (ch <> "c"%char /\ ch <> "l"%char) by (destruct Hch as [-> | ->]; split; discriminate).
  destruct (map _ d); cbn; assumption.
Qed.
Lemma same_key m1 m2 : NameProofs7.good_moment sc names conj m1 -> NameProofs7.good_moment sc names conj m2 -> NameModel.m_name m1 = NameModel.m_name m2 -> m_key m1 = m_key m2.
Proof.
  intros G1 G2 N. destruct G1 as [G1|(fl1 & G1 & K1 & En1 & El1)].
  { subst m1. rewrite (NameProofs7.zero_only sc names conj W GN CJ m2 (NameModel.m_name m2) G2 (or_introl eq_refl)); [reflexivity|symmetry; exact N]. }
  destruct G2 as [G2|(fl2 & G2 & K2 & En2 & El2)].
  { subst m2. assert (G1' : NameProofs7.good_moment sc names conj m1) by (right; eauto). rewrite (NameProofs7.zero_only sc names conj W GN CJ m1 (NameModel.m_name m1) G1' (or_introl eq_refl)); [reflexivity|exact N]. }
  rewrite En1, En2 in N. apply (NameProofs7.same_name sc names conj W GN fl1 fl2) in N; [|assumption|assumption]. apply (NameProofs6.K_perm conj) in N. fold (m_key m1) (m_key m2) in N. congruence.
Qed.
End Names.

Section Generated.
Variables (sc : scenario) (W : wf_scenario sc) (FC : few_copies sc) (Hout : forall o, In o (outcomes sc) -> 1 <= o).
Notation n := (List.length (lexorder sc)).
Notation nc := (sdp_notcomm sc).
Notation ortho := (sdp_orthomat sc).
Notation oc := (operators_commute sc).
Notation conj := (code_conj sc oc).
Variables (cols : list word) (GC : good_columns nc ortho (S n) cols).
Context {sup : bool}.
Variables (hc : list bool) (r : SDPMomentModel.relaxation) (GE : SDPMomentModel.generate sc hc sup cols = Some r).
Notation atoms := (SDPMomentModel.r_atoms r).
Notation c := (SDPMomentModel.r_context r).
Notation words := (map (fun a => nth a atoms [])).

Record facts : Prop := {
  f_nodup : NoDup atoms;
  f_atoms : forall w, In w atoms -> w = [0] \/ atom_word sc w;
  f_zero : In [0] atoms;
  f_dagger : forall a, a < List.length atoms -> ProgramModel.dagger c a < List.length atoms /\ nth (ProgramModel.dagger c a) atoms [] = conjugate sc (nth a atoms []);
  f_iszero : forall a, ProgramModel.is_zero c a = NameModel.is_zero (nth a atoms []);
  f_isone : forall a, a < List.length atoms -> is_one c a = false;
  f_twice : dagger_involutive c }.
Lemma the_facts : facts.
Proof.
  destruct (parts sc W FC cols GC hc sup r GE) as (ob & co & lists & eqs & EM & HL & F & EA & _). destruct (generate_is sc cols hc sup r GE) as (_ & _ & _ & _ & _ & _ & _ & _ & _ & _ & _ & _ & _ & _ & ED & EZ & E1 & _).
  constructor.
  - rewrite EA. apply atoms_nodup.
  - intros w. rewrite EA. apply (atoms_are sc W _ HL).
  - rewrite EA. apply atoms_in. left. reflexivity.
  - intros a Ha. rewrite ED. assert (Q := dagger_in sc W (map snd lists) HL a). rewrite <- EA in Q. destruct (Q Ha) as (_ & Q2 & Q3). auto.
  - intros a. rewrite EZ. reflexivity.
  - apply (atoms_not_one sc W FC cols GC hc r GE).
  - exact (dagger_ok sc W FC cols GC hc sup r GE).
Qed.
Lemma conj_word w : In w atoms -> conjugate sc w = conj w.
Proof.
  intros Hw. destruct (f_atoms the_facts w Hw) as [->|A]; [|apply (conjugate_atom sc W w A)].
  rewrite conjugate_zero. symmetry. apply (NameProofs7.conj_zero sc conj W (conj_ok sc W)).
Qed.
Lemma is_zero_word a : a < List.length atoms -> ProgramModel.is_zero c a = true <-> nth a atoms [] = [0].
Proof.
  intros Ha. rewrite (f_iszero the_facts). assert (I : In (nth a atoms []) atoms) by (apply (nth_In (A := word)), Ha).
  destruct (f_atoms the_facts _ I) as [E|A]; [rewrite E; split; reflexivity|].
  assert (Z := NameProofs4.not_zero sc _ (NameProofs4.atom_letters sc _ A)). rewrite Z. split; [discriminate|]. intros E. rewrite E in Z. discriminate Z.
Qed.
Lemma words_dagger l : (forall a, In a l -> a < List.length atoms) -> words (map (ProgramModel.dagger c) l) = map conj (words l).
Proof.
  intros B. rewrite !map_map. apply map_ext_in. intros a Ha. destruct (f_dagger the_facts a (B a Ha)) as [_ E].
  exact (eq_trans E (conj_word _ (nth_In (A := word) atoms [] (B a Ha)))).
Qed.
Lemma dagger_zero a : a < List.length atoms -> ProgramModel.is_zero c (ProgramModel.dagger c a) = ProgramModel.is_zero c a.
Proof.
  assert (X : forall a, a < List.length atoms -> ProgramModel.is_zero c a = true -> ProgramModel.is_zero c (ProgramModel.dagger c a) = true).
  { intros b Hb Z. destruct (f_dagger the_facts b Hb) as [Hd E]. apply (is_zero_word _ Hd). apply (is_zero_word _ Hb) in Z. exact (eq_trans E (eq_trans (f_equal (conjugate sc) Z) (conjugate_zero sc))). }
  intros Ha. destruct (f_dagger the_facts a Ha) as [Hd _]. destruct (ProgramModel.is_zero c a) eqn:Z; [exact (X a Ha Z)|].
  destruct (ProgramModel.is_zero c (ProgramModel.dagger c a)) eqn:Z'; [|reflexivity]. apply (X _ Hd) in Z'. rewrite (f_twice the_facts a) in Z'. congruence.
Qed.
(** a proper moment is zero or free of zero and its own normal form *)
Lemma proper_cases m : proper_moment r m -> (exists z, z < List.length atoms /\ nth z atoms [] = [0] /\ m = [z]) \/
  (clean_list c m /\ clean_list c (map (ProgramModel.dagger c) m) /\ ProgramModel.monomial_from_atoms c m = m).
Proof.
  intros (l & B & ->). destruct (find (ProgramModel.is_zero c) l) as [z|] eqn:F.
  - left. exists z. assert (F' := find_some _ _ F). destruct F' as [Hz Zz]. assert (Bz := B z Hz). apply (is_zero_word z Bz) in Zz as Ez. split; [exact Bz|]. split; [exact Ez|].
    assert (Dz : ProgramModel.dagger c z = z).
    { destruct (f_dagger the_facts z Bz) as [Bd Ed]. apply (proj1 (NoDup_nth (A := word) atoms []) (f_nodup the_facts)); [exact Bd|exact Bz|]. 
      exact (eq_trans Ed (eq_trans (f_equal (conjugate sc) Ez) (eq_trans (conjugate_zero sc) (eq_sym Ez)))). }
    unfold ProgramModel.monomial_from_atoms. rewrite F. cbn [sort_atoms fold_right insert_atom map]. rewrite Dz. destruct (ProgramModel.lex_lt [z] [z]); reflexivity.
  - right. assert (CL : clean_list c l).
    { intros a Ha. split; [|apply (f_isone the_facts), B, Ha]. exact (find_none _ _ F a Ha). }
    assert (CD : clean_list c (map (ProgramModel.dagger c) l)).
    { intros a Ha. apply in_map_iff in Ha as (b & <- & Hb). split; [rewrite dagger_zero by (apply B, Hb); apply CL, Hb|]. apply (f_isone the_facts). apply (f_dagger the_facts), B, Hb. }
    assert (TW : map (ProgramModel.dagger c) (map (ProgramModel.dagger c) l) = l).
    { rewrite map_map. rewrite (map_ext (fun a => ProgramModel.dagger c (ProgramModel.dagger c a)) (fun a => a)) by (intros a; apply (f_twice the_facts)). apply map_id. }
    assert (CP : forall l1 l2, Permutation l1 l2 -> clean_list c l2 -> clean_list c l1) by (intros l1 l2 P H a Ha; apply H; exact (Permutation_in _ P Ha)).
    destruct (from_cases c l CL) as [P|P].
    + assert (CM := CP _ _ P CL). split; [exact CM|]. split; [exact (CP _ _ (Permutation_map (ProgramModel.dagger c) P) CD)|]. exact (from_perm c _ _ CM P).
    + assert (CM := CP _ _ P CD). split; [exact CM|]. split; [apply (CP _ _ (Permutation_map (ProgramModel.dagger c) P)); rewrite TW; exact CL|].
      rewrite (from_perm c _ _ CM P). exact (from_dagger c (f_twice the_facts) l CL CD).
Qed.
Lemma words_usable m : proper_moment r m -> forall w, In w (words m) -> usable sc w.
Proof.
  intros P w Hw. apply in_map_iff in Hw as (a & <- & Ha). apply (proper_range sc W FC cols GC hc r GE m P) in Ha.
  destruct (f_atoms the_facts _ (nth_In (A := word) atoms [] Ha)) as [E|A]; [right; left; exact E|left; exact A].
Qed.
(** the key determines a proper moment *)
Lemma key_zero m : proper_moment r m -> (existsb (fun w => MemoModel.word_eqb w [0]) (words m) = true <-> exists z, z < List.length atoms /\ nth z atoms [] = [0] /\ m = [z]).
Proof.
  intros P. split.
  - intros E. destruct (proper_cases m P) as [Z|(CM & _)]; [exact Z|exfalso]. apply existsb_exists in E as (w & Hw & E). apply MemoProofs.word_eqb_true in E. subst w.
    apply in_map_iff in Hw as (a & E & Ha). assert (Q := proj1 (CM a Ha)). apply (proper_range sc W FC cols GC hc r GE m P) in Ha. rewrite (proj2 (is_zero_word a Ha) E) in Q. discriminate.
  - intros (z & _ & E & ->). cbn [map existsb]. replace (MemoModel.word_eqb (nth z atoms []) [0]) with true; [reflexivity|]. symmetry. rewrite <- (MemoProofs.word_eqb_refl [0]). f_equal. exact E.
Qed.
Lemma words_nonempty m : proper_moment r m -> filter (fun w => negb (MemoModel.word_eqb w [])) (words m) = words m.
Proof.
  intros P. assert (H : forall w, In w (words m) -> MemoModel.word_eqb w [] = false).
  { intros w Hw. apply in_map_iff in Hw as (a & <- & Ha). apply (proper_range sc W FC cols GC hc r GE m P) in Ha. destruct (f_atoms the_facts _ (nth_In (A := word) atoms [] Ha)) as [E|A].
    - rewrite <- (eq_refl : MemoModel.word_eqb [0] [] = false). f_equal. exact E.
    - destruct (MemoModel.word_eqb _ []) eqn:Q; [|reflexivity]. apply MemoProofs.word_eqb_true in Q. destruct A as (A & _). contradiction. }
  revert H. generalize (words m). intros l. induction l as [|w l IH]; intros H; [reflexivity|]. cbn [filter]. rewrite (H w (or_introl eq_refl)). cbn [negb]. f_equal. apply IH. intros v Hv. apply H. right. exact Hv.
Qed.
Lemma key_moment m m' : proper_moment r m -> proper_moment r m' -> NameProofs7.key_of conj (words m) = NameProofs7.key_of conj (words m') -> m = m'.
Proof.
  intros P P' E. assert (B := proper_range sc W FC cols GC hc r GE m P). assert (B' := proper_range sc W FC cols GC hc r GE m' P').
  assert (Z := key_zero m P). assert (Z' := key_zero m' P').
  assert (NK : forall m0, proper_moment r m0 -> existsb (fun w => MemoModel.word_eqb w [0]) (words m0) = false -> NameProofs6.K conj (words m0) <> [[0]]).
  { intros m0 P0 X Q. assert (I : In [0] (NameProofs6.K conj (words m0))) by (rewrite Q; left; reflexivity).
    assert (B0 := proper_range sc W FC cols GC hc r GE m0 P0).
    assert (I2 : exists a, In a m0 /\ nth a atoms [] = [0]).
    { destruct (NameProofs6.K_cases conj (words m0)) as [R|R]; apply (Permutation_in _ (Permutation_sym R)) in I.
      - apply in_map_iff in I as (a & Ea & Ha). eauto.
      - rewrite <- (words_dagger m0 B0) in I. rewrite map_map in I. apply in_map_iff in I as (a & Ea & Ha). exists a. split; [exact Ha|].
        destruct (f_dagger the_facts a (B0 a Ha)) as [Bd _]. apply (is_zero_word _ (B0 a Ha)). rewrite <- (dagger_zero a (B0 a Ha)). apply (is_zero_word _ Bd). exact Ea. }
    destruct I2 as (a & Ha & Ea). assert (existsb (fun w => MemoModel.word_eqb w [0]) (words m0) = true); [|congruence].
    apply existsb_exists. exists [0]. split; [|apply MemoProofs.word_eqb_refl]. apply in_map_iff. exists a. auto. }
  unfold NameProofs7.key_of in E. rewrite (words_nonempty m P), (words_nonempty m' P') in E.
  destruct (existsb _ (words m)) eqn:X; destruct (existsb _ (words m')) eqn:X'.
  - destruct (proj1 Z eq_refl) as (z & Bz & Ez & ->). destruct (proj1 Z' eq_refl) as (z' & Bz' & Ez' & ->). f_equal.
    apply (proj1 (NoDup_nth (A := word) atoms []) (f_nodup the_facts)); [exact Bz|exact Bz'|exact (eq_trans Ez (eq_sym Ez'))].
  - exfalso. exact (NK m' P' X' (eq_sym E)).
  - exfalso. exact (NK m P X E).
  - destruct (proper_cases m P) as [C|(CM & CD & EM)]; [apply Z in C; congruence|]. destruct (proper_cases m' P') as [C|(CM' & CD' & EM')]; [apply Z' in C; congruence|].
    assert (BD : forall x, proper_moment r x -> forall a, In a (map (ProgramModel.dagger c) x) -> a < List.length atoms).
    { intros x Px a Ha. apply in_map_iff in Ha as (b & <- & Hb). apply (f_dagger the_facts), (proper_range sc W FC cols GC hc r GE x Px), Hb. }
    assert (K1 := NameProofs6.K_cases conj (words m)). assert (K2 := NameProofs6.K_cases conj (words m')). rewrite <- E in K2. rewrite <- (words_dagger m B) in K1. rewrite <- (words_dagger m' B') in K2.
    assert (ND := f_nodup the_facts). rewrite <- EM, <- EM'. destruct K1 as [K1|K1], K2 as [K2|K2]; assert (Q := Permutation_trans K1 (Permutation_sym K2)).
    + exact (from_perm c _ _ CM (nth_perm atoms _ _ ND B B' Q)).
    + rewrite <- (from_dagger c (f_twice the_facts) m' CM' CD'). exact (from_perm c _ _ CM (nth_perm atoms _ _ ND B (BD m' P') Q)).
    + rewrite <- (from_dagger c (f_twice the_facts) m CM CD). exact (from_perm c _ _ CD (nth_perm atoms _ _ ND (BD m P) B' Q)).
    + rewrite <- (from_dagger c (f_twice the_facts) m CM CD), <- (from_dagger c (f_twice the_facts) m' CM' CD'). exact (from_perm c _ _ CD (nth_perm atoms _ _ ND (BD m P) (BD m' P') Q)).
Qed.
Theorem code_names_good names h b : good_names sc names -> Forall (PropName.proper_step sc) h -> do_steps sc names conj h empty_book = Some b ->
  good_naming r (code_name sc names r b).
Proof.
  intros GN Hh Hb. assert (CJ := conj_ok sc W).
  destruct (NameProofs7.do_steps_inv sc names conj W GN CJ h empty_book b (NameProofs7.inv_empty _ _ _) Hh Hb) as [I _].
  assert (X : forall m, proper_moment r m -> exists x, code_name sc names r b m = NameModel.m_name x /\ NameProofs7.good_moment sc names conj x /\ m_key x = NameProofs7.key_of conj (words m)).
  { intros m P. destruct (NameProofs7.from_words_good sc names conj W GN CJ (words m) b I (words_usable m P)) as (x & b1 & E1 & I1 & K1 & _).
    exists x. unfold code_name. rewrite E1. split; [reflexivity|]. destruct (NameProofs7.iv_good _ _ _ _ I1 _ _ K1) as [Ek G]. auto. }
  constructor.
  - intros m m' P P' E. destruct (X m P) as (x & Ex & Gx & Kx). destruct (X m' P') as (x' & Ex' & Gx' & Kx'). rewrite Ex, Ex' in E.
    apply (key_moment m m' P P'). rewrite <- Kx, <- Kx'. exact (same_key sc W names GN conj CJ x x' Gx Gx' E).
  - intros m P. destruct (X m P) as (x & -> & Gx & _). exact (good_plain sc W names GN conj x Gx).
Qed.
End Generated.
