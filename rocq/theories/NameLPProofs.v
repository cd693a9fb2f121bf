(** Names of atoms of linear programmes: words, forms of names. *)
From Coq Require Import List Arith Bool Ascii String Lia Permutation Sorted.
From Verif Require Import CanonModel CanonSpec CanonProofs ScenarioModel ScenarioSpec ScenarioProofs SymModel SymSpec SymProofs ColumnModel ColsModel MemoModel MemoSpec KnowModel KnowSpec KnowProofs ProgramModel NameModel NameSpec NameProofs NameProofs2 NameProofs3 NameProofs4 NameProofs5 NameProofs6 NameProofs7 NameLPModel NameLPSpec.
Import ListNotations.
Open Scope string_scope. Open Scope nat_scope. Open Scope list_scope.

(** ** Increasing lists are first among their permutations *)
Lemma lex_le_refl w : lex_le w w.
Proof. induction w; constructor; assumption. Qed.
Lemma lex_le_trans a b c : lex_le a b -> lex_le b c -> lex_le a c.
Proof.
  intros H. revert c. induction H as [w|x y u v L|x u v H IH]; intros c Hc; [constructor| |].
  - inversion Hc; subst; constructor; lia.
  - inversion Hc; subst; [constructor; lia|]. apply ll_eq. apply IH. assumption.
Qed.
Lemma sorted_first l1 : forall l2, StronglySorted lt l1 -> Permutation l1 l2 -> lex_le l1 l2.
Proof.
  induction l1 as [|a l1 IH]; intros l2 S1 P; [constructor|]. destruct l2 as [|b l2]; [apply Permutation_sym, Permutation_nil in P; discriminate|].
  inversion S1 as [|? ? S2 F]; subst. rewrite Forall_forall in F.
  assert (Hb : In b (a :: l1)) by (apply (Permutation_in _ (Permutation_sym P)); left; reflexivity).
  destruct Hb as [->|Hb]; [|constructor; apply F, Hb]. apply ll_eq. apply IH; [exact S2|]. exact (Permutation_cons_inv P).
Qed.
Lemma lex_le_S a b : lex_le a b -> lex_le (map S a) (map S b).
Proof. induction 1; cbn [map]; constructor; [lia|assumption]. Qed.

Lemma nodup_map_in {A B} (f : A -> B) l : (forall a b, In a l -> In b l -> f a = f b -> a = b) -> NoDup l -> NoDup (map f l).
Proof.
  intros H N. induction N as [|a l Ha N IH]; cbn [map]; constructor.
  - intros K. apply in_map_iff in K as (b & E & Hb). apply Ha. rewrite <- (H b a (or_intror Hb) (or_introl eq_refl) E). exact Hb.
  - apply IH. intros b c Hb Hc. apply H; right; assumption.
Qed.
Lemma filter_seq_SS f m : forall a, StronglySorted lt (filter f (seq a m)).
Proof.
  induction m as [|m IH]; intros a; [constructor|]. cbn [seq filter]. destruct (f a); [|apply IH]. constructor; [apply IH|].
  apply Forall_forall. intros k Hk. apply filter_In in Hk as [Hk _]. apply in_seq in Hk. lia.
Qed.

Section Forms.
Variables (sc : scenario) (names : list string).
Hypotheses (W : wf_scenario sc) (GN : good_names sc names).
Notation D := (D sc names).
Notation n := (List.length (lexorder sc)).
Notation syms := (discover_lexorder_symmetries sc).

Lemma lp_rows_of w : lp_rows sc w = rows_of sc (map S w).
Proof. unfold lp_rows, rows_of. rewrite map_map. reflexivity. Qed.
Lemma lp_first w : lp_atom_word sc w -> first_word sc (map S w).
Proof.
  intros (N & Sw & R & M). split; [intros Q; apply map_eq_nil in Q; contradiction|]. split.
  - intros x Hx. apply in_map_iff in Hx as (k & <- & Hk). specialize (R k Hk). lia.
  - intros g' Hg'. unfold sdp_lexorder_symmetries in Hg'. apply in_map_iff in Hg' as (g & <- & Hg).
    assert (PG : Permutation g (seq 0 n)).
    { assert (Hg0 := Hg). apply discover_exact in Hg0 as (sg & Rl & I); [|exact W]. exact (induces_perm sc sg g W Rl I). }
    assert (LG : List.length g = n) by (rewrite (Permutation_length PG), seq_length; reflexivity).
    assert (ND : NoDup g) by (apply (Permutation_NoDup (Permutation_sym PG)), seq_NoDup).
    assert (E : apply_lexsym (0 :: map S g) (map S w) = map S (map (fun j => nth j g 0) w)).
    { unfold apply_lexsym. rewrite !map_map. apply map_ext_in. intros j Hj. cbn [nth]. rewrite (nth_indep _ 0 (S 0)) by (rewrite map_length, LG; apply R, Hj). apply map_nth. }
    rewrite E. apply lex_le_S.
    set (u := map (fun j => nth j g 0) w). set (v := filter (fun k => memb k u) (seq 0 n)).
    assert (IV : forall k, In k v <-> In k u).
    { intros k. unfold v. rewrite filter_In, in_seq, memb_in. split; [tauto|]. intros Hk. split; [|exact Hk]. split; [lia|]. apply in_map_iff in Hk as (j & <- & Hj).
      assert (In (nth j g 0) g) by (apply nth_In; rewrite LG; apply R, Hj). apply (Permutation_in _ PG) in H. apply in_seq in H. lia. }
    assert (SV : StronglySorted lt v).
    { apply filter_seq_SS. }
    apply (lex_le_trans _ v).
    + apply (M g v Hg SV). intros k. rewrite IV. unfold u. rewrite in_map_iff. split; intros (j & A & B); exists j; auto.
    + apply sorted_first; [exact SV|]. apply NoDup_Permutation.
      * unfold v. apply NoDup_filter, seq_NoDup.
      * unfold u. apply nodup_map_in.
        -- intros a b Ha Hb Q. apply (proj1 (NoDup_nth g 0) ND); [rewrite LG; apply R, Ha|rewrite LG; apply R, Hb|exact Q].
        -- clear - Sw. induction Sw as [|a l S1 IH F]; constructor; [|exact IH]. intros H. rewrite Forall_forall in F. specialize (F a H). lia.
      * exact IV.
Qed.
Lemma lp_letters w : lp_atom_word sc w -> letters sc (map S w).
Proof. intros A. apply (first_letters sc). exact (lp_first w A). Qed.
Lemma lp_dicts_of w : lp_atom_word sc w -> lp_dicts sc names w = Some (map D (map S w)).
Proof. intros A. unfold lp_dicts. rewrite lp_rows_of. exact (dicts_of_letters sc names W GN _ (lp_letters w A)). Qed.
Lemma S_inj a : forall b, map S a = map S b -> a = b.
Proof. induction a as [|x a IH]; intros [|y b] E; try discriminate E; [reflexivity|]. injection E as E1 E2. f_equal; auto. Qed.

Definition lp_form (w : word) (t : string) : Prop :=
  exists cl inc, t = brackets true (map (inner sc names cl inc (map S w)) (map S w)) /\
   (inc = true -> cl = false) /\ (inc = false -> one_copy_per_source (rows_of sc (map S w))).
Lemma lp_named w t : lp_atom_word sc w -> lp_atom_name sc names w = Some t -> lp_form w t.
Proof.
  intros A. assert (H := lp_letters w A). unfold lp_atom_name. destruct w as [|x w0] eqn:Ew; [destruct A; contradiction|]. rewrite <- Ew in *.
  rewrite (lp_dicts_of w A), lp_rows_of. intros E. injection E as <-. destruct (nb_is_do_conditional (nr_sources sc) (rows_of sc (map S w))) eqn:DC.
  - exists true, false. split; [|split; [discriminate|]].
    + f_equal. rewrite map_map. reflexivity.
    + intros _. apply (do_conditional_spec sc _ W (rows_of_valid sc names W GN _ H)). exact DC.
  - exists false, (any_inflation sc). split; [f_equal; rewrite map_map; reflexivity|]. split; [reflexivity|]. apply (no_inflation_one_copy sc names W GN), H.
Qed.
Lemma lp_knowable_spec w : lp_atom_word sc w -> exists b, lp_is_knowable sc w = Some b /\
  (b = true -> one_operator_per_party (lp_rows sc w) /\ one_copy_per_source (lp_rows sc w) /\ parents_agree sc (lp_rows sc w)).
Proof.
  intros A. assert (H := lp_letters w A). unfold lp_is_knowable. destruct w as [|x w0] eqn:Ew; [destruct A; contradiction|]. rewrite <- Ew in *.
  rewrite lp_rows_of. assert (V := rows_of_valid sc names W GN _ H).
  destruct (nb_is_do_conditional (nr_sources sc) (rows_of sc (map S w))); [|exists false; split; [reflexivity|discriminate]].
  unfold atomic_knowable_q. destruct (nb_is_knowable (nr_sources sc) (rows_of sc (map S w))) eqn:K; cbn [negb]; [|exists false; split; [reflexivity|discriminate]].
  apply (nb_is_knowable_spec sc _ V) in K as [K1 K2].
  destruct (is_network sc) eqn:N.
  - exists true. split; [reflexivity|]. intros _. split; [exact K1|]. split; [exact K2|]. apply network_parents_agree; assumption.
  - destruct (non_networks_spec sc _ V K1) as (b & E & B). exists b. split; [exact E|]. intros Hb. split; [exact K1|]. split; [exact K2|]. apply B, Hb.
Qed.
Lemma lp_legacy_form w : lp_atom_word sc w -> exists t, lp_legacy_name sc names w = Some t /\ (known_form sc names (map S w) t \/ old_form sc names (map S w) t).
Proof.
  intros A. assert (H := lp_letters w A). destruct (lp_knowable_spec w A) as (b & K & B). unfold lp_legacy_name. assert (NE : map S w <> []) by apply (lp_first w A).
  destruct w as [|x w0] eqn:Ew; [destruct A; contradiction|]. rewrite <- Ew in *. rewrite K, lp_rows_of in *. destruct b.
  - destruct (PropKnow.C15_private_setting sc (rows_of sc (map S w)) W (rows_in sc names W GN _ H)) as (rect & E & F). rewrite E. eexists. split; [reflexivity|]. left. exists rect.
    split; [unfold known_text; rewrite !map_map; reflexivity|]. split; [exact E|].
    split; [intros ->; inversion F as [Q1|]; symmetry in Q1; apply map_eq_nil in Q1; contradiction|]. split; [|apply B; reflexivity].
    intros r Hr. clear - F Hr W GN H. assert (V := rows_of_valid sc names W GN _ H). revert V. generalize dependent (rows_of sc (map S w)). intros l F V. clear H. induction F as [|a r0 l m Q F IH]; [destruct Hr|]. destruct Hr as [->|Hr].
    + destruct Q as (p & c & s & o & x & os & -> & _ & _ & ->). split; [reflexivity|]. cbn [nth]. destruct (V _ (or_introl eq_refl)) as (p' & c' & s' & o' & E & Vo). apply mkrow_inj in E as (E & _). destruct Vo as (Vo & _). lia.
    + apply IH; [exact Hr|]. intros r' Hr'. apply V. right. exact Hr'.
  - rewrite (lp_dicts_of w A). eexists. split; [reflexivity|]. right. unfold old_form. rewrite map_map. reflexivity.
Qed.
Lemma lp_atom_total w : lp_atom_word sc w -> exists a, lp_new_atom sc names w = Some a /\ a_word a = w /\ lp_form w (a_name a) /\ (known_form sc names (map S w) (a_legacy a) \/ old_form sc names (map S w) (a_legacy a)).
Proof.
  intros A. destruct (lp_legacy_form w A) as (l & L & F). unfold lp_new_atom.
  assert (N : exists t, lp_atom_name sc names w = Some t).
  { unfold lp_atom_name. destruct w as [|x w0] eqn:Ew; [eauto|]. rewrite <- Ew in *. rewrite (lp_dicts_of w A). eauto. }
  destruct N as (t & N). rewrite N, L. eexists. split; [reflexivity|]. split; [reflexivity|]. cbn [a_name a_legacy]. split; [exact (lp_named w t A N)|exact F].
Qed.
Lemma lp_name_inj w1 w2 t : lp_atom_word sc w1 -> lp_atom_word sc w2 -> lp_form w1 t -> lp_form w2 t -> w1 = w2.
Proof.
  intros A1 A2 (cl1 & inc1 & E1 & C1 & O1) (cl2 & inc2 & E2 & C2 & O2). apply S_inj. rewrite E1 in E2.
  exact (forms_inj sc names W GN true true cl1 inc1 cl2 inc2 _ _ (lp_first w1 A1) (lp_first w2 A2) C1 O1 C2 O2 E2).
Qed.
Lemma lp_legacy_inj w1 w2 t : prefix_free names -> lp_atom_word sc w1 -> lp_atom_word sc w2 ->
  known_form sc names (map S w1) t \/ old_form sc names (map S w1) t -> known_form sc names (map S w2) t \/ old_form sc names (map S w2) t -> w1 = w2.
Proof.
  intros PF A1 A2 E1 E2. apply S_inj. exact (legacy_forms_inj sc names W GN PF _ _ t (lp_first w1 A1) (lp_first w2 A2) E1 E2).
Qed.

(** ** Atoms *)
Definition good_lp (a : atom) : Prop := lp_atom_word sc (a_word a) /\ lp_new_atom sc names (a_word a) = Some a.
Lemma good_lp_forms a : good_lp a -> lp_form (a_word a) (a_name a) /\ (known_form sc names (map S (a_word a)) (a_legacy a) \/ old_form sc names (map S (a_word a)) (a_legacy a)).
Proof. intros (A & E). destruct (lp_atom_total _ A) as (a' & E' & _ & F). assert (a' = a) by congruence. subst a'. exact F. Qed.
Lemma good_lp_same a b : good_lp a -> good_lp b -> a_word a = a_word b -> a = b.
Proof. intros [_ E1] [_ E2] E. congruence. Qed.
Lemma lp_name_closed a : good_lp a -> closed f_name (a_name a) /\ every no_eq (a_name a) = false.
Proof.
  intros G. destruct (good_lp_forms a G) as [(cl & inc & -> & _) _]. destruct G as [A _]. apply (form_closed sc names W GN); [|apply lp_letters, A]. apply (lp_first _ A).
Qed.
Lemma lp_legacy_closed a : good_lp a -> closed f_legacy (a_legacy a) /\ every no_eq (a_legacy a) = true.
Proof. intros G. destruct (good_lp_forms a G) as [_ F]. destruct G as [A _]. exact (form_legacy_closed sc names W GN _ _ (lp_letters _ A) F). Qed.
End Forms.
