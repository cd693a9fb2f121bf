(** The factorisation conditions of a linear programme: they exist, and with them the programme
    describes the behaviours in which events with different source copies are independent. *)
From Coq Require Import List Arith Bool QArith Qcanon Lia Permutation Sorted.
From Verif Require Import CanonModel ScenarioModel ScenarioSpec SymModel SymSpec FactorModel FactorSpec MargModel QcSum LPModel LPSpec LPSpec2 InflatedSpec ProgramModel ProgramSpec ProgramProofs ProgramProofs2 ProgramProofs3 LPSolveModel LPSolveSpec ProgramLP ProgramLPProofs LPMomentModel LPMomentProofs LPMomentProofs2 ColumnsFacts SoundProofs GlueProofs GenerateProofs FactCondModel FactCondSpec FactCondProofs.
From Verif Require UniqueProofs ScenarioProofs SymProofs FactorProofs ColumnProofs2 LPProofs10.
Import ListNotations.
Close Scope Q_scope. Close Scope Qc_scope. Open Scope nat_scope.

(** ** The dictionaries *)
Lemma look_up_some made k : In k made -> look_up made k = Some k.
Proof. intros H. unfold look_up. apply mmem_iff in H. rewrite H. reflexivity. Qed.
Lemma map_opt_pure {A B} (f : A -> option B) (h : A -> B) l : (forall x, In x l -> f x = Some (h x)) -> map_opt f l = Some (map h l).
Proof. induction l as [|a l IH]; intros H; cbn [map_opt map]; [reflexivity|]. rewrite (H a (or_introl eq_refl)), IH by (intros x Hx; apply H; right; exact Hx). reflexivity. Qed.
Lemma match_some (m : moment) (o : option (list moment)) parts : o = Some parts -> match o with Some parts => Some (m, parts) | None => None end = Some (m, parts).
Proof. intros ->. reflexivity. Qed.
Section Dictionaries.
Variables (made cols : list moment).
Hypothesis MADE : incl cols made.
Hypothesis SINGLE : forall m f, In m cols -> In f m -> In [f] cols.
Hypothesis REST : forall m, In m cols -> In (skipn 1 m) cols.
Notation idx m := (index_of m_eqb m cols).
Definition long : list moment := filter (fun m => 1 <? length m) cols.
Lemma long_in m : In m long <-> In m cols /\ 1 < length m.
Proof. unfold long. rewrite filter_In, Nat.ltb_lt. reflexivity. Qed.
Lemma first_in m : In m cols -> 1 < length m -> In (firstn 1 m) cols.
Proof. intros H L. destruct m as [|f m]; [cbn in L; lia|]. cbn [firstn]. apply (SINGLE (f :: m)); [exact H|left; reflexivity]. Qed.
Definition full_parts (m : moment) : list moment := map (fun f => [f]) m.
Definition quad_parts (m : moment) : list moment := [firstn 1 m; skipn 1 m].
Lemma full_is : factorization_conditions made cols = Some (map (fun m => (m, full_parts m)) long).
Proof.
  unfold factorization_conditions. fold long. apply map_opt_pure. intros m Hm. apply long_in in Hm as [Hm L]. unfold condition_of.
  apply match_some, map_opt_pure. intros f Hf. apply look_up_some, MADE, (SINGLE m f Hm Hf).
Qed.
Lemma quad_is : quadratic_factorization_conditions made cols = Some (map (fun m => (m, quad_parts m)) long).
Proof.
  unfold quadratic_factorization_conditions. fold long. apply map_opt_pure. intros m Hm. apply long_in in Hm as [Hm L]. unfold quadratic_condition_of.
  rewrite !look_up_some; [reflexivity|apply MADE, REST, Hm|apply MADE, first_in; assumption].
Qed.
Lemma index_some m : In m cols -> column_index cols m = Some (idx m).
Proof. intros H. unfold column_index. apply mmem_iff in H. rewrite H. reflexivity. Qed.
Lemma sparse_is (parts : moment -> list moment) : (forall m p, In m long -> In p (parts m) -> In p cols) ->
  sparse_conditions cols (map (fun m => (m, parts m)) long) = Some (map (fun m => (idx m, map (fun p => idx p) (parts m))) long).
Proof.
  intros H. assert (L : forall m, In m long -> In m cols) by (intros m Hm; apply long_in in Hm; apply Hm). revert H L. generalize long. intros l H L. unfold sparse_conditions. induction l as [|m l IH]; cbn [map map_opt]; [reflexivity|].
  cbn [fst snd]. rewrite (index_some m (L m (or_introl eq_refl))). unfold parts_extractor. rewrite (map_opt_pure (column_index cols) (fun p => idx p)).
  - assert (IH' := IH (fun m' p Hm' Hp => H m' p (or_intror Hm') Hp) (fun m' Hm' => L m' (or_intror Hm'))). clear IH.
    refine (eq_trans (f_equal (fun o => match o with Some r => Some ((idx m, map (fun p => idx p) (parts m)) :: r) | None => None end) IH') eq_refl).
  - intros p Hp. apply index_some, (H m); [left; reflexivity|exact Hp].
Qed.
Lemma full_in m p : In m long -> In p (full_parts m) -> In p cols.
Proof. intros Hm Hp. apply long_in in Hm as [Hm _]. apply in_map_iff in Hp as (f & <- & Hf). apply (SINGLE m f Hm Hf). Qed.
Lemma quad_in m p : In m long -> In p (quad_parts m) -> In p cols.
Proof. intros Hm Hp. apply long_in in Hm as [Hm L]. destruct Hp as [<-|[<-|[]]]; [apply first_in; assumption|apply REST, Hm]. Qed.
Theorem sparse_full_is : sparse_factorization_conditions made cols = Some (map (fun m => (idx m, map (fun p => idx p) (full_parts m))) long).
Proof. unfold sparse_factorization_conditions. rewrite full_is. apply sparse_is, full_in. Qed.
Theorem sparse_quad_is : sparse_quadratic_factorization_conditions made cols = Some (map (fun m => (idx m, map (fun p => idx p) (quad_parts m))) long).
Proof. unfold sparse_quadratic_factorization_conditions. rewrite quad_is. apply sparse_is, quad_in. Qed.

(** ** What they say *)
Lemma satisfies_iff x parts : satisfies x (map (fun m => (idx m, map (fun p => idx p) (parts m))) long) <->
  forall m, In m cols -> 1 < length m -> x (idx m) = prodQ (map (fun p => x (idx p)) (parts m)).
Proof.
  unfold satisfies. split.
  - intros H m Hm L. assert (K : In m long) by (apply long_in; auto). specialize (H (idx m) (map (fun p => idx p) (parts m))). rewrite map_map in H. apply H.
    apply (in_map (fun m => (idx m, map (fun p => idx p) (parts m)))), K.
  - intros H c ps Hc. apply in_map_iff in Hc as (m & E & Hm). assert (c = idx m) by congruence. assert (ps = map (fun p => idx p) (parts m)) by congruence. subst c ps. rewrite map_map. apply long_in in Hm as [Hm L]. apply (H m Hm L).
Qed.
Lemma prod_one a : prodQ [a] = a. Proof. rewrite prodQ_cons, prodQ_nil. ring. Qed.
Definition value (x : nat -> Qc) (f : nat) : Qc := x (idx [f]).
Lemma full_value x : (forall m, In m cols -> 1 < length m -> x (idx m) = prodQ (map (fun p => x (idx p)) (full_parts m))) <->
  forall m, In m cols -> 0 < length m -> x (idx m) = prodQ (map (value x) m).
Proof.
  split; intros H m Hm L.
  - destruct m as [|f [|f' m]]; [cbn in L; lia| |].
    + cbn [map]. rewrite prod_one. reflexivity.
    + rewrite (H _ Hm) by (cbn; lia). unfold full_parts. rewrite map_map. reflexivity.
  - rewrite (H m Hm) by lia. unfold full_parts. rewrite map_map. reflexivity.
Qed.
Theorem full_quadratic x : (forall m, In m cols -> 1 < length m -> x (idx m) = prodQ (map (fun p => x (idx p)) (full_parts m))) <->
  (forall m, In m cols -> 1 < length m -> x (idx m) = prodQ (map (fun p => x (idx p)) (quad_parts m))).
Proof.
  rewrite full_value. split.
  - intros H m Hm L. destruct m as [|f m]; [cbn in L; lia|]. cbn [quad_parts firstn skipn map]. unfold quad_parts. cbn [firstn skipn map]. rewrite prodQ_cons, prod_one.
    rewrite (H _ Hm) by lia. cbn [map]. rewrite prodQ_cons. f_equal. symmetry. apply H; [apply (REST _ Hm)|cbn in L; lia].
  - intros H m. assert (K : forall k m, length m <= k -> In m cols -> 0 < length m -> x (idx m) = prodQ (map (value x) m)); [|intros Hm L; apply (K (length m)); auto].
    clear m. induction k as [|k IH]; intros m Lk Hm L; [lia|]. destruct m as [|f m]; [cbn in L; lia|]. destruct m as [|f' m]; [cbn [map]; rewrite prod_one; reflexivity|].
    rewrite (H _ Hm) by (cbn; lia). unfold quad_parts. cbn [firstn skipn]. cbn [map]. rewrite prodQ_cons, prod_one. rewrite (prodQ_cons (value x f)). f_equal. apply (IH (f' :: m)); [cbn in *; lia|apply (REST _ Hm)|cbn; lia].
Qed.
End Dictionaries.

(** ** Generated programmes *)
Section Generated.
Variables (sc : scenario) (W : wf_scenario sc) (Hout : forall o, In o (outcomes sc) -> 1 <= o).
Notation n := (length (lexorder sc)).
Notation syms := (discover_lexorder_symmetries sc).
Hypothesis FC : few_copies sc.
Variables (prog : programme) (ao : bool) (EP : scenario_lp sc ao = Some prog).
Notation lists := (lists_of sc prog).
Notation atoms := (atomic_factors (lists_of sc prog)).
Notation cols := (map (moment_of atoms) lists).
Notation fac v := (factors sc (flatnonzero v)).
Notation ev := (event_of sc).
Notation idx m := (index_of m_eqb m cols).
Let CF := columns_ok sc W Hout ao prog EP.
Definition num (g : list nat) : nat := number atoms (rep sc g).
Lemma col_is v : In v (lp_columns prog) -> In (moment_of atoms (map (rep sc) (fac v))) cols.
Proof. intros Hv. rewrite cols_is. apply (in_map (fun v => moment_of atoms (map (rep sc) (fac v)))), Hv. Qed.
Lemma col_perm v : Permutation (moment_of atoms (map (rep sc) (fac v))) (map num (fac v)).
Proof. unfold moment_of. rewrite sort_atoms_perm, map_map. reflexivity. Qed.
Lemma single m f : In m cols -> In f m -> In [f] cols.
Proof.
  intros Hm Hf. rewrite cols_is in Hm. apply in_map_iff in Hm as (v & <- & Hv). apply (Permutation_in _ (col_perm v)) in Hf. apply in_map_iff in Hf as (g & <- & Hg).
  apply (atom_column sc W Hout FC prog ao EP). apply (number_ok sc prog). apply (fac_atom sc prog v g Hv Hg).
Qed.
Lemma sorted_sort l : StronglySorted le l -> sort_atoms l = l.
Proof.
  induction 1 as [|a l Sl IH Fa]; [reflexivity|]. change (sort_atoms (a :: l)) with (insert_atom a (sort_atoms l)). rewrite IH. destruct l as [|b l]; [reflexivity|]. cbn [insert_atom]. inversion Fa as [|? ? Hb _]; subst.
  destruct (Nat.leb_spec a b); [reflexivity|lia].
Qed.
Lemma insert_sorted a l : StronglySorted le l -> StronglySorted le (insert_atom a l).
Proof.
  induction 1 as [|b l Sl IH Fb]; cbn [insert_atom]; [repeat constructor|]. destruct (Nat.leb_spec a b) as [L|L].
  - constructor; [constructor; assumption|]. constructor; [exact L|]. eapply Forall_impl; [|exact Fb]. cbn. lia.
  - constructor; [exact IH|]. apply Forall_forall. intros y Hy.
    assert (K : Permutation (insert_atom a l) (a :: l)).
    { clear. induction l as [|c l IH]; cbn [insert_atom]; [reflexivity|]. destruct (a <=? c); [reflexivity|]. rewrite IH. apply perm_swap. }
    apply (Permutation_in _ K) in Hy. rewrite Forall_forall in Fb. destruct Hy as [<-|Hy]; [lia|apply Fb, Hy].
Qed.
Lemma sort_sorted l : StronglySorted le (sort_atoms l).
Proof. induction l as [|a l IH]; [constructor|]. change (sort_atoms (a :: l)) with (insert_atom a (sort_atoms l)). apply insert_sorted, IH. Qed.
Lemma rest m : In m cols -> In (skipn 1 m) cols.
Proof.
  intros Hm. pose proof Hm as Hm'. rewrite cols_is in Hm. apply in_map_iff in Hm as (v & E & Hv). destruct m as [|a m]; [exact Hm'|]. cbn [skipn].
  assert (S1 : StronglySorted le (a :: m)) by (rewrite <- E; apply sort_sorted). assert (Pm : Permutation (map num (fac v)) (a :: m)) by (rewrite <- E; apply Permutation_sym, col_perm).
  assert (Ia : In a (map num (fac v))) by (apply (Permutation_in _ (Permutation_sym Pm)); left; reflexivity). apply in_map_iff in Ia as (f0 & E0 & H0).
  assert (N : NoDup (fac v)) by (apply (factors_apart_nodup sc W (flatnonzero v)); [intros k; apply (fac_range sc W Hout prog ao EP), Hv|apply (fac_facts sc W Hout FC prog ao EP), Hv]).
  pose proof (part_column sc W Hout FC prog ao EP v (fun f => negb (row_eqb f f0)) Hv) as K.
  replace m with (moment_of atoms (map (rep sc) (filter (fun f => negb (row_eqb f f0)) (fac v)))); [exact K|].
  unfold moment_of. rewrite map_map. change (fun x => number atoms (rep sc x)) with num. rewrite <- (sorted_sort m) by (inversion S1; assumption). apply sort_atoms_same.
  apply (Permutation_cons_inv (a := a)). rewrite <- Pm, <- E0. change (num f0 :: map num (filter (fun f => negb (row_eqb f f0)) (fac v))) with (map num (f0 :: filter (fun f => negb (row_eqb f f0)) (fac v))).
  apply Permutation_map. apply NoDup_Permutation; [constructor; [|apply NoDup_filter, N]|exact N|].
  - intros H. apply filter_In in H as [_ H]. rewrite (proj2 (FactorProofs.row_eqb_true f0 f0) eq_refl) in H. discriminate.
  - intros f. cbn [In]. rewrite filter_In. split; [intros [<-|[H _]]; [exact H0|exact H]|]. intros H. destruct (row_eqb f f0) eqn:Q; [left; symmetry; apply FactorProofs.row_eqb_true, Q|right; auto].
Qed.
Lemma idx_col v : In v (lp_columns prog) -> let c := idx (moment_of atoms (map (rep sc) (fac v))) in c < length (lp_columns prog) /\ nth c (lp_columns prog) [] = v.
Proof.
  intros Hv c. apply (In_nth _ _ []) in Hv as (i & Hi & <-). assert (E : nth i cols [] = moment_of atoms (map (rep sc) (fac (nth i (lp_columns prog) [])))).
  { rewrite cols_is. rewrite (nth_indep _ [] ((fun v => moment_of atoms (map (rep sc) (fac v))) [])) by (rewrite map_length; exact Hi). apply (map_nth (fun v => moment_of atoms (map (rep sc) (fac v)))). }
  assert (L : i < length cols) by (unfold lists_of; rewrite !map_length; exact Hi).
  assert (Q : c = i). { transitivity (idx (nth i cols [])); [exact (f_equal (fun m => index_of m_eqb m cols) (eq_sym E))|]. apply (UniqueProofs.index_of_nth m_eqb m_eqb_eq); [apply (cols_nodup sc W Hout FC prog ao EP)|exact L]. }
  rewrite Q. auto.
Qed.

Variables (P : list bool -> Qc) (B : scenario_behaviour sc P) (I : relabelling_invariant sc P).
Variables (x : nat -> Qc) (X : forall c, c < length (lp_columns prog) -> x c = P (nth c (lp_columns prog) [])).
Lemma x_col v : In v (lp_columns prog) -> x (idx (moment_of atoms (map (rep sc) (fac v)))) = P v.
Proof. intros Hv. destruct (idx_col v Hv) as [L E]. rewrite (X _ L), E. reflexivity. Qed.
Lemma x_single v g : In v (lp_columns prog) -> In g (fac v) -> x (idx [num g]) = P (ev g).
Proof.
  intros Hv Hg. assert (Hc : In [num g] cols). { apply (single (moment_of atoms (map (rep sc) (fac v)))); [apply col_is, Hv|]. apply (Permutation_in _ (Permutation_sym (col_perm v))), in_map, Hg. }
  rewrite cols_is in Hc. apply in_map_iff in Hc as (w & E & Hw). rewrite <- E, (x_col w Hw).
  pose proof (col_perm w) as Pw. rewrite E in Pw. apply Permutation_length_1_inv in Pw. destruct (fac w) as [|g' [|g2 l]] eqn:Fw; try discriminate. cbn [map] in Pw. assert (En : num g' = num g) by congruence.
  assert (Er : rep sc g' = rep sc g).
  { unfold num in En. rewrite <- (proj2 (number_ok sc prog (rep sc g) (fac_atom sc prog v g Hv Hg))), <- (proj2 (number_ok sc prog (rep sc g') (fac_atom sc prog w g' Hw ltac:(rewrite Fw; left; reflexivity)))), En. reflexivity. }
  assert (Ew : ev g' = w). { pose proof (fac_event sc W Hout FC prog ao EP w (fac w) Hw (Permutation_refl _)) as Q. rewrite Fw in Q. cbn [concat] in Q. rewrite app_nil_r in Q. exact Q. }
  rewrite <- Ew. transitivity (P (ev (rep sc g'))).
  - symmetry. apply (related_prob sc W P I _ _ (event_of_length sc _)), (rep_related sc W Hout).
  - rewrite Er. apply (related_prob sc W P I _ _ (event_of_length sc _)), (rep_related sc W Hout).
Qed.
Lemma x_product v : In v (lp_columns prog) -> prodQ (map (value cols x) (moment_of atoms (map (rep sc) (fac v)))) = prodQ (map (fun f => P (ev f)) (fac v)).
Proof.
  intros Hv. rewrite (prodQ_perm _ _ (Permutation_map (value cols x) (col_perm v))), map_map. f_equal. apply map_ext_in. intros g Hg. apply (x_single v g Hv Hg).
Qed.
Theorem conditions_independent : (forall m, In m cols -> 0 < length m -> x (idx m) = prodQ (map (value cols x) m)) <-> independent_sources sc P.
Proof.
  split.
  - intros H. apply (columns_independent sc W Hout FC prog ao EP P B I). intros z Hz. rewrite <- (x_product z Hz), <- (x_col z Hz).
    destruct (length (moment_of atoms (map (rep sc) (fac z)))) as [|k] eqn:L.
    + rewrite (x_col z Hz). assert (Z : fac z = []) by (apply length_zero_iff_nil; rewrite (Permutation_length (col_perm z)), map_length in L; exact L).
      assert (Q := fac_event sc W Hout FC prog ao EP z (fac z) Hz (Permutation_refl _)). rewrite Z in Q |- *. cbn [concat] in Q. rewrite event_of_blank in Q. rewrite <- Q. apply (prob_blank sc P B).
    + apply H; [apply col_is, Hz|rewrite L; lia].
  - intros IND m Hm _. rewrite cols_is in Hm. apply in_map_iff in Hm as (v & <- & Hv). rewrite (x_product v Hv), (x_col v Hv).
    assert (L := cf_length _ _ CF v Hv). rewrite (column_prob sc W Hout P B I IND v L (always_small sc FC v L) (cf_measurable _ _ CF v Hv)), map_map. f_equal. apply map_ext. intros g.
    apply (related_prob sc W P I _ _ (event_of_length sc _)), (rep_related sc W Hout).
Qed.
End Generated.
