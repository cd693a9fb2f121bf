(** C50: the factorisation conditions of a linear programme. *)
From Coq Require Import List Arith Bool QArith Qcanon Lia Permutation.
From Verif Require Import ScenarioModel ScenarioSpec FactorModel MargModel QcSum LPModel LPSpec LPSpec2 CausalSpec InflatedSpec ProgramModel ProgramSpec LPSolveSpec ProgramLP ProgramLPProofs LPMomentModel LPMomentProofs2 ColumnsFacts SoundProofs GlueProofs GenerateProofs FactCondModel FactCondSpec FactCondProofs FactCondProofs2 PropSound.
From Verif Require UniqueProofs LPProofs10.
Import ListNotations.
Close Scope Q_scope. Close Scope Qc_scope. Open Scope nat_scope.

Lemma generated_facts sc ao sup r : ready sc -> generate sc ao sup = Some r -> exists prog, scenario_lp sc ao = Some prog /\
  columns (r_programme r) = map (moment_of (atomic_factors (lists_of sc prog))) (lists_of sc prog) /\ NoDup (columns (r_programme r)).
Proof.
  intros [W AC Hout Hset Np FC] G. destruct (generate_is sc W Hout FC ao sup r G) as (prog & EP & _ & N & _ & C & _). exists prog. rewrite C. auto.
Qed.
Lemma long_iff cols m : In m (long cols) <-> In m cols /\ 1 < length m.
Proof. apply long_in. Qed.
Lemma index_iff (cols : list moment) m j : NoDup cols -> (nth_error cols j = Some m <-> In m cols /\ j = index_of m_eqb m cols).
Proof.
  intros N. split.
  - intros H. split; [apply nth_error_In in H; exact H|]. assert (L : j < length cols) by (apply nth_error_Some; congruence).
    rewrite <- (nth_error_nth _ _ [] H). symmetry. apply (UniqueProofs.index_of_nth m_eqb m_eqb_eq); assumption.
  - intros [H ->]. destruct (UniqueProofs.index_of_in m_eqb m_eqb_eq m cols [] H) as [L E].
    transitivity (Some (nth (index_of m_eqb m cols) cols [])); [apply nth_error_nth'; exact L|f_equal; exact E].
Qed.
Lemma forall2_is {A B} (R : A -> B -> Prop) (h : A -> B) l k : (forall a b, In a l -> (R a b <-> b = h a)) -> (Forall2 R l k <-> k = map h l).
Proof.
  revert k. induction l as [|a l IH]; intros k H; cbn [map].
  - split; [intros F; inversion F; reflexivity|intros ->; constructor].
  - split.
    + intros F. inversion F as [|? b ? k' Rb F']; subst. f_equal; [apply (H a b (or_introl eq_refl)), Rb|]. apply IH; [intros a' b' Ha; apply H; right; exact Ha|exact F'].
    + intros ->. constructor; [apply (H a _ (or_introl eq_refl)); reflexivity|]. apply IH; [intros a' b' Ha; apply H; right; exact Ha|reflexivity].
Qed.

Lemma nodup_map_in {A B} (f : A -> B) l : (forall a b, In a l -> In b l -> f a = f b -> a = b) -> NoDup l -> NoDup (map f l).
Proof.
  intros H N. induction N as [|a l Ha N IH]; cbn [map]; constructor.
  - intros K. apply in_map_iff in K as (b & E & Hb). apply Ha. rewrite <- (H b a (or_intror Hb) (or_introl eq_refl) E). exact Hb.
  - apply IH. intros b c Hb Hc. apply H; right; assumption.
Qed.
(** ** The dictionaries exist, and their contents *)
(** [made] are the moments the programme knows by their factors: the columns and possibly others.  The
    keys are the columns with at least two factors; the parts are all the single factors, respectively
    the first factor and the moment of the other factors.  The sparse dictionaries say the same with
    column numbers. *)
Theorem C50_conditions_exist : forall sc all_outcomes supports r made, ready sc -> generate sc all_outcomes supports = Some r ->
  incl (columns (r_programme r)) made -> let cols := columns (r_programme r) in
  exists full quad sparse_full sparse_quad,
    factorization_conditions made cols = Some full /\ quadratic_factorization_conditions made cols = Some quad /\
    sparse_factorization_conditions made cols = Some sparse_full /\ sparse_quadratic_factorization_conditions made cols = Some sparse_quad /\
    (forall m parts, In (m, parts) full <-> In m cols /\ 2 <= length m /\ parts = map (fun f => [f]) m) /\
    (forall m parts, In (m, parts) quad <-> In m cols /\ exists f others, m = f :: others /\ others <> [] /\ parts = [[f]; others]) /\
    (forall c parts, In (c, parts) sparse_full <-> exists m, nth_error cols c = Some m /\ 2 <= length m /\ Forall2 (fun f j => nth_error cols j = Some [f]) m parts) /\
    (forall c parts, In (c, parts) sparse_quad <-> exists f others i j, nth_error cols c = Some (f :: others) /\ others <> [] /\
                                                      nth_error cols i = Some [f] /\ nth_error cols j = Some others /\ parts = [i; j]) /\
    NoDup (map fst full) /\ NoDup (map fst quad) /\ NoDup (map fst sparse_full) /\ NoDup (map fst sparse_quad).
Proof.
  intros sc ao sup r made RD G. destruct (generated_facts sc ao sup r RD G) as (prog & EP & C & N). destruct RD as [W AC Hout Hset Np FC]. intros MADE cols.
  assert (SI : forall m f, In m cols -> In f m -> In [f] cols) by (unfold cols; rewrite C; apply (single sc W Hout FC prog ao EP)).
  assert (RE : forall m, In m cols -> In (skipn 1 m) cols) by (unfold cols; rewrite C; apply (rest sc W Hout FC prog ao EP)).
  fold cols in MADE, N. clearbody cols. clear C EP G.
  exists (map (fun m => (m, full_parts m)) (long cols)), (map (fun m => (m, quad_parts m)) (long cols)),
    (map (fun m => (index_of m_eqb m cols, map (fun p => index_of m_eqb p cols) (full_parts m))) (long cols)),
    (map (fun m => (index_of m_eqb m cols, map (fun p => index_of m_eqb p cols) (quad_parts m))) (long cols)).
  split; [apply (full_is made cols MADE SI)|]. split; [apply (quad_is made cols MADE SI RE)|]. split; [apply (sparse_full_is made cols MADE SI)|]. split; [apply (sparse_quad_is made cols MADE SI RE)|].
  assert (NL : NoDup (long cols)) by (apply NoDup_filter, N).
  assert (NI : NoDup (map (fun m => index_of m_eqb m cols) (long cols))).
  { apply nodup_map_in; [|exact NL]. intros a b Ha Hb E. apply long_in in Ha as [Ha _], Hb as [Hb _]. apply (UniqueProofs.index_of_inj m_eqb m_eqb_eq a b cols Ha Hb E). }
  repeat apply conj.
  - intros m parts. rewrite in_map_iff. split.
    + intros (m' & E & H). apply long_in in H as [H L]. assert (m' = m) by congruence. subst m'. assert (parts = full_parts m) by congruence. auto.
    + intros (H & L & ->). exists m. split; [reflexivity|]. apply long_in. auto.
  - intros m parts. rewrite in_map_iff. split.
    + intros (m' & E & H). apply long_in in H as [H L]. assert (m' = m) by congruence. subst m'. split; [exact H|]. assert (Q : parts = quad_parts m) by congruence. subst parts.
      destruct m as [|f [|g others]]; [cbn in L; lia|cbn in L; lia|]. exists f, (g :: others). repeat split; discriminate.
    + intros (H & f & others & -> & NE & ->). exists (f :: others). split; [reflexivity|]. apply long_in. split; [exact H|]. destruct others; [congruence|cbn; lia].
  - intros c parts. rewrite in_map_iff. split.
    + intros (m & E & H). apply long_in in H as [H L]. assert (Ec : c = index_of m_eqb m cols) by congruence. assert (Ep : parts = map (fun p => index_of m_eqb p cols) (full_parts m)) by congruence. subst c parts.
      exists m. split; [apply (index_iff cols m _ N); auto|]. split; [exact L|]. unfold full_parts. rewrite map_map. apply (forall2_is (fun f j => nth_error cols j = Some [f]) (fun f => index_of m_eqb [f] cols)); [|reflexivity].
      intros f j Hf. rewrite (index_iff cols [f] j N). split; [intros [_ K]; exact K|intros K; split; [apply (SI m f H Hf)|exact K]].
    + intros (m & Hm & L & F). apply (index_iff cols m c N) in Hm as [H ->]. exists m. split; [|apply long_in; auto]. f_equal. unfold full_parts. rewrite map_map. symmetry.
      apply (forall2_is (fun f j => nth_error cols j = Some [f]) (fun f => index_of m_eqb [f] cols)); [|exact F].
      intros f j Hf. rewrite (index_iff cols [f] j N). split; [intros [_ K]; exact K|intros K; split; [apply (SI m f H Hf)|exact K]].
  - intros c parts. rewrite in_map_iff. split.
    + intros (m & E & H). apply long_in in H as [H L]. assert (Ec : c = index_of m_eqb m cols) by congruence. assert (Ep : parts = map (fun p => index_of m_eqb p cols) (quad_parts m)) by congruence. subst c parts.
      destruct m as [|f [|g others]]; [cbn in L; lia|cbn in L; lia|]. exists f, (g :: others), (index_of m_eqb [f] cols), (index_of m_eqb (g :: others) cols).
      split; [apply (index_iff cols _ _ N); auto|]. split; [discriminate|]. split; [apply (index_iff cols _ _ N); split; [apply (SI _ f H); left; reflexivity|reflexivity]|]. split; [apply (index_iff cols _ _ N); split; [apply (RE _ H)|reflexivity]|reflexivity].
    + intros (f & others & i & j & Hm & NE & Hi & Hj & ->). apply (index_iff cols _ _ N) in Hm as [H ->], Hi as [_ ->], Hj as [_ ->]. exists (f :: others). split; [reflexivity|]. apply long_in. split; [exact H|]. destruct others; [congruence|cbn; lia].
  - rewrite map_map. cbn [fst]. rewrite map_id. exact NL.
  - rewrite map_map. cbn [fst]. rewrite map_id. exact NL.
  - rewrite map_map. exact NI.
  - rewrite map_map. exact NI.
Qed.
Print Assumptions C50_conditions_exist.

Lemma some_is {A} (a b : A) : Some a = Some b -> a = b. Proof. congruence. Qed.
Lemma satisfied sc ao sup r made sparse_full sparse_quad : ready sc -> generate sc ao sup = Some r -> incl (columns (r_programme r)) made ->
  sparse_factorization_conditions made (columns (r_programme r)) = Some sparse_full -> sparse_quadratic_factorization_conditions made (columns (r_programme r)) = Some sparse_quad ->
  forall x, (satisfies x sparse_full <-> forall m, In m (columns (r_programme r)) -> 0 < length m -> x (index_of m_eqb m (columns (r_programme r))) = prodQ (map (value (columns (r_programme r)) x) m)) /\
            (satisfies x sparse_full <-> satisfies x sparse_quad).
Proof.
  intros RD G MADE E1 E2 x. destruct (generated_facts sc ao sup r RD G) as (prog & EP & C & N). destruct RD as [W AC Hout Hset Np FC]. set (cols := columns (r_programme r)) in *.
  assert (SI : forall m f, In m cols -> In f m -> In [f] cols) by (rewrite C; apply (single sc W Hout FC prog ao EP)).
  assert (RE : forall m, In m cols -> In (skipn 1 m) cols) by (rewrite C; apply (rest sc W Hout FC prog ao EP)).
  rewrite (sparse_full_is made cols MADE SI) in E1. rewrite (sparse_quad_is made cols MADE SI RE) in E2. apply some_is in E1, E2. rewrite <- E1, <- E2, !satisfies_iff. rewrite <- full_value. split; [reflexivity|]. apply (full_quadratic cols RE).
Qed.

(** ** The two forms say the same *)
Theorem C50_equivalent : forall sc all_outcomes supports r made sparse_full sparse_quad, ready sc -> generate sc all_outcomes supports = Some r ->
  incl (columns (r_programme r)) made ->
  sparse_factorization_conditions made (columns (r_programme r)) = Some sparse_full ->
  sparse_quadratic_factorization_conditions made (columns (r_programme r)) = Some sparse_quad ->
  forall x, satisfies x sparse_full <-> satisfies x sparse_quad.
Proof. intros. eapply satisfied; eassumption. Qed.
Print Assumptions C50_equivalent.

(** ** With the conditions the programme describes the behaviours with independent sources *)
Theorem C50_exact : forall sc all_outcomes supports r made prog sparse_full, ready sc -> generate sc all_outcomes supports = Some r ->
  scenario_lp sc all_outcomes = Some prog -> incl (columns (r_programme r)) made ->
  sparse_factorization_conditions made (columns (r_programme r)) = Some sparse_full ->
  forall x,
  (x 0 = 1%Qc /\
   (forall row, In row (lp_equalities prog) -> row_value x row = 0%Qc) /\
   (forall row, In row (lp_inequalities prog) -> (0 <= row_value x row)%Qc) /\
   satisfies x sparse_full) <->
  exists P, scenario_behaviour sc P /\ relabelling_invariant sc P /\ independent_sources sc P /\
    forall c, c < length (lp_columns prog) -> x c = P (nth c (lp_columns prog) []).
Proof.
  intros sc ao sup r made prog sf RD G EP MADE ES x. destruct (generated_facts sc ao sup r RD G) as (prog' & EP' & C & _). assert (prog' = prog) by congruence. subst prog'.
  destruct (C50_conditions_exist sc ao sup r made RD G MADE) as (_ & _ & _ & sq & _ & _ & _ & EQ & _). destruct (satisfied sc ao sup r made sf sq RD G MADE ES EQ x) as [SX _]. rewrite C in SX.
  destruct RD as [W AC Hout Hset Np FC]. destruct (LPProofs10.programme_exact sc W Hout ao) as (prog' & EP'' & X). assert (prog' = prog) by congruence. subst prog'. split.
  - intros (X0 & Xe & Xi & XS). destruct (proj1 (X x) (conj X0 (conj Xe Xi))) as (P & B & I & Hx). exists P. split; [exact B|]. split; [exact I|]. split; [|exact Hx].
    apply (conditions_independent sc W Hout FC prog ao EP P B I x Hx), SX, XS.
  - intros (P & B & I & IND & Hx). destruct (proj2 (X x) (ex_intro _ P (conj B (conj I Hx)))) as (X0 & Xe & Xi). split; [exact X0|]. split; [exact Xe|]. split; [exact Xi|].
    apply SX, (conditions_independent sc W Hout FC prog ao EP P B I x Hx), IND.
Qed.
Print Assumptions C50_exact.

(** ** Distributions the scenario can give satisfy the conditions *)
Theorem C50_compatible_distributions_satisfy_them : forall sc arr all_outcomes supports r made prog sparse_full, ready sc -> compatible_distribution sc arr ->
  generate sc all_outcomes supports = Some r -> scenario_lp sc all_outcomes = Some prog -> incl (columns (r_programme r)) made ->
  sparse_factorization_conditions made (columns (r_programme r)) = Some sparse_full ->
  exists P, inflation_of sc arr P /\ let x c := P (nth c (lp_columns prog) []) in
    x 0 = 1%Qc /\
    (forall row, In row (lp_equalities prog) -> row_value x row = 0%Qc) /\
    (forall row, In row (lp_inequalities prog) -> (0 <= row_value x row)%Qc) /\
    satisfies x sparse_full.
Proof.
  intros sc arr ao sup r made prog sf RD CD G EP MADE ES. destruct (C43_compatible_distributions_have_inflations sc arr RD CD) as (P & IO). exists P. split; [exact IO|]. intros x.
  apply (C50_exact sc ao sup r made prog sf RD G EP MADE ES x). exists P. split; [apply (io_behaviour _ _ _ IO)|]. split; [apply (io_invariant _ _ _ IO)|]. split; [|reflexivity].
  intros v w. apply (io_independent _ _ _ IO).
Qed.
Print Assumptions C50_compatible_distributions_satisfy_them.

(** ** The hypotheses are met, and the conditions exclude something: two parties without a common source
    whose outcomes are perfectly correlated satisfy the linear rows but not the conditions. *)
Definition correlated (prog : programme) (c : nat) : Qc :=
  let all_are o v := forallb (fun q => negb (fst q) || (row_outcome (snd q) =? o)) (combine v (lexorder tiny_sc)) in
  let v := nth c (lp_columns prog) [] in
  ((if all_are 0%nat v then half else 0) + (if all_are 1%nat v then half else 0))%Qc.
Definition correlated_check : bool :=
  match scenario_lp tiny_sc false, generate tiny_sc false false with
  | Some prog, Some r =>
    match sparse_factorization_conditions (columns (r_programme r)) (columns (r_programme r)) with
    | Some sf =>
      let x := correlated prog in
      Qc_eq_bool (x 0) 1%Qc && forallb (fun row => Qc_eq_bool (row_value x row) 0%Qc) (lp_equalities prog) &&
      forallb (fun row => match (0 ?= row_value x row)%Qc with Gt => false | _ => true end) (lp_inequalities prog) &&
      existsb (fun q => negb (Qc_eq_bool (x (fst q)) (fold_right Qcmult 1%Qc (map x (snd q))))) sf
    | None => false end
  | _, _ => false end.
Lemma correlated_checked : correlated_check = true. Proof. vm_compute. reflexivity. Qed.
Example C50_nonvacuous : ready tiny_sc /\ compatible_distribution tiny_sc tiny_arr /\
  exists r prog sparse_full x, generate tiny_sc false false = Some r /\ scenario_lp tiny_sc false = Some prog /\
    sparse_factorization_conditions (columns (r_programme r)) (columns (r_programme r)) = Some sparse_full /\ sparse_full <> [] /\
    x 0 = 1%Qc /\ (forall row, In row (lp_equalities prog) -> row_value x row = 0%Qc) /\ (forall row, In row (lp_inequalities prog) -> (0 <= row_value x row)%Qc) /\
    ~ satisfies x sparse_full.
Proof.
  split; [exact tiny_ready|]. split; [exact tiny_compatible|]. pose proof correlated_checked as H. unfold correlated_check in H.
  destruct (scenario_lp tiny_sc false) as [prog|]; [|discriminate]. destruct (generate tiny_sc false false) as [r|]; [|discriminate].
  destruct (sparse_factorization_conditions _ _) as [sf|] eqn:E; [|discriminate]. apply andb_prop in H as [H H4]. apply andb_prop in H as [H H3]. apply andb_prop in H as [H1 H2].
  apply existsb_exists in H4 as ((c & ps) & Hc & N). exists r, prog, sf, (correlated prog). split; [reflexivity|]. split; [reflexivity|]. split; [exact E|]. split; [intros ->; destruct Hc|].
  split; [apply Qc_eq_bool_correct, H1|]. rewrite forallb_forall in H2, H3. split; [intros row Hr; apply Qc_eq_bool_correct, H2, Hr|]. split.
  - intros row Hr. specialize (H3 row Hr). apply Qcle_alt. intros K. rewrite K in H3. discriminate.
  - intros S1. change (negb (Qc_eq_bool (correlated prog c) (fold_right Qcmult 1%Qc (map (correlated prog) ps))) = true) in N. rewrite (S1 c ps Hc) in N. unfold Qc_eq_bool in N. destruct (Qc_eq_dec _ _); [discriminate|congruence].
Qed.
Print Assumptions C50_nonvacuous.
