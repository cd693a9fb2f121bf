(** C30: the normalisation equalities of the SDP. *)
From Coq Require Import Permutation QArith Qcanon.
Close Scope Qc_scope. Close Scope Q_scope.
From Verif Require Import CanonModel CanonSpec CanonProofs2 MomentModel MomentSpec
  ScenarioModel ScenarioSpec ScenarioProofs SymModel MargModel QcSum
  ColumnModel ColumnSpec ColumnProofs2 ColumnProofs3 SymProofs CanonProofs NormModel NormSpec NormProofs NormProofs2 NormProofs3.

Lemma nth_col (cols : list word) i (w : word) : i < length cols -> nth i cols [] = w -> nth_error cols i = Some w.
Proof. intros H <-. apply nth_error_nth', H. Qed.
Lemma nth_cols (cols : list word) (f : nat -> word) g js :
  Forall2 (fun a j => j < length cols /\ nth j cols [] = f a) g js ->
  map (nth_error cols) js = map (fun a => Some (f a)) g.
Proof.
  induction 1 as [|a j g js [Hj Hn] _ IH]; [reflexivity|]. cbn [map]. rewrite IH. f_equal. apply nth_col; assumption.
Qed.

(** Whatever the columns: if the operators of each measurement sum to the identity, and every
    moment-matrix variable has the value of the products it stands for, then every equality
    "variable k = sum of the variables l" produced by the code holds. *)
Theorem C30_equalities_hold : forall sc hc cols M eqs val mval,
  wf_scenario sc -> (forall n, In n (outcomes sc) -> 1 <= n) ->
  discover_normalization_eqns sc hc cols = Some eqs ->
  normalised sc val ->
  (forall i j, i < length cols -> j < length cols -> mval (M i j) = val (entry cols i j)) ->
  forall k l, In (k, l) (construct_normalization_eqs (length cols) M eqs) ->
    mval k = sumQ (map mval l).
Proof. intros sc hc cols M eqs val mval W P E N H. exact (equalities_sound sc W P hc cols M eqs val mval N E H). Qed.
Print Assumptions C30_equalities_hold.

(** The hypothesis on [mval] is met for the moment matrix the code uses (the symmetrised one) by
    every moment functional that does not depend on the labels of the copies. *)
Theorem C30_assignment_exists : forall sc commuting cols M orbits corresp val,
  wf_scenario sc ->
  (commuting = true -> forall a b, sdp_notcomm sc a b = false) ->
  good_columns (sdp_notcomm sc) (sdp_orthomat sc) (S (length (lexorder sc))) cols ->
  symmetrized_moment_matrix (sdp_notcomm sc) (sdp_orthomat sc) commuting cols (sdp_lexorder_symmetries sc) = Some (M, orbits, corresp) ->
  moment_functional (sdp_notcomm sc) (sdp_orthomat sc) val ->
  symmetric_functional sc (sdp_lexorder_symmetries sc) val ->
  exists mval, mval 0 = 0%Qc /\
    forall i j, i < length cols -> j < length cols -> mval (M i j) = val (entry cols i j).
Proof. intros sc co cols M o c val W. exact (assignment_exists sc W co cols M o c val). Qed.
Print Assumptions C30_assignment_exists.

(** Such functionals exist in every scenario: all measurements always answering outcome 0. *)
Theorem C30_functional_exists : forall sc, wf_scenario sc ->
  moment_functional (sdp_notcomm sc) (sdp_orthomat sc) (det_zero sc) /\
  symmetric_functional sc (sdp_lexorder_symmetries sc) (det_zero sc) /\
  normalised sc (det_zero sc) /\ det_zero sc [] = 1%Qc.
Proof.
  intros sc W. split; [apply det_functional|]. split; [apply det_symmetric, W|].
  split; [apply det_normalised|reflexivity].
Qed.
Print Assumptions C30_functional_exists.

(** None is repeated: no two equalities have the same summands. *)
Theorem C30_no_repetition : forall n M eqs,
  NoDup (map snd (construct_normalization_eqs n M eqs)) /\
  NoDup (construct_normalization_eqs n M eqs).
Proof.
  intros n M eqs. pose proof (proj1 (construct_spec n M eqs)) as H. split; [exact H|].
  exact (NoDup_map_inv _ _ H).
Qed.
Print Assumptions C30_no_repetition.

(** Building the equalities never fails, and each column with the last operator of a measurement
    of a party with children gives its equality, provided the columns contain every word that
    this column asks for. *)
Theorem C30_columns_complete : forall sc hc cols, wf_scenario sc -> (forall n, In n (outcomes sc) -> 1 <= n) ->
  exists eqs, discover_normalization_eqns sc hc cols = Some eqs /\
  forall u op v g p c s, In (u ++ op :: v) cols ->
    is_measurement sc p c s g -> nth p hc false = true -> op = last g 0 ->
    (forall u' v' p' c' s' g', u' ++ last g' 0 :: v' = u ++ op :: v ->
       is_measurement sc p' c' s' g' -> nth p' hc false = true ->
       In (u' ++ v') cols /\ forall a, In a g' -> In (u' ++ a :: v') cols) ->
    exists i js, In (i, js) eqs /\ nth_error cols i = Some (u ++ v) /\
      map (nth_error cols) js = map (fun a => Some (u ++ a :: v)) g.
Proof.
  intros sc hc cols W P. destruct (discover_some sc W P hc cols) as (eqs & E). exists eqs. split; [exact E|].
  intros u op v g p c s H1 H2 H3 H4 H5.
  destruct (discover_complete_sc sc W P hc cols eqs u op v g p c s E H1 H2 H3 H4 H5) as (i & js & A & B & C & D).
  exists i, js. split; [exact A|]. split.
  - apply nth_col; assumption.
  - apply (nth_cols cols (fun a => u ++ a :: v)), D.
Qed.
Print Assumptions C30_columns_complete.

(** ... and only those: every column equality is the sum over one measurement. *)
Theorem C30_columns_sound : forall sc hc cols eqs i js, wf_scenario sc -> (forall n, In n (outcomes sc) -> 1 <= n) ->
  discover_normalization_eqns sc hc cols = Some eqs -> In (i, js) eqs ->
  exists u v g p c s, is_measurement sc p c s g /\ nth p hc false = true /\ In (u ++ last g 0 :: v) cols /\
    nth_error cols i = Some (u ++ v) /\ map (nth_error cols) js = map (fun a => Some (u ++ a :: v)) g.
Proof.
  intros sc hc cols eqs i js W P E Hin.
  destruct (discovered sc W P _ _ _ _ E Hin) as (u & op & v & g & p & c & s & A & Ms & O & H & B & C & D).
  cbn [fst snd] in *. exists u, v, g, p, c, s. split; [exact Ms|]. split; [exact H|]. split.
  - destruct g as [|x g] using rev_ind; [destruct O|]. rewrite last_last.
    apply Forall2_app_inv_l in D as (l1 & l2 & _ & D2 & _). inversion D2 as [|? j ? ? [J1 J2] ?]; subst.
    rewrite <- J2. apply nth_In, J1.
  - split; [apply nth_col; assumption|]. apply (nth_cols cols (fun a => u ++ a :: v)), D.
Qed.
Print Assumptions C30_columns_sound.

(** For each column equality and each row of the moment matrix, either an equality with those
    summands is in the result, or one of the products vanishes, and then the equality of that row
    holds for every moment functional, normalised or not: nothing is lost by leaving it out. *)
Theorem C30_rows_complete : forall sc commuting hc cols M orbits corresp eqs e i,
  wf_scenario sc -> (forall n, In n (outcomes sc) -> 1 <= n) ->
  (commuting = true -> forall a b, sdp_notcomm sc a b = false) ->
  good_columns (sdp_notcomm sc) (sdp_orthomat sc) (S (length (lexorder sc))) cols ->
  symmetrized_moment_matrix (sdp_notcomm sc) (sdp_orthomat sc) commuting cols (sdp_lexorder_symmetries sc) = Some (M, orbits, corresp) ->
  discover_normalization_eqns sc hc cols = Some eqs -> In e eqs -> i < length cols ->
  (exists k l, In (k, l) (construct_normalization_eqs (length cols) M eqs) /\ Permutation l (map (M i) (snd e))) \/
  (forall val, moment_functional (sdp_notcomm sc) (sdp_orthomat sc) val ->
     sumQ (map (fun j => val (entry cols i j)) (snd e)) = val (entry cols i (fst e))).
Proof.
  intros sc co hc cols M o c eqs e i W P Hc GC ES E He Hi.
  destruct (forallb (fun j => negb (M i j =? 0)) (snd e)) eqn:F.
  - left. destruct (construct_spec (length cols) M eqs) as (_ & _ & C).
    destruct (C e i He Hi) as (k & Hk).
    { intros j Hj. pose proof (proj1 (forallb_forall _ _) F j Hj) as N. apply negb_true_iff, Nat.eqb_neq in N. exact N. }
    exists k, (np_sort (map (M i) (snd e))). split; [exact Hk|]. apply Permutation_sym, np_sort_perm.
  - right. intros val V. eapply (skipped_trivial sc W P); try eassumption.
    destruct (existsb (fun j => M i j =? 0) (snd e)) eqn:X.
    + apply existsb_exists in X as (j & Hj & Z). apply Nat.eqb_eq in Z. exists j. split; [exact Hj|].
      destruct (discovered sc W P _ _ _ _ E He) as (u & op & v & g & p & cc & s & _ & _ & _ & _ & _ & _ & D).
      destruct (Forall2_in_r _ _ _ _ D Hj) as (a & _ & Hlt & _).
      destruct (ColumnProofs2.symmetrized_correct _ _ co (S (length (lexorder sc))) (sdp_lexorder_symmetries sc) cols (scenario_good_tables sc W) Hc (scenario_symmetries sc W) GC)
        as (M0 & orb0 & cor0 & E0 & Z0 & _). rewrite ES in E0. injection E0 as <- <- <-.
      apply Z0; assumption.
    + exfalso. assert (forallb (fun j => negb (M i j =? 0)) (snd e) = true); [|congruence].
      apply forallb_forall. intros j Hj. apply negb_true_iff. apply not_true_iff_false. intros T.
      assert (existsb (fun j => M i j =? 0) (snd e) = true) by (apply existsb_exists; eauto). congruence.
Qed.
Print Assumptions C30_rows_complete.

(** The dictionary handed to the solver is exactly "+1 for the norm, -1 for each summand": the
    variables of one equality are all different, so no coefficient is overwritten.  [comp] gives
    the moment object of a variable; different variables have different objects. *)
Theorem C30_dictionary : forall sc commuting hc cols M orbits corresp eqs k l comp,
  wf_scenario sc -> (forall n, In n (outcomes sc) -> 2 <= n) ->
  (commuting = true -> forall a b, sdp_notcomm sc a b = false) ->
  good_columns (sdp_notcomm sc) (sdp_orthomat sc) (S (length (lexorder sc))) cols ->
  symmetrized_moment_matrix (sdp_notcomm sc) (sdp_orthomat sc) commuting cols (sdp_lexorder_symmetries sc) = Some (M, orbits, corresp) ->
  discover_normalization_eqns sc hc cols = Some eqs ->
  In (k, l) (construct_normalization_eqs (length cols) M eqs) ->
  (forall x y, In x (k :: l) -> In y (k :: l) -> comp x = comp y -> x = y) ->
  eq_dict comp (k, l) = Some ((comp k, 1%Qc) :: map (fun x => (comp x, (- (1))%Qc)) l) /\
  NoDup (comp k :: map comp l) /\
  forall mval, expr_value mval ((comp k, 1%Qc) :: map (fun x => (comp x, (- (1))%Qc)) l)
               = (mval (comp k) - sumQ (map (fun x => mval (comp x)) l))%Qc.
Proof.
  intros sc co hc cols M o c eqs k l comp W P2 Hc GC ES E Hin Hinj.
  assert (P : forall n, In n (outcomes sc) -> 1 <= n) by (intros n Hn; specialize (P2 n Hn); lia).
  destruct (construct_spec (length cols) M eqs) as (_ & C & _).
  destruct (C k l Hin) as (e & i & He & Hi & NZ & -> & ->).
  destruct (summands_distinct sc W P co hc cols M o c eqs e i Hc GC ES E He Hi NZ) as [ND NI].
  destruct (discovered sc W P _ _ _ _ E He) as (u & op & v & g & p & cc & s & _ & Ms & _ & _ & _ & _ & D).
  assert (L : 2 <= length (snd e)).
  { apply (nth_cols cols (fun a => u ++ a :: v)) in D. apply (f_equal (@length _)) in D. rewrite !map_length in D. rewrite D. destruct (measurement_nth _ _ _ _ _ Ms) as [L _]. rewrite L. apply P2. apply nth_In.
    destruct (Nat.lt_ge_cases p (length (outcomes sc))) as [|G]; [assumption|]. exfalso.
    rewrite (nth_overflow _ _ G) in L. destruct Ms as [_ Hne]. destruct g; [congruence|discriminate]. }
  assert (PM : Permutation (map (M i) (snd e)) (np_sort (map (M i) (snd e)))) by apply np_sort_perm.
  assert (ND' : NoDup (M i (fst e) :: np_sort (map (M i) (snd e)))).
  { constructor; [|eapply Permutation_NoDup; eassumption].
    intros Hk. apply (NI L). eapply Permutation_in; [apply Permutation_sym, PM|exact Hk]. }
  assert (NDC : NoDup (comp (M i (fst e)) :: map comp (np_sort (map (M i) (snd e))))).
  { change (NoDup (map comp (M i (fst e) :: np_sort (map (M i) (snd e))))).
    revert ND' Hinj. generalize (M i (fst e) :: np_sort (map (M i) (snd e))). clear.
    induction 1 as [|x l Hx ND IH]; intros Hinj; cbn; constructor.
    - intros Hin. apply in_map_iff in Hin as (y & Ey & Hy). apply Hx. rewrite (Hinj x y); auto; [left; reflexivity|right; exact Hy].
    - apply IH. intros a b Ha Hb. apply Hinj; right; assumption. }
  split; [|split; [exact NDC|]].
  - apply eq_dict_exact; [|exact NDC]. rewrite <- (Permutation_length PM), map_length. exact L.
  - intros mval. unfold expr_value. cbn [map fst snd sumQ fold_right].
    generalize (np_sort (map (M i) (snd e))). clear. intros l.
    match goal with |- (_ + ?S)%Qc = _ => assert (EQ : S = (- sumQ (map (fun x => mval (comp x)) l))%Qc) end.
    { induction l as [|x l IH]; [reflexivity|]. cbn [map fst snd fold_right]. unfold sumQ in *. cbn [fold_right]. rewrite IH. ring. }
    rewrite EQ. ring.
Qed.
Print Assumptions C30_dictionary.

(** ** a concrete case *)
(** two parties sharing a quantum source, two outcomes each, one copy; operators 1, 2 are those
    of the first party and 3, 4 those of the second *)
Definition nm_sc : scenario := {|
  outcomes := [2; 2]; private_settings := [1; 1]; parents := [[]; []];
  sources := [ {| s_classical := false; s_children := [0; 1]; s_latents := [] |} ]; levels := [1] |}.
Lemma nm_wf : wf_scenario nm_sc.
Proof.
  split; [reflexivity|reflexivity| |reflexivity| |]; cbn.
  - intros; intuition subst; cbn in *; intuition lia.
  - intros; intuition lia.
  - intros [|[|p]] H; [| |lia]; eexists; (split; [left; reflexivity|left; cbn; auto]).
Qed.
Definition nm_cols : list word := [[]; [1]; [2]; [3]; [4]; [1; 3]; [1; 4]; [2; 3]; [2; 4]].
Lemma nm_cols_good : good_columns (sdp_notcomm nm_sc) (sdp_orthomat nm_sc) (S (length (lexorder nm_sc))) nm_cols.
Proof.
  split.
  - unfold nm_cols. repeat constructor; cbn; intuition discriminate.
  - change (length (lexorder nm_sc)) with 4. unfold nm_cols. cbn. intuition (subst; cbn in *; intuition lia).
  - intros w H. unfold nm_cols in H. cbn in H. repeat destruct H as [<-|H]; vm_compute; try reflexivity. destruct H.
Qed.
Example C30_nonvacuous :
  is_measurement nm_sc 0 [1] 0 [1; 2] /\ is_measurement nm_sc 1 [1] 0 [3; 4] /\ discover_normalization_eqns nm_sc [true; true] nm_cols
    = Some [(0, [1; 2]); (0, [3; 4]); (1, [5; 6]); (3, [5; 7]); (4, [6; 8]); (2, [7; 8])] /\ match symmetrized_moment_matrix (sdp_notcomm nm_sc) (sdp_orthomat nm_sc) false nm_cols (sdp_lexorder_symmetries nm_sc) with
  | Some (M, _, _) =>
      construct_normalization_eqs 9 M [(0, [1; 2]); (0, [3; 4]); (1, [5; 6]); (3, [5; 7]); (4, [6; 8]); (2, [7; 8])]
      = [(1, [2; 3]); (4, [6; 8]); (5, [7; 9]); (1, [4; 5]); (2, [6; 7]); (3, [8; 9])] /\ eq_dict (fun x => x) (2, [6; 7]) = Some [(2, 1%Qc); (6, (- (1))%Qc); (7, (- (1))%Qc)]
  | None => False end.
Proof. split; [split; [vm_compute; reflexivity|discriminate]|]. split; [split; [vm_compute; reflexivity|discriminate]|]. vm_compute. repeat split. Qed.

(** The proviso of C30_columns_complete is needed: the loop over the positions of a column stops
    at the first word that is not a column (break), and later equalities are lost even though all
    their words are columns.  Without the column [4], the column [2;4] no longer gives
    "[2] = [2;3] + [2;4]". *)
Theorem C30_break_refuted :
  ~ (forall sc hc cols eqs u op v g p c s, wf_scenario sc -> (forall n, In n (outcomes sc) -> 2 <= n) ->
      good_columns (sdp_notcomm sc) (sdp_orthomat sc) (S (length (lexorder sc))) cols ->
      discover_normalization_eqns sc hc cols = Some eqs -> In (u ++ op :: v) cols ->
      is_measurement sc p c s g -> nth p hc false = true -> op = last g 0 ->
      In (u ++ v) cols -> (forall a, In a g -> In (u ++ a :: v) cols) ->
      exists i js, In (i, js) eqs /\ nth_error cols i = Some (u ++ v) /\ map (nth_error cols) js = map (fun a => Some (u ++ a :: v)) g).
Proof.
  intros F. pose (cols := [[]; [1]; [2]; [3]; [1; 3]; [1; 4]; [2; 3]; [2; 4]] : list word).
  destruct (F nm_sc [true; true] cols [(0, [1; 2]); (1, [4; 5]); (3, [4; 6])] [2] 4 [] [3; 4] 1 [1] 0) as (i & js & H & Hi & _).
  - exact nm_wf.
  - cbn. intuition lia.
  - split.
    + unfold cols. repeat constructor; cbn; intuition discriminate.
    + change (length (lexorder nm_sc)) with 4. unfold cols. cbn. intuition (subst; cbn in *; intuition lia).
    + intros w H. unfold cols in H. cbn in H. repeat destruct H as [<-|H]; vm_compute; try reflexivity. destruct H.
  - vm_compute. reflexivity.
  - cbn. tauto.
  - split; [vm_compute; reflexivity|discriminate].
  - reflexivity.
  - reflexivity.
  - cbn. tauto.
  - cbn. intuition (subst; auto 10).
  - destruct H as [H|[H|[H|[]]]]; injection H as <- <-; discriminate Hi.
Qed.
Print Assumptions C30_break_refuted.

(** Two outcomes at least are needed in C30_dictionary: with one outcome the code raises. *)
Theorem C30_single_outcome_refuted : forall comp k x, eq_dict comp (k, [x]) = None.
Proof. reflexivity. Qed.
Print Assumptions C30_single_outcome_refuted.
