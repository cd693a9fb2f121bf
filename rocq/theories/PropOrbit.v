(** Property theorems C06 and C34.  Statements use OrbitModel/ColumnModel (the code),
    OrbitSpec, ColumnSpec, CanonSpec and MomentSpec. *)
From Coq Require Import Permutation.
From Verif Require Import CanonModel CanonSpec MomentModel MomentSpec ScenarioModel ScenarioSpec SymModel.
From Verif Require Import OrbitModel OrbitSpec ColumnModel ColumnSpec.
From Verif Require OrbitProofs2 ColumnProofs ColumnProofs2 ColumnProofs3 ScenarioProofs PropScenario MomentProofs.
Import PropScenario.

(** ** C06 *)
(** For every square index matrix and every non-empty list of permutations that (with the
    identity) form a group acting consistently on the entries: the assertion in the loop never
    fails and, in the result, equal entries are exactly the entries in one orbit; the orbit
    table sends every old index to its new one; the representatives are the smallest old
    indices of the orbits, one per orbit; the new indices are consecutive, starting at the
    smallest old index. *)
Theorem C06_symmetrised_matrix_is_orbits : forall n M syms,
  group_with_identity n syms -> acts_on_entries n M syms -> syms <> [] ->
  exists M' orbits repr, apply_inflation_symmetries n M syms = Some (M', orbits, repr) /\
  (forall i j i' j', i < n -> j < n -> i' < n -> j' < n ->
     (M' i j = M' i' j' <-> same_orbit n M syms (M i j) (M i' j'))) /\
  (forall i j, i < n -> j < n -> assoc orbits (M i j) = Some (M' i j)) /\
  NoDup repr /\
  (forall x, In x repr <-> (exists i j, i < n /\ j < n /\ M i j = x) /\
      forall y, same_orbit n M syms x y -> x <= y) /\
  (forall i j, i < n -> j < n -> exists a b, a < n /\ b < n /\ In (M a b) repr /\ M' a b = M' i j).
Proof.
  intros n M syms G A NE. destruct (OrbitProofs2.symmetrised_correct n M syms G A NE) as (M' & orb & repr & E & H1 & H2 & _ & H4 & H5 & _ & _ & _ & H9).
  exists M', orb, repr. auto 8.
Qed.
Print Assumptions C06_symmetrised_matrix_is_orbits.

(** The new labels fill an interval starting at the smallest old label. *)
Theorem C06_labels_consecutive : forall n M syms m,
  group_with_identity n syms -> acts_on_entries n M syms -> syms <> [] ->
  (exists i j, i < n /\ j < n /\ M i j = m) -> (forall i j, i < n -> j < n -> m <= M i j) ->
  exists M' orbits repr, apply_inflation_symmetries n M syms = Some (M', orbits, repr) /\
  forall v, m <= v < m + length repr <-> exists i j, i < n /\ j < n /\ M' i j = v.
Proof.
  intros n M syms m G A NE (i0 & j0 & Hi0 & Hj0 & E0) Hm.
  destruct (OrbitProofs2.symmetrised_correct n M syms G A NE) as (M' & orb & repr & E & _ & _ & _ & _ & _ & _ & H7 & H8 & _).
  assert (Hd : hd 0 (unique_values (ravel n M)) = m).
  { pose proof (OrbitProofs.uv_SS (ravel n M)) as SSo.
    assert (IN : forall x, In x (unique_values (ravel n M)) <-> exists i j, i < n /\ j < n /\ M i j = x)
      by (intros x; rewrite (OrbitProofs.uv_in (ravel n M)); apply ColumnProofs2.ravel_in).
    assert (Im : In m (unique_values (ravel n M))) by (apply IN; eauto).
    destruct (unique_values (ravel n M)) as [|x l]; [destruct Im|]. cbn [hd].
    destruct (proj1 (IN x) (or_introl eq_refl)) as (a & b & Ha & Hb & Ex). specialize (Hm a b Ha Hb).
    inversion SSo as [|? ? _ F]; subst. rewrite Forall_forall in F. destruct Im as [Q|Q]; [exact Q|]. specialize (F _ Q). lia. }
  rewrite Hd in *. exists M', orb, repr. split; [exact E|]. intros v. split; [apply H8|]. intros (i & j & Hi & Hj & <-). apply H7; assumption.
Qed.
Print Assumptions C06_labels_consecutive.

(** Without symmetries everything is returned unchanged. *)
Theorem C06_no_symmetries : forall n M,
  exists orbits repr, apply_inflation_symmetries n M [] = Some (M, orbits, repr) /\
  forall i j, i < n -> j < n -> assoc orbits (M i j) = Some (M i j) /\ In (M i j) repr.
Proof.
  intros n M. eexists _, _. split; [reflexivity|]. intros i j Hi Hj. set (mx := fold_right Nat.max 0 (ravel n M)).
  assert (IN : M i j <= mx) by (apply ColumnProofs2.fold_max_ub, ColumnProofs2.ravel_in; eauto).
  pose proof (OrbitProofs2.assoc_combine_nth n M (seq 0 (S mx)) (seq 0 (S mx)) (M i j) (seq_NoDup _ _) eq_refl) as Q.
  rewrite seq_length, !seq_nth in Q by lia. cbn [Nat.add] in Q. split; [apply Q; lia|apply in_seq; lia].
Qed.
Print Assumptions C06_no_symmetries.

Example C06_nonvacuous :
  let M := fun i j => nth (i * 4 + j) [1;2;3;4; 2;2;5;6; 3;5;3;7; 4;6;7;4] 0 in
  let syms := [[0;2;1;3]] in
  group_with_identity 4 syms /\ acts_on_entries 4 M syms /\
  match apply_inflation_symmetries 4 M syms with
  | Some (M', orbits, repr) => map (fun i => map (M' i) (seq 0 4)) (seq 0 4) = [[1;2;2;3]; [2;2;4;5]; [2;4;2;5]; [3;5;5;3]]
      /\ orbits = [(1,1);(2,2);(3,2);(4,3);(5,4);(6,5);(7,5)] /\ repr = [1;2;4;5;6]
  | None => False end.
Proof.
  split; [|split; [|vm_compute; repeat split]].
  - assert (C : forall g, g = id_perm 4 \/ In g [[0;2;1;3]] <-> g = [0;1;2;3] \/ g = [0;2;1;3]) by (intros g; cbn; intuition).
    split; [|split].
    + intros g Hg. apply C in Hg. destruct Hg as [-> | ->]; [reflexivity|]. cbn. constructor. apply perm_swap.
    + intros g h Hg Hh. apply C in Hg, Hh. apply C. destruct Hg as [-> | ->], Hh as [-> | ->]; cbn; auto.
    + intros g Hg. apply C in Hg. destruct Hg as [-> | ->]; [exists [0;1;2;3]|exists [0;2;1;3]]; (split; [apply C; auto|reflexivity]).
  - intros g i j i' j' [<-|[]] Hi Hj Hi' Hj'.
    assert (C : forall k, k < 4 -> k = 0 \/ k = 1 \/ k = 2 \/ k = 3) by (intros; lia).
    destruct (C i Hi) as [->|[->|[->| ->]]], (C j Hj) as [->|[->|[->| ->]]], (C i' Hi') as [->|[->|[->| ->]]], (C j' Hj') as [->|[->|[->| ->]]];
      vm_compute; congruence.
Qed.

(** ** C34 *)
(** The column symmetries found are exactly the permutations of columns (other than the
    identity) induced by the operator symmetries that map columns to columns; with the
    identity they form a group of permutations of the columns. *)
Theorem C34_column_symmetries : forall sc commuting cols pi, wf_scenario sc ->
  (commuting = true -> forall a b, sdp_notcomm sc a b = false) ->
  good_columns (sdp_notcomm sc) (sdp_orthomat sc) (S (length (lexorder sc))) cols ->
  let D := discover_columns_symmetries (sdp_notcomm sc) (sdp_orthomat sc) commuting cols (sdp_lexorder_symmetries sc) in
  (In pi D <-> pi <> id_perm (length cols) /\
     exists g, In g (sdp_lexorder_symmetries sc) /\ moves_columns (sdp_notcomm sc) cols g pi) /\
  group_with_identity (length cols) D.
Proof.
  intros sc commuting cols pi W Hc GC. split.
  - eapply ColumnProofs.D_spec; eauto using ScenarioProofs.scenario_good_tables, ColumnProofs3.scenario_symmetries.
  - eapply ColumnProofs.columns_group; eauto using ScenarioProofs.scenario_good_tables, ColumnProofs3.scenario_symmetries.
Qed.
Print Assumptions C34_column_symmetries.

(** A symmetry is used unless it maps some column to something that is not a column. *)
Theorem C34_symmetry_used : forall sc commuting cols g, wf_scenario sc ->
  (commuting = true -> forall a b, sdp_notcomm sc a b = false) ->
  good_columns (sdp_notcomm sc) (sdp_orthomat sc) (S (length (lexorder sc))) cols ->
  In g (sdp_lexorder_symmetries sc) -> keeps_columns (sdp_notcomm sc) cols g ->
  exists pi, moves_columns (sdp_notcomm sc) cols g pi /\
    (pi = id_perm (length cols) \/
     In pi (discover_columns_symmetries (sdp_notcomm sc) (sdp_orthomat sc) commuting cols (sdp_lexorder_symmetries sc))).
Proof.
  intros sc commuting cols g W Hc GC Hg K.
  destruct (ColumnProofs.colperm_exists _ _ commuting _ _ _ (ScenarioProofs.scenario_good_tables sc W) Hc GC g Hg K) as (pi & M).
  exists pi. split; [exact M|]. eapply ColumnProofs.D_id_spec; eauto using ScenarioProofs.scenario_good_tables, ColumnProofs3.scenario_symmetries.
Qed.
Print Assumptions C34_symmetry_used.

(** They move equal entries of the moment matrix to equal entries. *)
Theorem C34_acts_on_moment_matrix : forall sc commuting cols M D, wf_scenario sc ->
  (commuting = true -> forall a b, sdp_notcomm sc a b = false) ->
  good_columns (sdp_notcomm sc) (sdp_orthomat sc) (S (length (lexorder sc))) cols ->
  calculate_momentmatrix (sdp_notcomm sc) (sdp_orthomat sc) commuting cols = Some (M, D) ->
  acts_on_entries (length cols) M
    (discover_columns_symmetries (sdp_notcomm sc) (sdp_orthomat sc) commuting cols (sdp_lexorder_symmetries sc)).
Proof.
  intros sc commuting cols M D W Hc GC E.
  destruct (MomentProofs.momentmatrix_correct _ _ (ScenarioProofs.scenario_good_tables sc W) commuting Hc cols) as (M0 & D0 & E0 & H1 & H2 & _).
  rewrite E in E0. injection E0 as <- <-.
  eapply ColumnProofs.columns_act; eauto using ScenarioProofs.scenario_good_tables, ColumnProofs3.scenario_symmetries.
  intros; apply H1; assumption.
Qed.
Print Assumptions C34_acts_on_moment_matrix.

(** C06 for the moment matrix of a scenario, in terms of the monomials themselves: after
    symmetrisation a cell is 0 exactly if its product is zero, two other cells carry the same
    index exactly if a relabelling of source copies that preserves the set of columns turns
    the moment of one into the moment of the other, every index has exactly one monomial of
    its orbit recorded, and index 1 belongs to the identity when the identity is the first
    column. *)
Theorem C06_scenario_moment_matrix : forall sc commuting cols, wf_scenario sc ->
  (commuting = true -> forall a b, sdp_notcomm sc a b = false) ->
  good_columns (sdp_notcomm sc) (sdp_orthomat sc) (S (length (lexorder sc))) cols ->
  let nc := sdp_notcomm sc in let ortho := sdp_orthomat sc in
  let syms := sdp_lexorder_symmetries sc in let n := length cols in
  exists M' orbits corresp, symmetrized_moment_matrix nc ortho commuting cols syms = Some (M', orbits, corresp) /\
  (forall i j, i < n -> j < n -> (M' i j = 0 <-> is_zero_product nc ortho (entry cols i j))) /\
  (forall i j i' j', i < n -> j < n -> i' < n -> j' < n -> M' i j <> 0 -> M' i' j' <> 0 ->
     (M' i j = M' i' j' <-> exists g, In g syms /\ keeps_columns nc cols g /\
                            same_moment nc ortho (apply_lexsym g (entry cols i j)) (entry cols i' j'))) /\
  NoDup (map fst corresp) /\
  (forall i j, i < n -> j < n -> M' i j <> 0 ->
     exists w g, assoc corresp (M' i j) = Some w /\ In g syms /\ keeps_columns nc cols g /\
                 same_moment nc ortho (apply_lexsym g (entry cols i j)) w) /\
  (forall k w, In (k, w) corresp -> k <> 0 /\ to_canonical_1d_internal nc ortho false false w = Some w /\
                 exists i j, i < n /\ j < n /\ M' i j = k) /\
  (hd [0] cols = [] -> M' 0 0 = 1 /\ assoc corresp 1 = Some []).
Proof.
  intros sc commuting cols W Hc GC. eapply ColumnProofs2.symmetrized_correct; eauto using ScenarioProofs.scenario_good_tables, ColumnProofs3.scenario_symmetries.
Qed.
Print Assumptions C06_scenario_moment_matrix.

Definition ex_cols : list word := [[]; [1]; [3]; [5]; [7]; [1; 3]; [5; 7]].
Example ex_cols_good : good_columns (sdp_notcomm ex_sc) (sdp_orthomat ex_sc) (S (length (lexorder ex_sc))) ex_cols.
Proof.
  split.
  - unfold ex_cols. repeat constructor; cbn; intuition discriminate.
  - change (length (lexorder ex_sc)) with 30. unfold ex_cols. cbn. intuition (subst; cbn in *; intuition lia).
  - intros w H. unfold ex_cols in H. cbn in H. repeat destruct H as [<-|H]; vm_compute; try reflexivity. destruct H.
Qed.
Example C34_nonvacuous :
  discover_columns_symmetries (sdp_notcomm ex_sc) (sdp_orthomat ex_sc) false ex_cols (sdp_lexorder_symmetries ex_sc)
   = [[0;3;4;1;2;6;5]] /\
  match symmetrized_moment_matrix (sdp_notcomm ex_sc) (sdp_orthomat ex_sc) false ex_cols (sdp_lexorder_symmetries ex_sc) with
  | Some (M', _, corresp) => map (fun i => map (M' i) (seq 0 7)) (seq 0 7) =
      [[1; 2; 3; 2; 3; 4; 4]; [2; 2; 4; 5; 6; 4; 7]; [3; 4; 3; 6; 8; 9; 10]; [2; 5; 6; 2; 4; 7; 4];
       [3; 6; 8; 4; 3; 10; 9]; [4; 4; 9; 7; 10; 9; 11]; [4; 7; 10; 4; 9; 11; 9]] /\
      corresp = [(1, []); (2, [1]); (3, [3]); (4, [1; 3]); (5, [1; 5]); (6, [1; 7]); (7, [1; 5; 7]);
                 (8, [3; 7]); (9, [3; 1; 3]); (10, [3; 5; 7]); (11, [3; 1; 5; 7])]
  | None => False end.
Proof. vm_compute. repeat split. Qed.
