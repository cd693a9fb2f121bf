(** The task passed to the solver exists, and the moments of an inflation solve it. *)
From Coq Require Import List Arith Bool QArith Qcanon Lia Permutation Sorted.
From Verif Require Import CanonModel ScenarioModel ScenarioSpec SymModel SymSpec KnowModel KnowSpec FactorModel FactorSpec MargModel QcSum LPModel LPSpec LPSpec2 InflatedSpec ProgramModel ProgramSpec ProgramProofs ProgramProofs2 ProgramProofs3 LPSolveModel LPSolveSpec LPSolveProofs ProgramLP ProgramLPProofs LPMomentModel LPMomentProofs LPMomentProofs2 ColumnsFacts SoundProofs SoundProofs2 GlueProofs GenerateProofs GenerateProofs2.
From Verif Require UniqueProofs ScenarioProofs SymProofs FactorProofs LPProofs10 PropProgram PropSolve.
Import ListNotations.
Close Scope Q_scope. Close Scope Qc_scope. Open Scope nat_scope.

(** there are operators *)
Lemma operators_exist sc : wf_scenario sc -> (forall o, In o (outcomes sc) -> 1 <= o) -> (forall k, In k (private_settings sc) -> 1 <= k) -> 0 < nr_parties sc -> 0 < length (lexorder sc).
Proof.
  intros W Ho Hs Np. assert (OL : forall p, p < nr_parties sc -> 1 <= nth p (outcomes sc) 0) by (intros p Hp; apply Ho, nth_In; exact Hp).
  assert (ND : exists c, In c (inflation_indices sc 0)).
  { exists (map (fun k => if memb 0 (s_children k) || existsb (fun l => memb 0 (l_desc l)) (s_latents k) then 1 else 0) (sources sc)). apply (ScenarioProofs.inflation_indices_in sc 0 _ W).
    assert (D : forall src, (if memb 0 (s_children src) || existsb (fun l => memb 0 (l_desc l)) (s_latents src) then 1 else 0) = 1 /\ reaches src 0 \/ (if memb 0 (s_children src) || existsb (fun l => memb 0 (l_desc l)) (s_latents src) then 1 else 0) = 0 /\ ~ reaches src 0).
    { intros src. destruct (memb 0 (s_children src)) eqn:M; cbn [orb].
      - left. split; [reflexivity|]. left. apply ScenarioProofs.memb_in, M.
      - destruct (existsb _ _) eqn:X.
        + left. split; [reflexivity|]. right. apply existsb_exists in X as (l & Hl & X). exists l. split; [exact Hl|apply ScenarioProofs.memb_in, X].
        + right. split; [reflexivity|]. intros [K|(l & Hl & K)].
          * apply ScenarioProofs.memb_in in K. congruence.
          * assert (X' : existsb (fun l => memb 0 (l_desc l)) (s_latents src) = true) by (apply existsb_exists; exists l; split; [exact Hl|apply ScenarioProofs.memb_in, K]). congruence. }
    split; [rewrite map_length; reflexivity|]. intros k src E. rewrite (nth_error_nth _ k 0 (map_nth_error _ k _ E)).
    assert (Lk : 1 <= nth k (levels sc) 0). { apply (wf_levels_pos sc W), nth_In. rewrite (wf_levels sc W). apply nth_error_Some. congruence. }
    destruct (D src) as [[-> R]|[-> R]]; (split; [intros R'|intros R']); try contradiction; lia. }
  destruct ND as (c & Hc).
  destruct (ScenarioProofs.effective_bijection sc 0) as (_ & _ & H & _). cbv zeta in H.
  destruct (H (map (fun _ => 0) (setting_shape sc 0))) as (s & Hs' & _).
  { unfold setting_shape. cbn [map]. constructor.
    - apply (Hs (nth 0 (private_settings sc) 0)). apply nth_In. rewrite (wf_settings sc W). exact Np.
    - rewrite map_map. assert (R : forall q, In q (nth 0 (parents sc) []) -> q < nr_parties sc).
      { intros q Hq. destruct (Nat.lt_ge_cases 0 (length (parents sc))) as [K|K]; [|rewrite nth_overflow in Hq by exact K; destruct Hq]. apply (wf_parents_range sc W (nth 0 (parents sc) [])); [apply nth_In, K|exact Hq]. }
      induction (nth 0 (parents sc) []) as [|q l IH]; cbn [map]; constructor; [apply OL, R; left; reflexivity|]. apply IH. intros q' Hq'. apply R. right. exact Hq'. }
  assert (I : In (mkrow (0 + 1) c s 0) (lexorder sc)).
  { apply ScenarioProofs.lexorder_in; [exact W|]. exists 0, c, s, 0. split; [reflexivity|]. apply (ScenarioProofs.inflation_indices_in sc 0 _ W) in Hc as [C1 C2]. split; [exact Np|]. split; [exact C1|]. split; [exact C2|]. split; [exact Hs'|]. apply (OL 0 Np). }
  destruct (lexorder sc); [destruct I|cbn; lia].
Qed.

Lemma mmem_true m l : mmem m l = true <-> In m l.
Proof. apply mmem_iff. Qed.
Lemma all_columns_iff P l : all_columns P l = true <-> forall m, In m l -> In m (columns P).
Proof. unfold all_columns. rewrite forallb_forall. split; intros H m Hm; apply mmem_true, H, Hm. Qed.

(** ** Points of the programme and of the task *)
Definition spread (P : lp_programme) (y : moment -> Qc) : nat -> Qc := fun j => y (nth j (columns P) []).
Lemma spread_column P y m : NoDup (columns P) -> In m (columns P) -> spread P y (column P m) = y m.
Proof.
  intros N H. unfold spread, column. destruct (UniqueProofs.index_of_in m_eqb m_eqb_eq m (columns P) [] H) as [_ ->]. reflexivity.
Qed.
Lemma lp_point_spread P nn s y rk ri a : NoDup (columns P) -> prepare_lp P nn rk ri s = Some a -> lp_point P nn s y -> lp_point P nn s (fun m => spread P y (column P m)).
Proof.
  intros N E [Q1 Q2 Q3 Q4 Q5 Q6 Q7 Q8 Q9]. destruct (prepared_parts P nn s a rk ri E) as (K & O & L & U & SK & SU & A & B).
  assert (Y : forall l m, all_columns P l = true -> In m l -> spread P y (column P m) = y m) by (intros l m H Hm; apply spread_column; [exact N|]; apply (proj1 (all_columns_iff P l) H m Hm)).
  assert (YE : forall d, all_columns P (keys d) = true -> expr_at (fun m => spread P y (column P m)) d = expr_at y d).
  { intros d H. unfold expr_at. apply sumQ_ext. intros (m & v) I. cbn [fst snd]. rewrite (Y (keys d) m H); [reflexivity|]. apply (in_map fst _ _ I). }
  assert (YM : forall j, j < length (columns P) -> spread P y (column P (nth j (columns P) [])) = y (nth j (columns P) [])) by (intros j Hj; apply spread_column; [exact N|apply nth_In, Hj]).
  rewrite forallb_forall in A, B.
  constructor.
  - intros i Hi. rewrite <- (Q1 i Hi). unfold entry_sum. apply sumQ_ext. intros e I. destruct (e_row e =? i); [|reflexivity]. destruct (Nat.lt_ge_cases (e_col e) (length (columns P))) as [K'|K']; [rewrite YM by exact K'; reflexivity|].
    rewrite nth_overflow by exact K'. unfold spread, column. f_equal. destruct (in_dec meq [] (columns P)) as [D|D].
    + destruct (UniqueProofs.index_of_in m_eqb m_eqb_eq [] (columns P) [] D) as [_ ->]. reflexivity.
    + f_equal. destruct (Nat.lt_ge_cases (index_of m_eqb [] (columns P)) (length (columns P))) as [K2|K2]; [|apply nth_overflow, K2].
      exfalso. apply D. clear - K2. induction (columns P) as [|c l IH]; cbn [index_of length] in *; [lia|]. destruct (m_eqb [] c) eqn:E; [left; symmetry; apply m_eqb_eq, E|]. right. apply IH. lia.
  - intros i Hi. specialize (Q2 i Hi). replace (entry_sum (minimal_sparse_inequalities P) i (fun j => spread P y (column P (nth j (columns P) [])))) with (entry_sum (minimal_sparse_inequalities P) i (fun j => y (nth j (columns P) []))); [exact Q2|].
    unfold entry_sum. apply sumQ_ext. intros e I. destruct (e_row e =? i); [|reflexivity]. destruct (Nat.lt_ge_cases (e_col e) (length (columns P))) as [K'|K']; [rewrite YM by exact K'; reflexivity|].
    rewrite nth_overflow by exact K'. unfold spread, column. f_equal. destruct (in_dec meq [] (columns P)) as [D|D].
    + destruct (UniqueProofs.index_of_in m_eqb m_eqb_eq [] (columns P) [] D) as [_ ->]. reflexivity.
    + f_equal. symmetry. destruct (Nat.lt_ge_cases (index_of m_eqb [] (columns P)) (length (columns P))) as [K2|K2]; [|apply nth_overflow, K2].
      exfalso. apply D. clear - K2. induction (columns P) as [|c l IH]; cbn [index_of length] in *; [lia|]. destruct (m_eqb [] c) eqn:E; [left; symmetry; apply m_eqb_eq, E|]. right. apply IH. lia.
  - intros d Hd. rewrite YE by apply A, Hd. apply Q3, Hd.
  - intros d Hd. rewrite YE by apply B, Hd. apply Q4, Hd.
  - intros m k u I. rewrite (Y _ m SK) by apply (in_map fst _ _ I). rewrite (Y _ u SU) by apply (in_map (fun p => snd (snd p)) _ _ I). apply Q5, I.
  - intros m v I. rewrite (Y _ m K) by apply (in_map fst _ _ I). apply Q6, I.
  - intros m v I. rewrite (Y _ m L) by apply (in_map fst _ _ I). apply Q7, I.
  - intros m v I. rewrite (Y _ m U) by apply (in_map fst _ _ I). apply Q8, I.
  - intros NN m I. rewrite spread_column by assumption. apply Q9; assumption.
Qed.
(** without the known values *)
Definition forget (s : state) : state := with_values [] (semiknown s) s.
Lemma possible_spread P nn s y rk ri a : programme_ok P -> (forall d, In d (extra_equalities s) -> d <> []) /\ (forall d, In d (extra_inequalities s) -> d <> []) ->
  prepare_lp P nn rk ri s = Some a -> lp_point P nn (forget s) y -> possible (length (columns P)) a (spread P y).
Proof.
  intros OK EX E Y. pose proof (po_columns _ OK) as N. destruct (prepared_parts P nn s a rk ri E) as (K & O & L & U & SK & SU & A & B).
  destruct (prepare_lp P nn false false (forget s)) as [a2|] eqn:E2.
  - pose proof (lp_point_spread P nn (forget s) y false false a2 N E2 Y) as LP.
    apply (proj2 (linked P nn (forget s) a2 OK EX false false E2 (spread P y) eq_refl eq_refl)) in LP. rewrite (prepared_is P nn (forget s) a2 false false E2) in LP. rewrite (prepared_is P nn s a rk ri E).
    destruct LP as [Q1 Q2 Q3 Q4 Q5 Q6]. cbn in *. constructor; cbn; auto.
    + intros i Hi. specialize (Q1 i Hi). rewrite Qcplus_0_r in Q1. exact Q1.
  - exfalso. unfold prepare_lp in E2. cbn [forget with_values known semiknown lower upper ProgramModel.objective extra_equalities extra_inequalities] in E2. rewrite O, L, U, SK, SU, A, B in E2. cbn in E2. discriminate.
Qed.
