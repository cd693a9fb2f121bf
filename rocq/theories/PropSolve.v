(** C26: the linear programme handed to the solver and the certificate read off its
    solution (inflation/lp/lp_utils.py). *)
From Coq Require Import List Arith Bool QArith Qcanon Lia Lqa Permutation.
From Verif Require Import MargModel FactorModel QcSum QcArith UniqueProofs Duality LPSolveModel LPSolveSpec LPSolveProofs LPSolveProofs2 LPSolveProofs3 LPSolveProofs4 LPSolveProofs5.
Import ListNotations.
Open Scope nat_scope.

Lemma prepared_of n a s : args_ok n a -> prepare a = Some s -> prepared n a s.
Proof. intros OK E. destruct (prepare_ok n a OK) as (s' & E' & P). rewrite E in E'. injection E' as ->. assumption. Qed.

(** Both tasks can always be built. *)
Theorem C26_tasks_are_built n a : args_ok n a -> exists s t, prepare a = Some s /\ dual_task a s = Some t.
Proof. intros OK. destruct (prepare_ok n a OK) as (s & E & P). destruct (dual_task_ok n a s OK P) as (t & dm & E' & _). eauto. Qed.

(** The primal task is the problem of the arguments: same points, same value.  In a relaxed
    problem the slack is the variable after the last one. *)
Theorem C26_primal_task_is_the_problem n a s : args_ok n a -> lower_bounds_nonneg a -> prepare a = Some s ->
  forall x, (task_feasible (primal_task a s) x <-> problem_point n a x (x n)) /\
            task_value (primal_task a s) x = problem_value a x (x n) /\ t_maximize (primal_task a s) = true.
Proof. intros OK LB E x. apply primal_task_ok; auto. apply prepared_of; auto. Qed.

Lemma problem_point_ext n a x x' l : args_ok n a -> (forall j, j < n -> x j = x' j) -> problem_point n a x l -> problem_point n a x' l.
Proof.
  intros OK E [H1 H2 H3 H4 H5 H6].
  assert (ES : forall m, matrix_ok n m -> forall i, entry_sum m i x' = entry_sum m i x).
  { intros m M i. unfold entry_sum. apply sumQ_ext. intros e I. rewrite E by apply (mo_rows _ _ M e I). reflexivity. }
  constructor.
  - intros i I. rewrite ES by apply (ao_ineq _ _ OK). auto.
  - intros i I. rewrite ES by apply (ao_eq _ _ OK). auto.
  - intros e I. specialize (H3 e I). rewrite (E (e_col e)) in H3 by apply (vo_rows _ _ (ao_known _ _ OK) e I). exact H3.
  - intros e I. rewrite <- E by apply (vo_rows _ _ (ao_lower _ _ OK) e I). auto.
  - intros e I. rewrite <- E by apply (vo_rows _ _ (ao_upper _ _ OK) e I). auto.
  - intros R D j J. rewrite <- E by assumption. auto. Qed.
Definition with_slack (n : nat) (x : nat -> Qc) (l : Qc) : nat -> Qc := fun j => if j =? n then l else x j.
Lemma with_slack_point n a x l : args_ok n a -> problem_point n a x l ->
  problem_point n a (with_slack n x l) (with_slack n x l n) /\ problem_value a (with_slack n x l) (with_slack n x l n) = problem_value a x l.
Proof.
  intros OK PP. assert (WN : with_slack n x l n = l) by (unfold with_slack; rewrite Nat.eqb_refl; reflexivity). rewrite WN.
  assert (WX : forall j, j < n -> x j = with_slack n x l j) by (intros j J; unfold with_slack; rewrite (proj2 (Nat.eqb_neq j n)) by lia; reflexivity).
  split; [apply problem_point_ext with x; auto|]. unfold problem_value. destruct (relaxed a); [reflexivity|]. unfold objective_at. apply sumQ_ext. intros e I.
  rewrite <- WX by apply (vo_rows _ _ (ao_obj _ _ OK) e I). reflexivity. Qed.

(** Every value of the dual task is an upper bound on the value of every point. *)
Theorem C26_dual_bounds_primal n a s t : args_ok n a -> prepare a = Some s -> dual_task a s = Some t ->
  forall x l y, problem_point n a x l -> task_feasible t y -> (problem_value a x l <= task_value t y)%Qc.
Proof.
  intros OK E E' x l y PP TF. pose proof (prepared_of n a s OK E) as P.
  destruct (dual_task_ok n a s OK P) as (t' & dm & E'' & SH & W & R & AC & F & V & _). rewrite E' in E''. injection E'' as <-.
  destruct (with_slack_point n a x l OK PP) as (PP' & PV). rewrite <- PV.
  rewrite V. pose proof (costs_value n a s OK P (with_slack n x l)) as CV. rewrite <- CV. apply F in TF.
  eapply (weak_duality (length (all_rows a s)) _ (mat dm) (row_rhs a s) (row_kind a s) (fun j => nth j (costs n a s) 0%Qc) (non_negative a)).
  - apply (form_is_problem n a s OK P dm); auto.
  - exact TF. Qed.

(** The bound is tight: whatever bounds the points of the problem is reached by the dual. *)
Theorem C26_dual_is_tight n a s t : args_ok n a -> prepare a = Some s -> dual_task a s = Some t ->
  forall v, (exists x l, problem_point n a x l) -> (forall x l, problem_point n a x l -> (problem_value a x l <= v)%Qc) ->
  exists y, task_feasible t y /\ (task_value t y <= v)%Qc.
Proof.
  intros OK E E' v (x0 & l0 & P0) BD. pose proof (prepared_of n a s OK E) as P.
  destruct (dual_task_ok n a s OK P) as (t' & dm & E'' & SH & W & R & AC & F & V & _). rewrite E' in E''. injection E'' as <-.
  destruct (strong_duality (length (all_rows a s)) (if relaxed a then n + 1 else n) (mat dm) (row_rhs a s) (row_kind a s) (cost n a s) (non_negative a) v) as (y & D & VY).
  - exists (with_slack n x0 l0). apply (form_is_problem n a s OK P dm); auto. apply with_slack_point; auto.
  - intros x X. apply (form_is_problem n a s OK P dm) in X; auto. unfold primal_value, cost. pose proof (costs_value n a s OK P x) as CV. cbn zeta in CV. rewrite CV. apply BD. assumption.
  - exists y. split; [apply F; assumption|]. rewrite V. assumption. Qed.

(** An infeasible problem is detected: the dual is unbounded (if it has any point). *)
Theorem C26_infeasibility_is_detected n a s t : args_ok n a -> prepare a = Some s -> dual_task a s = Some t ->
  (forall x l, ~ problem_point n a x l) -> forall y v, task_feasible t y -> exists y', task_feasible t y' /\ (task_value t y' <= v)%Qc.
Proof.
  intros OK E E' NF y v TF. pose proof (prepared_of n a s OK E) as P.
  destruct (dual_task_ok n a s OK P) as (t' & dm & E'' & SH & W & R & AC & F & V & _). rewrite E' in E''. injection E'' as <-.
  destruct (infeasible_primal (length (all_rows a s)) (if relaxed a then n + 1 else n) (mat dm) (row_rhs a s) (row_kind a s) (cost n a s) (non_negative a)) with (y := y) (t := v) as (y' & D & VY).
  - intros (x & X). apply (form_is_problem n a s OK P dm) in X; auto. exact (NF _ _ X).
  - apply F. assumption.
  - exists y'. split; [apply F; assumption|]. rewrite V. assumption. Qed.

(** ** The certificate *)
(** the relaxed modes are used without an objective *)
Definition objective_fits (a : lp_args) : Prop := objective_unknown a /\ (relaxed a = true -> c_ent (objective a) = []).

(** Without explicit bounds, the certificate read off a solution of the dual task is
    non-negative at every point possible for any known values. *)
Theorem C26_certificate_is_valid n a s t y : args_ok n a -> no_bounds a -> objective_fits a -> prepare a = Some s -> dual_task a s = Some t ->
  task_feasible t y -> forall x, possible n a x -> (0 <= certificate_at n (certificate a s (map y (seq 0 (t_numvar t)))) x)%Qc.
Proof.
  intros OK NB (OU & OR) E E' TF x PO. pose proof (prepared_of n a s OK E) as P.
  destruct (dual_task_ok n a s OK P) as (t' & dm & E'' & SH & W & R & AC & F & V & _ & NV). rewrite E' in E''. injection E'' as <-.
  apply F in TF. assert (LEN : c_rows (s_matrix s) <= t_numvar t) by (rewrite NV, (all_rows_length n a s OK P); lia).
  pose proof (certificate_sound n a s y (t_numvar t) OK P LEN NB dm SH W R AC TF x PO) as CS.
  fold (cert a s y (t_numvar t)). rewrite (cert_value n a s y (t_numvar t) OK P LEN), (objective_all_unknown n a s y (t_numvar t) OK P LEN x OU).
  unfold problem_value in CS. destruct (relaxed a) eqn:RX; [|qclra]. unfold objective_at. rewrite (OR eq_refl). cbn [map]. rewrite sumQ_nil. qclra. Qed.

(** At points with the given known values it is the distance of the objective from the dual
    value; so a negative dual value of a feasibility problem makes it negative there. *)
Theorem C26_certificate_at_known n a s t y : args_ok n a -> no_bounds a -> objective_unknown a -> prepare a = Some s -> dual_task a s = Some t ->
  forall x, (forall e, In e (c_ent (known_vars a)) -> x (e_col e) = e_val e) ->
  certificate_at n (certificate a s (map y (seq 0 (t_numvar t)))) x = (task_value t y - objective_at a x)%Qc.
Proof.
  intros OK NB OU E E' x KN. pose proof (prepared_of n a s OK E) as P.
  destruct (dual_task_ok n a s OK P) as (t' & dm & E'' & SH & W & R & AC & F & V & _ & NV). rewrite E' in E''. injection E'' as <-.
  assert (LEN : c_rows (s_matrix s) <= t_numvar t) by (rewrite NV, (all_rows_length n a s OK P); lia).
  fold (cert a s y (t_numvar t)). rewrite (cert_value n a s y (t_numvar t) OK P LEN), (objective_all_unknown n a s y (t_numvar t) OK P LEN x OU).
  rewrite V, (certificate_dual_value n a s y (t_numvar t) OK P LEN NB). f_equal. apply sumQ_ext. intros (i & e) I. cbn [fst snd]. rewrite KN; [reflexivity|].
  apply (in_known n a s OK P). apply in_combine_r in I. assumption. Qed.

(** The same holds for the multipliers reported with a solution of the primal task. *)
Theorem C26_certificate_from_primal_is_valid n a s y : args_ok n a -> no_bounds a -> objective_fits a -> prepare a = Some s ->
  multipliers (primal_task a s) y -> forall x, possible n a x -> (0 <= certificate_at n (certificate a s (map y (seq 0 (t_numcon (primal_task a s))))) x)%Qc.
Proof.
  intros OK NB (OU & OR) E (M1 & M2) x PO. pose proof (prepared_of n a s OK E) as P.
  destruct (no_bound_rows n a s y (c_rows (s_matrix s)) OK P (le_n _) NB) as (NL & NU).
  assert (ALL : all_rows a s = main_rows a s) by (unfold all_rows, bound_rows; rewrite NL, NU; cbn; apply app_nil_r).
  pose proof (main_rows_length n a s OK P) as ML.
  set (len := t_numcon (primal_task a s)). assert (LEN : c_rows (s_matrix s) <= len) by apply le_n.
  pose proof (p_cols _ _ _ P) as W.
  assert (DF : dual_feasible (length (all_rows a s)) (if relaxed a then n + 1 else n) (mat (s_matrix s)) (row_kind a s) (cost n a s) (non_negative a) y).
  { split.
    - intros i I. rewrite ALL in I. unfold row_kind. rewrite ALL. specialize (M1 i). cbn [primal_task t_numcon t_con] in M1. rewrite ML in I. specialize (M1 I).
      assert (KEYS : repeat lo (s_ineq s) ++ repeat fx (s_eq s) ++ (if relax_known_vars a then repeat lo (nnz (s_known s)) ++ repeat up (nnz (s_known s)) else []) = map (fun r => match fst r with AtLeast => lo | Equal => fx | AtMost => up end) (main_rows a s)).
      { unfold main_rows. rewrite !map_app, !(map_repeat n a s OK P). cbn [fst]. rewrite (p_ineq _ _ _ P), (p_eq _ _ _ P). f_equal. destruct (relax_known_vars a).
        - rewrite !map_app, !map_map. cbn [fst]. rewrite (map_const n a s OK P (fun _ : entry => lo) lo), (map_const n a s OK P (fun _ : entry => up) up) by reflexivity. reflexivity.
        - rewrite !map_map. cbn [fst]. rewrite (map_const n a s OK P (fun _ : entry => fx) fx) by reflexivity. change (length (c_ent (s_known s))) with (nnz (s_known s)). rewrite (nnz_known n a s OK P), repeat_app, app_nil_r. reflexivity. }
      assert (LB : length (s_b s) = length (main_rows a s)).
      { rewrite ML, (p_b _ _ _ P), (p_rows _ _ _ P), app_length, repeat_length. destruct (relax_known_vars a); rewrite ?app_length, !vec_data_length, (nnz_known n a s OK P); lia. }
      rewrite KEYS in M1. unfold bound in M1. rewrite !combine_nth in M1 by (rewrite ?combine_length, ?map_length; lia).
      rewrite (nth_map_d _ (main_rows a s) _ _ (Equal, 0%Qc)) in M1 by lia. cbn [fst] in M1. destruct (fst (nth i (main_rows a s) (Equal, 0%Qc))); cbn; auto.
    - intros j J. specialize (M2 j). cbn [primal_task t_numvar t_c t_cols t_var] in M2. rewrite W in M2. specialize (M2 J). cbn zeta in M2.
      fold (costs n a s) in M2. fold (cost n a s j) in M2.
      assert (CS : sumQ (map (fun q => snd q * y (fst q))%Qc (nth j (csc (s_matrix s)) [])) = sumn (length (all_rows a s)) (fun i => mat (s_matrix s) i j * y i)%Qc).
      { unfold csc. rewrite nth_map_seq_d by (rewrite W; assumption). rewrite map_map, sumQ_if_filter. cbn [fst snd]. rewrite ALL, ML. apply col_sum_mat, (p_shape _ _ _ P). }
      rewrite CS in M2.
      assert (VC : vec_cols (s_upper s) = [] /\ vec_cols (s_lower s) = [] /\ vec_data (s_upper s) = [] /\ vec_data (s_lower s) = []) by (unfold vec_cols, vec_data; rewrite NL, NU; auto).
      destruct VC as (VC1 & VC2 & VC3 & VC4). rewrite VC1, VC2, VC3, VC4 in M2. cbn [filter map put combine fold_left] in M2.
      unfold bound in M2. set (nv := if relaxed a then n + 1 else n) in *.
      assert (KEY : fst (fst (nth j (combine (combine (if relaxed a then set_last (if non_negative a then repeat lo nv else repeat fr nv) fr else (if non_negative a then repeat lo nv else repeat fr nv)) (repeat 0%Qc nv)) (repeat 0%Qc nv)) (fr, 0%Qc, 0%Qc)))
                    = if non_negative a then lo else fr).
      { rewrite !combine_nth.
        - cbn [fst]. unfold non_negative. destruct (relaxed a).
          + unfold set_last. rewrite repeat_length, nth_set_nth by (rewrite repeat_length; assumption). destruct (_ =? _); [reflexivity|apply nth_repeat].
          + destruct (default_non_negative a); [apply nth_repeat_lt; assumption|apply nth_repeat].
        - destruct (relaxed a); unfold set_last; rewrite ?set_nth_length; destruct (non_negative a); rewrite !repeat_length; reflexivity.
        - rewrite combine_length. destruct (relaxed a); unfold set_last; rewrite ?set_nth_length; destruct (non_negative a); rewrite !repeat_length; lia. }
      rewrite KEY in M2. destruct (non_negative a); qclra. }
  pose proof (certificate_sound n a s y len OK P LEN NB (s_matrix s) (p_shape _ _ _ P) W ltac:(rewrite ALL, ML; reflexivity)) as CS.
  specialize (CS ltac:(intros z; rewrite NL, NU; cbn; rewrite app_nil_r; reflexivity) DF x PO).
  fold (cert a s y len). rewrite (cert_value n a s y len OK P LEN), (objective_all_unknown n a s y len OK P LEN x OU).
  unfold problem_value in CS. destruct (relaxed a) eqn:RX; [|qclra]. unfold objective_at. rewrite (OR eq_refl). cbn [map]. rewrite sumQ_nil. qclra. Qed.

(** ** Bounds and semi-known values as rows *)
Lemma entry_sum_indexed {A} (g : A -> list (nat * Qc)) (d : A) l : forall k i x m,
  c_ent m = flat_map (fun p => map (fun q => (fst p, fst q, snd q)) (g (snd p))) (combine (seq k (length l)) l) ->
  i < length l -> entry_sum m (k + i) x = sumQ (map (fun q => snd q * x (fst q))%Qc (g (nth i l d))).
Proof.
  induction l as [|e l IH]; intros k i x m E I; [cbn in I; lia|]. unfold entry_sum. rewrite E. cbn [length seq combine flat_map]. rewrite map_app, sumQ_app, !map_map. cbn [e_row e_col e_val fst snd].
  destruct i as [|i].
  - rewrite Nat.add_0_r. cbn [nth]. transitivity (sumQ (map (fun q => snd q * x (fst q))%Qc (g e)) + 0)%Qc; [|ring].
    f_equal; [apply sumQ_ext; intros q _; rewrite Nat.eqb_refl; reflexivity|].
    apply sumQ_zero. intros ((r & c) & w) V. apply in_flat_map in V. destruct V as ((j & e') & J & V). apply in_combine_l, in_seq in J.
    apply in_map_iff in V. destruct V as (q & Q & _). cbn [fst snd] in Q. injection Q as <- _ _. unfold e_row. cbn [fst]. rewrite (proj2 (Nat.eqb_neq j k)) by lia. reflexivity.
  - specialize (IH (S k) i x (Coo 0 0 (flat_map (fun p => map (fun q => (fst p, fst q, snd q)) (g (snd p))) (combine (seq (S k) (length l)) l))) eq_refl ltac:(cbn in I; lia)).
    unfold entry_sum in IH. cbn [c_ent] in IH. cbn [nth]. rewrite <- IH. replace (k + S i) with (S k + i) by lia.
    match goal with |- (?u + ?v)%Qc = _ => transitivity (0 + v)%Qc; [f_equal|rewrite Qcplus_0_l; reflexivity] end. apply sumQ_zero. intros q _. unfold e_row. cbn [fst snd]. rewrite (proj2 (Nat.eqb_neq k (S k + i))) by lia. reflexivity. Qed.
(** Bounds passed as inequalities (separate_bounds=False): one row per bound, in terms of
    the first variable, the constant 1. *)
Theorem C26_bound_rows v i x : i < c_rows (expand_sparse_vec style_lb v) -> forall e, nth i (c_ent v) (0, 0, 0%Qc) = e ->
  entry_sum (expand_sparse_vec style_lb v) i x = (x (e_col e) - e_val e * x 0%nat)%Qc /\
  entry_sum (expand_sparse_vec style_ub v) i x = (e_val e * x 0%nat - x (e_col e))%Qc /\
  entry_sum (expand_sparse_vec style_eq v) i x = x (e_col e).
Proof.
  intros I e EE. cbn [expand_sparse_vec c_rows] in I. split; [|split].
  - rewrite (entry_sum_indexed (fun e => [(e_col e, 1%Qc); (0, (- e_val e)%Qc)]) (0, 0, 0%Qc) (c_ent v) 0 i x); [|apply flat_map_ext; intros (j & f); reflexivity|assumption].
    rewrite EE. cbn [map fst snd]. rewrite !sumQ_cons, sumQ_nil. ring.
  - rewrite (entry_sum_indexed (fun e => [(e_col e, (- (1))%Qc); (0, e_val e)]) (0, 0, 0%Qc) (c_ent v) 0 i x); [|apply flat_map_ext; intros (j & f); reflexivity|assumption].
    rewrite EE. cbn [map fst snd]. rewrite !sumQ_cons, sumQ_nil. ring.
  - rewrite (entry_sum_indexed (fun e => [(e_col e, 1%Qc)]) (0, 0, 0%Qc) (c_ent v) 0 i x); [|cbn [expand_sparse_vec c_ent]; unfold nnz; generalize (combine (seq 0 (length (c_ent v))) (c_ent v)); intros l; induction l as [|(j & f) l IH]; cbn; [reflexivity|rewrite IH; reflexivity]|assumption].
    rewrite EE. cbn [map fst snd]. rewrite !sumQ_cons, sumQ_nil. ring. Qed.
(** Semi-known values become equalities x = c * x2. *)
Theorem C26_semiknown_rows n semi i x : i < length semi -> forall j c j2, nth i semi (0, (0%Qc, 0)) = (j, (c, j2)) ->
  entry_sum (semiknown_matrix n semi) i x = (x j - c * x j2)%Qc.
Proof.
  intros I j c j2 EE. pose proof (entry_sum_indexed (fun p : nat * (Qc * nat) => [(fst p, 1%Qc); (snd (snd p), (- fst (snd p))%Qc)]) (0, (0%Qc, 0)) semi 0 i x (semiknown_matrix n semi)) as EI.
  change (0 + i) with i in EI; rewrite EI; [|apply flat_map_ext; intros (z & (y & (c0 & y2))); reflexivity|assumption].
  rewrite EE. cbn [map fst snd]. rewrite !sumQ_cons, sumQ_nil. ring. Qed.

(** ** Concrete cases *)
(** x0 >= x1 >= x2, x0 = x1 + x2, all non-negative, x0 = 1; maximise x1 *)
Definition ex_args : lp_args := {|
  objective := Coo 1 3 [(0, 1, 1%Qc)]; known_vars := Coo 1 3 [(0, 0, 1%Qc)];
  inequalities := Coo 2 3 [(0, 0, 1%Qc); (0, 1, (- (1))%Qc); (1, 1, 1%Qc); (1, 2, (- (1))%Qc)];
  equalities := Coo 1 3 [(0, 0, 1%Qc); (0, 1, (- (1))%Qc); (0, 2, (- (1))%Qc)];
  lower_bounds := blank_coo; upper_bounds := blank_coo;
  default_non_negative := true; relax_known_vars := false; relax_inequalities := false |}.
Ltac all_in := apply Forall_forall; cbn [c_ent]; repeat (apply Forall_cons || apply Forall_nil); cbn; try lia.
Ltac vector_tac := split; [cbn; tauto|all_in|cbn; repeat constructor; cbn; intuition lia].
Theorem C26_example_args : args_ok 3 ex_args /\ no_bounds ex_args /\ objective_fits ex_args /\ lower_bounds_nonneg ex_args.
Proof.
  split; [|split; [split; reflexivity|split; [|intros _ _ e []]]].
  - split; try (cbn; lia); try vector_tac.
    + split; [cbn; tauto|all_in|]. intros [|[|i]] I; [exists (0, 0, 1%Qc)|exists (1, 1, 1%Qc)|cbn in I; lia]; cbn; auto.
    + split; [cbn; tauto|all_in|]. intros [|i] I; [exists (0, 0, 1%Qc)|cbn in I; lia]; cbn; auto.
  - split; [|discriminate]. intros e e' [<-|[]] [<-|[]]. discriminate. Qed.
(** deciding feasibility of concrete points *)
Definition qcle_b (x y : Qc) : bool := Qle_bool (this x) (this y).
Lemma qcle_b_ok x y : qcle_b x y = true -> (x <= y)%Qc.
Proof. intros H. apply Qle_bool_iff in H. exact H. Qed.
Definition within_b (b : bound) (v : Qc) : bool :=
  let '(k, l, u) := b in match k with lo => qcle_b l v | up => qcle_b v u | fx => Qc_eq_bool v l && Qc_eq_bool v u | fr => true | ra => qcle_b l v && qcle_b v u end.
Lemma within_b_ok b v : within_b b v = true -> within b v.
Proof.
  destruct b as ((k & l) & u). destruct k; cbn; intros H; try apply andb_true_iff in H; auto using qcle_b_ok.
  - split; apply Qc_eq_bool_correct; apply H.
  - split; apply qcle_b_ok; apply H. Qed.
Definition task_feasible_b (t : task) (z : nat -> Qc) : bool :=
  forallb (fun i => within_b (nth i (t_con t) (fr, 0, 0)%Qc) (activity t i z)) (seq 0 (t_numcon t)) &&
  forallb (fun j => within_b (nth j (t_var t) (fr, 0, 0)%Qc) (z j)) (seq 0 (t_numvar t)).
Lemma task_feasible_b_ok t z : task_feasible_b t z = true -> task_feasible t z.
Proof. intros H. apply andb_true_iff in H. destruct H as (H & K). rewrite forallb_forall in H, K. split; intros i I; apply within_b_ok; [apply H|apply K]; apply in_seq; lia. Qed.
Definition the_setup (a : lp_args) : setup := match prepare a with Some s => s | None => Build_setup blank_coo [] 0 0 blank_coo blank_coo blank_coo blank_coo end.
Definition the_dual (a : lp_args) : task := match dual_task a (the_setup a) with Some t => t | None => Build_task true 0 0 [] [] [] [] end.
Lemma the_setup_ok a : (match prepare a with Some _ => true | None => false end) = true -> prepare a = Some (the_setup a).
Proof. unfold the_setup. destruct (prepare a); [reflexivity|discriminate]. Qed.
Lemma the_dual_ok a : (match dual_task a (the_setup a) with Some _ => true | None => false end) = true -> dual_task a (the_setup a) = Some (the_dual a).
Proof. unfold the_dual. destruct (dual_task a (the_setup a)); [reflexivity|discriminate]. Qed.
Ltac built_tac := split; [apply the_setup_ok; vm_compute; reflexivity|]; split; [apply the_dual_ok; vm_compute; reflexivity|].
Ltac dual_tac := apply task_feasible_b_ok; vm_compute; reflexivity.
Ltac qceq := apply Qc_eq_bool_correct; vm_compute; reflexivity.
Ltac qcle := apply qcle_b_ok; vm_compute; reflexivity.
Ltac qclt := apply Qcnot_le_lt; unfold Qcle; intros LE; apply Qle_bool_iff in LE; revert LE; vm_compute; discriminate.
Ltac pt_tac := solve [intros i I; exfalso; revert I; cbn; lia | cbn; intros; tauto | intros [|i] I; [(qcle || qceq)|cbn in I; lia] | intros e [<-|[]]; (reflexivity||qcle) | intros _ _ j _; qcle].
Definition ex_y (i : nat) : Qc := nth i [0; 0; - (1); 1]%Qc 0%Qc.
Definition half : Qc := (1 / (1 + 1))%Qc.
Theorem C26_example_solution : exists s t, prepare ex_args = Some s /\ dual_task ex_args s = Some t /\ task_feasible t ex_y /\
  task_value t ex_y = 1%Qc /\ certificate ex_args s (map ex_y (seq 0 (t_numvar t))) = [1; - (1); 0]%Qc /\ problem_point 3 ex_args (fun j => nth j [1; 1; 0]%Qc 0%Qc) 0%Qc /\ possible 3 ex_args (fun j => nth j [1 + 1; 1; 1]%Qc 0%Qc).
Proof.
  exists (the_setup ex_args), (the_dual ex_args). built_tac. split; [|split; [|split; [|split]]].
  - dual_tac.
  - qceq.
  - change (t_numvar (the_dual ex_args)) with 4. apply (nth_ext _ _ 0%Qc 0%Qc); [reflexivity|]. intros i I. change (i < 3) in I. destruct i as [|[|[|i]]]; [qceq|qceq|qceq|lia].
  - split; try (cbn; intros; tauto).
    + intros i I. cbn in I. destruct i as [|[|i]]; [qcle|qcle|lia].
    + intros i I. cbn in I. destruct i as [|i]; [|lia]. qceq.
    + intros e [<-|[]]. reflexivity.
    + intros _ _ [|[|[|j]]] J; try lia; qcle.
  - split; try (cbn; intros; tauto).
    + intros i I. cbn in I. destruct i as [|[|i]]; [qcle|qcle|lia].
    + intros i I. cbn in I. destruct i as [|i]; [|lia]. qceq.
    + intros _ _ [|[|[|j]]] J; try lia; qcle. Qed.

(** ** What the code does not guarantee *)
(** If the objective involves a known variable, its coefficient is dropped from the
    certificate, which may then be negative at a point of the problem itself: x0 >= 0 with
    x0 = 1, maximise -x0. *)
Definition known_objective_args : lp_args := {|
  objective := Coo 1 1 [(0, 0, (- (1))%Qc)]; known_vars := Coo 1 1 [(0, 0, 1%Qc)];
  inequalities := Coo 1 1 [(0, 0, 1%Qc)]; equalities := blank_coo;
  lower_bounds := blank_coo; upper_bounds := blank_coo;
  default_non_negative := true; relax_known_vars := false; relax_inequalities := false |}.
Theorem C26_known_objective_certificate_refuted : let a := known_objective_args in
  args_ok 1 a /\ no_bounds a /\ exists s t y, prepare a = Some s /\ dual_task a s = Some t /\ task_feasible t y /\
  problem_point 1 a (fun _ => 1%Qc) 0%Qc /\ possible 1 a (fun _ => 1%Qc) /\ task_value t y = objective_at a (fun _ => 1%Qc) /\
  (certificate_at 1 (certificate a s (map y (seq 0 (t_numvar t)))) (fun _ => 1) < 0)%Qc.
Proof.
  intros a. split; [|split; [split; reflexivity|]].
  { split; try (cbn; lia); try vector_tac.
    - split; [cbn; tauto|all_in|]. intros [|i] I; [exists (0, 0, 1%Qc)|cbn in I; lia]; cbn; auto. }
  exists (the_setup a), (the_dual a), (fun i => nth i [0; - (1)]%Qc 0%Qc). built_tac. split; [dual_tac|].
  split; [|split; [|split; [qceq|qclt]]]; split; pt_tac. Qed.
(** Explicit bounds are used in the dual but left out of the certificate: x1 >= x0, x1 <= 1/2,
    x0 = 1 is rightly reported infeasible, with a certificate (-x0 >= 0) which the possible
    point x0 = x1 = 1/4 violates. *)
Definition bounds_args : lp_args := {|
  objective := blank_coo; known_vars := Coo 1 2 [(0, 0, 1%Qc)];
  inequalities := Coo 1 2 [(0, 1, 1%Qc); (0, 0, (- (1))%Qc)]; equalities := blank_coo;
  lower_bounds := blank_coo; upper_bounds := Coo 1 2 [(0, 1, half)];
  default_non_negative := true; relax_known_vars := false; relax_inequalities := false |}.
Theorem C26_bounds_certificate_refuted : let a := bounds_args in
  args_ok 2 a /\ objective_fits a /\ exists s t y x, prepare a = Some s /\ dual_task a s = Some t /\ task_feasible t y /\
  (task_value t y < 0)%Qc /\ possible 2 a x /\ (certificate_at 2 (certificate a s (map y (seq 0 (t_numvar t)))) x < 0)%Qc.
Proof.
  intros a. split; [|split; [split; [intros e e' []|discriminate]|]].
  { split; try (cbn; lia); try vector_tac.
    - split; [cbn; tauto|all_in|]. intros [|i] I; [exists (0, 1, 1%Qc)|cbn in I; lia]; cbn; auto. }
  exists (the_setup a), (the_dual a), (fun i => nth i [- (1); - (1); - (1)]%Qc 0%Qc), (fun _ => (half * half)%Qc). built_tac. split; [dual_tac|].
  split; [qclt|]. split; [|qclt]. split; pt_tac. Qed.
(** A negative lower bound replaces the default non-negativity in the primal task but not in
    the dual one, so that the two describe different problems: -x0 >= 0, x0 >= -1, maximise
    -x0. *)
Definition negative_bound_args : lp_args := {|
  objective := Coo 1 1 [(0, 0, (- (1))%Qc)]; known_vars := blank_coo;
  inequalities := Coo 1 1 [(0, 0, (- (1))%Qc)]; equalities := blank_coo;
  lower_bounds := Coo 1 1 [(0, 0, (- (1))%Qc)]; upper_bounds := blank_coo;
  default_non_negative := true; relax_known_vars := false; relax_inequalities := false |}.
Theorem C26_negative_lower_bound_refuted : let a := negative_bound_args in
  args_ok 1 a /\ exists s t x y, prepare a = Some s /\ dual_task a s = Some t /\ task_feasible (primal_task a s) x /\ task_feasible t y /\
  (task_value t y < task_value (primal_task a s) x)%Qc.
Proof.
  intros a. split.
  { split; try (cbn; lia); try vector_tac.
    - split; [cbn; tauto|all_in|]. intros [|i] I; [exists (0, 0, (- (1))%Qc)|cbn in I; lia]; cbn; auto. }
  exists (the_setup a), (the_dual a), (fun _ => (- (1))%Qc), (fun _ => 0%Qc). built_tac. split; [|split; [dual_tac|qclt]].
  dual_tac. Qed.
