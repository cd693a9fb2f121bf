(** C47: solving with dictionaries. *)
From Coq Require Import List Arith Bool Ascii String QArith Qcanon Lia Lqa Sorted.
From Verif Require Import ScenarioModel ScenarioProofs UniqueProofs MargModel QcSum QcArith FactorModel SearchModel SearchProofs ProgramModel LPSolveModel LPSolveSpec LPSolveProofs LPDictModel LPDictSpec LPDictProofs.
From Verif Require PropSolve.
Import ListNotations.
Close Scope Q_scope. Close Scope Qc_scope. Open Scope string_scope. Open Scope nat_scope. Open Scope list_scope.

(** If the variables are not declared they are the names that the dictionaries mention, sorted. *)
Theorem C47_inferred_variables u : u_variables u = None -> all_sparse u = false -> all_dicts u = true ->
  exists vars, declared_variables u = Some vars /\ NoDup vars /\ StronglySorted (fun a b => string_compare a b = Lt) vars /\ forall y, In y vars <-> mentioned u y.
Proof.
  intros N S D. exists (infer_variables u). unfold declared_variables. rewrite S, N, D. split; [reflexivity|]. unfold infer_variables.
  split; [apply np_unique_NoDup, string_good_cmp|]. split; [apply np_unique_sorted, string_good_cmp|]. intros y. rewrite (np_unique_in _ string_good_cmp). unfold mentioned. rewrite !in_app_iff.
  assert (M : forall o, In y (mat_names o) <-> exists l d, o = Some (MDicts l) /\ In d l /\ In y (map fst d)).
  { intros [[m|l]|]; cbn [mat_names]; [split; [intros []|intros (l & d & Q & _); discriminate]| |split; [intros []|intros (l & d & Q & _); discriminate]].
    rewrite in_flat_map. split; [intros (d & H1 & H2); eauto|intros (l' & d & Q & H1 & H2); injection Q as <-; eauto]. }
  assert (K : In y (semiknown_names (u_semiknown u)) <-> exists z c z2, In (z, (c, z2)) (semi_says (u_semiknown u)) /\ (y = z \/ y = z2)).
  { destruct (u_semiknown u) as [l|]; cbn [semiknown_names semi_says]; [|split; [intros []|intros (z & c & z2 & [] & _)]].
    rewrite in_flat_map. split; [intros ((z & (c & z2)) & H & [<-|[<-|[]]]); cbn; eauto 8|intros (z & c & z2 & H & Q); exists (z, (c, z2)); split; [exact H|cbn; destruct Q as [->| ->]; auto]]. }
  rewrite !M, K. tauto.
Qed.

(** The arguments that are passed on mean the same as the dictionaries. *)
Theorem C47_same_problem u vars : declared_variables u = Some vars -> usable vars u -> exists a, solve_lp_args u = Some (vars, a) /\ args_ok (List.length vars) a /\
  forall x l, (problem_point (List.length vars) a (fun j => x (nth j vars "")) l <-> named_point vars u x l) /\
    problem_value a (fun j => x (nth j vars "")) l = named_value vars u x l.
Proof.
  intros D U. destruct (solve_lp_args_ok vars u D U) as (a & E & OK & F1 & F2 & F3 & IO & IK & IL & IU & II & IE). exists a. split; [exact E|]. split; [exact OK|]. intros x l.
  assert (RX : relaxed a = relaxes u) by (unfold relaxed, relaxes; rewrite F2, F3; reflexivity).
  assert (NN : (forall j, j < List.length vars -> (0 <= x (nth j vars ""))%Qc) <-> forall y, In y vars -> (0 <= x y)%Qc).
  { split; [intros H y Hy; apply In_nth with (d := "") in Hy as (j & Hj & <-); apply H, Hj|intros H j Hj; apply H, nth_In, Hj]. }
  split; [|unfold problem_value, named_value, objective_at; rewrite RX; destruct (relaxes u); [reflexivity|apply (vec_is_sum vars _ _ x IO)]].
  assert (KN : (forall e, In e (c_ent (known_vars a)) -> if relax_known_vars a then (e_val e <= x (nth (e_col e) vars "") + l)%Qc /\ (x (nth (e_col e) vars "") - l <= e_val e)%Qc else x (nth (e_col e) vars "") = e_val e) <->
    (forall y v, In (y, v) (vec_says vars (u_known u)) -> if u_relax_known_vars u then (v <= x y + l)%Qc /\ (x y - l <= v)%Qc else x y = v)).
  { rewrite F2. symmetry. apply (vec_is_in vars _ _ IK (fun y v => if u_relax_known_vars u then (v <= x y + l)%Qc /\ (x y - l <= v)%Qc else x y = v)). }
  assert (LO := vec_is_in vars _ _ IL (fun y v => (v <= x y)%Qc)). assert (UP := vec_is_in vars _ _ IU (fun y v => (x y <= v)%Qc)). cbv beta in LO, UP.
  assert (IN := mat_is_all vars _ _ II x (fun v => (0 <= v + (if u_relax_inequalities u then l else 0))%Qc)). cbv beta in IN. specialize (IE x). unfold at_names in IN, IE.
  split.
  - intros [P1 P2 P3 P4 P5 P6]. rewrite F3 in P1. constructor; [apply (proj2 IN), P1|apply (proj1 IE), P2|apply (proj1 IE), P2|apply (proj1 KN), P3|apply (proj2 LO), P4|apply (proj2 UP), P5|].
    intros R1 R2. apply (proj1 NN), P6; [rewrite RX; exact R1|rewrite F1; exact R2].
  - intros [P1 P2 PS P3 P4 P5 P6]. constructor; [rewrite F3; apply (proj1 IN), P1|apply (proj2 IE); split; [exact P2|exact PS]|apply (proj2 KN), P3|apply (proj1 LO), P4|apply (proj1 UP), P5|].
    intros R1 R2. apply (proj2 NN), P6; [rewrite <- RX; exact R1|rewrite <- F1; exact R2].
Qed.

Lemma reading_nth vars zs j : NoDup vars -> List.length zs = List.length vars -> j < List.length vars -> reading (by_name vars zs) (nth j vars "") = nth j zs 0%Qc.
Proof.
  unfold reading, by_name. revert zs j. induction vars as [|v vars IH]; intros [|z zs] j ND L Hj; cbn in L, Hj; try lia. inversion ND as [|? ? NI ND']; subst. destruct j as [|j].
  - cbn. rewrite String.eqb_refl. reflexivity.
  - cbn [combine find fst nth]. destruct (String.eqb_spec v (nth j vars "")) as [->|N]; [elim NI; apply nth_In; lia|]. apply IH; [exact ND'|lia|lia].
Qed.
Lemma reading_values vars z j : NoDup vars -> j < List.length vars -> reading (by_name vars (map z (seq 0 (List.length vars)))) (nth j vars "") = z j.
Proof.
  intros ND Hj. rewrite reading_nth by (try rewrite map_length, seq_length; auto). rewrite (nth_indep _ 0%Qc (z O)) by (rewrite map_length, seq_length; exact Hj). rewrite map_nth, seq_nth by exact Hj. reflexivity.
Qed.
Lemma fits_lower u vars a : declared_variables u = Some vars -> usable vars u -> solve_lp_args u = Some (vars, a) -> lower_bounds_fit vars u -> lower_bounds_nonneg a.
Proof.
  intros D U E LF. destruct (solve_lp_args_ok vars u D U) as (a' & E' & _ & F1 & F2 & F3 & _ & _ & IL & _). assert (a' = a) by congruence. subst a'.
  intros R1 R2. apply (vec_is_in vars _ _ IL (fun _ v => (0 <= v)%Qc)). apply LF; [unfold relaxes; rewrite <- F2, <- F3; exact R1|rewrite <- F1; exact R2].
Qed.
(** So the task that MOSEK solves is the problem of the dictionaries, and its solutions, read by name, are
    the solutions of the problem (the slack comes after the variables). *)
Theorem C47_task_is_the_problem u vars : declared_variables u = Some vars -> usable vars u -> lower_bounds_fit vars u ->
  exists a s, solve_lp_args u = Some (vars, a) /\ prepare a = Some s /\ t_maximize (primal_task a s) = true /\
    (forall z, let x := reading (by_name vars (map z (seq 0 (List.length vars)))) in
       (task_feasible (primal_task a s) z <-> named_point vars u x (z (List.length vars))) /\ task_value (primal_task a s) z = named_value vars u x (z (List.length vars))) /\
    (forall x l, named_point vars u x l -> exists z, task_feasible (primal_task a s) z /\ task_value (primal_task a s) z = named_value vars u x l /\
       forall y, In y vars -> reading (by_name vars (map z (seq 0 (List.length vars)))) y = x y).
Proof.
  intros D U LF. destruct (C47_same_problem u vars D U) as (a & E & OK & SP). assert (LB := fits_lower u vars a D U E LF). destruct (PropSolve.C26_tasks_are_built _ a OK) as (s & t & ES & _). assert (ND := us_vars _ _ U).
  exists a, s. split; [exact E|]. split; [exact ES|]. assert (PT := PropSolve.C26_primal_task_is_the_problem _ a s OK LB ES). split; [apply (PT (fun _ => 0%Qc))|].
  assert (EXT : forall z z' l, (forall j, j < List.length vars -> z j = z' j) -> problem_point (List.length vars) a z l -> problem_point (List.length vars) a z' l) by (intros z z' l H; apply (PropSolve.problem_point_ext _ a z z' l OK H)).
  assert (VEXT : forall z z' l, (forall j, j < List.length vars -> z j = z' j) -> problem_value a z l = problem_value a z' l).
  { intros z z' l H. unfold problem_value, objective_at. destruct (relaxed a); [reflexivity|]. apply sumQ_ext. intros e He. rewrite H; [reflexivity|]. apply (vo_rows _ _ (ao_obj _ _ OK) e He). }
  assert (MAIN : forall z, let x := reading (by_name vars (map z (seq 0 (List.length vars)))) in
       (task_feasible (primal_task a s) z <-> named_point vars u x (z (List.length vars))) /\ task_value (primal_task a s) z = named_value vars u x (z (List.length vars))).
  { intros z x. destruct (PT z) as (P1 & P2 & _). destruct (SP x (z (List.length vars))) as (S1 & S2). assert (Q : forall j, j < List.length vars -> x (nth j vars "") = z j) by (intros j Hj; apply reading_values; assumption).
    split; [rewrite P1, <- S1; split; apply EXT; intros j Hj; rewrite Q by exact Hj; reflexivity|]. rewrite P2, <- S2. apply VEXT. intros j Hj. rewrite Q by exact Hj. reflexivity. }
  split; [exact MAIN|]. intros x l NP. set (z := fun j => if j <? List.length vars then x (nth j vars "") else l). exists z.
  assert (Zin : forall j, j < List.length vars -> z j = x (nth j vars "")) by (intros j Hj; unfold z; rewrite (proj2 (Nat.ltb_lt _ _) Hj); reflexivity).
  assert (Zl : z (List.length vars) = l) by (unfold z; rewrite Nat.ltb_irrefl; reflexivity). destruct (PT z) as (P1 & P2 & _). destruct (SP x l) as (S1 & S2). split; [|split].
  - apply P1. rewrite Zl. apply (EXT (fun j => x (nth j vars ""))); [intros j Hj; symmetry; apply Zin, Hj|]. apply S1, NP.
  - rewrite P2, Zl, <- S2. apply VEXT, Zin.
  - intros y Hy. apply In_nth with (d := "") in Hy as (j & Hj & <-). rewrite reading_values by assumption. apply Zin, Hj.
Qed.
(** Points of the dual task bound the objective of the problem. *)
Theorem C47_dual_bounds u vars : declared_variables u = Some vars -> usable vars u ->
  exists a s t, solve_lp_args u = Some (vars, a) /\ prepare a = Some s /\ dual_task a s = Some t /\
    forall y x l, task_feasible t y -> named_point vars u x l -> (named_value vars u x l <= task_value t y)%Qc.
Proof.
  intros D U. destruct (C47_same_problem u vars D U) as (a & E & OK & SP). destruct (PropSolve.C26_tasks_are_built _ a OK) as (s & t & ES & ET). exists a, s, t. split; [exact E|]. split; [exact ES|]. split; [exact ET|].
  intros y x l TF NP. destruct (SP x l) as (S1 & S2). rewrite <- S2. apply (PropSolve.C26_dual_bounds_primal _ a s t OK ES ET); [apply S1, NP|exact TF].
Qed.

(** ** The certificate by names *)
Lemma certificate_by_name vars (cert : list Qc) x : List.length vars <= List.length cert -> certificate_at (List.length vars) cert (fun j => x (nth j vars "")) = expression x (by_name vars cert).
Proof.
  unfold certificate_at, total, expression, by_name. revert cert. induction vars as [|v vars IH]; intros [|c cert] L; cbn in L; try lia; [reflexivity..|]. cbn [List.length seq map combine fst snd]. rewrite !sumQ_cons. f_equal.
  rewrite <- (IH cert) by lia. rewrite <- seq_shift, map_map. reflexivity.
Qed.
Lemma close_small c : isclose0 c = true -> (qabs c <= atol)%Qc.
Proof.
  unfold isclose0, isclose. intros H. apply qleb_true in H. replace (c - 0)%Qc with c in H by ring. replace (atol + rtol * qabs 0)%Qc with atol in H by (change (qabs 0) with 0%Qc; ring). exact H.
Qed.
Lemma mult_nonneg (a b : Qc) : (0 <= a)%Qc -> (0 <= b)%Qc -> (0 <= a * b)%Qc.
Proof. intros A B. qcnra. Qed.
Lemma small_product c v : (qabs c <= atol)%Qc -> (c * v <= atol * qabs v)%Qc.
Proof.
  generalize atol. intros t H. destruct (qabs_case c) as [[E1 E2]|[E1 E2]], (qabs_case v) as [[F1 F2]|[F1 F2]]; rewrite E2 in H; rewrite F2; qcnra.
Qed.
Lemma cleaned_error (vars : list string) (cert : list Qc) x : List.length vars <= List.length cert ->
  (expression x (by_name vars cert) - atol * sumQ (map (fun y => qabs (x y)) vars) <= expression x (named_certificate vars cert))%Qc.
Proof.
  unfold expression, by_name, named_certificate. revert cert. induction vars as [|v vars IH]; intros [|c cert] L; cbn in L; try lia.
  - cbn. discriminate.
  - cbn. discriminate.
  - cbn [combine map filter snd]. rewrite !sumQ_cons. specialize (IH cert ltac:(lia)). destruct (isclose0 c) eqn:C; cbn [negb].
    + assert (X : (c * x v <= atol * qabs (x v))%Qc).
      { apply small_product, close_small, C. }
      cbn [map fst snd]. qclra.
    + cbn [map fst snd]. rewrite sumQ_cons. assert (X : (0 <= atol * qabs (x v))%Qc) by (apply mult_nonneg; [discriminate|apply qabs_nonneg]). cbn [fst snd]. qclra.
Qed.
Lemma possible_named u vars a x : declared_variables u = Some vars -> usable vars u -> solve_lp_args u = Some (vars, a) -> plain_problem vars u ->
  no_bounds a /\ PropSolve.objective_fits a /\ (named_possible vars u x -> possible (List.length vars) a (fun j => x (nth j vars ""))).
Proof.
  intros D U E [PL PU PO PR]. destruct (solve_lp_args_ok vars u D U) as (a' & E' & OK & F1 & F2 & F3 & IO & IK & IL & IU & II & IE). assert (a' = a) by congruence. subst a'. clear E'.
  assert (RX : relaxed a = relaxes u) by (unfold relaxed, relaxes; rewrite F2, F3; reflexivity). rewrite PL in IL. rewrite PU in IU. assert (EL : c_ent (lower_bounds a) = []) by (inversion IL; reflexivity). assert (EU : c_ent (upper_bounds a) = []) by (inversion IU; reflexivity).
  split; [split; assumption|]. split.
  - split.
    + intros e e' He He' Q. assert (M : forall d m, vec_is vars d m -> map fst d = map (fun e => nth (e_col e) vars "") (c_ent m)) by (clear; unfold vec_is; induction 1 as [|q e d es (H & _) F IH]; [reflexivity|cbn [map]; rewrite IH, H; reflexivity]).
      apply (PO (nth (e_col e) vars "")); [rewrite (M _ _ IO); apply (in_map (fun e => nth (e_col e) vars "")), He|rewrite (M _ _ IK), Q; apply (in_map (fun e => nth (e_col e) vars "")), He'].
    + rewrite RX. intros R. rewrite (PR R) in IO. inversion IO. reflexivity.
  - intros [P1 P2 PS P3]. assert (IN := mat_is_all vars _ _ II x (fun v => (0 <= v)%Qc)). cbv beta in IN. specialize (IE x). unfold at_names in IN, IE.
    constructor; [apply (proj1 IN), P1|apply (proj2 IE); split; assumption|rewrite EL; intros e []|rewrite EU; intros e []|]. intros R1 R2 j Hj. apply P3; [rewrite <- RX; exact R1|rewrite <- F1; exact R2|apply nth_In, Hj].
Qed.
Lemma cols_enough n a s : args_ok n a -> prepare a = Some s -> n <= c_cols (s_matrix s).
Proof. intros OK E. rewrite (LPSolveProofs2.p_cols _ _ _ (PropSolve.prepared_of n a s OK E)). destruct (relaxed a); lia. Qed.
(** the certificate that is returned when [y] are the multipliers of the solver *)
Definition returned (vars : list string) (a : lp_args) (s : setup) (y : nat -> Qc) (k : nat) : named := named_certificate vars (certificate a s (map y (seq 0 k))).
(** At every possible point the certificate is not negative, up to what dropping small coefficients changes. *)
Theorem C47_certificate u vars : declared_variables u = Some vars -> usable vars u -> plain_problem vars u ->
  exists a s t, solve_lp_args u = Some (vars, a) /\ prepare a = Some s /\ dual_task a s = Some t /\
    forall x, named_possible vars u x ->
      (forall y, task_feasible t y -> (- (atol * sumQ (map (fun v => qabs (x v)) vars)) <= expression x (returned vars a s y (t_numvar t)))%Qc) /\
      (forall y, multipliers (primal_task a s) y -> (- (atol * sumQ (map (fun v => qabs (x v)) vars)) <= expression x (returned vars a s y (t_numcon (primal_task a s))))%Qc).
Proof.
  intros D U PP. destruct (C47_same_problem u vars D U) as (a & E & OK & _). destruct (PropSolve.C26_tasks_are_built _ a OK) as (s & t & ES & ET). exists a, s, t. split; [exact E|]. split; [exact ES|]. split; [exact ET|]. intros x NP.
  destruct (possible_named u vars a x D U E PP) as (NB & OF & PO). specialize (PO NP).
  assert (X : forall cert : list Qc, List.length vars <= List.length cert -> (0 <= certificate_at (List.length vars) cert (fun j => x (nth j vars "")))%Qc -> (- (atol * sumQ (map (fun v => qabs (x v)) vars)) <= expression x (named_certificate vars cert))%Qc).
  { intros cert L H. rewrite (certificate_by_name vars cert x L) in H. assert (C := cleaned_error vars cert x L). qclra. }
  assert (CL : forall y, List.length vars <= List.length (certificate a s y)).
  { intros y. unfold certificate. destruct (relax_known_vars a); rewrite !LPSolveProofs3.put_length, repeat_length; apply (cols_enough _ a s OK ES). }
  split; intros y Hy; apply X; try apply CL.
  - apply (PropSolve.C26_certificate_is_valid _ a s t y OK NB OF ES ET Hy _ PO).
  - apply (PropSolve.C26_certificate_from_primal_is_valid _ a s y OK NB OF ES Hy _ PO).
Qed.

(** ** What the code does not do *)
(** None of objective, known values and inequalities can be left out, nor the equalities if there are no
    semi-known variables: None is passed on to solveLP_sparse, which raises. *)
Theorem C47_omitted_arguments_refuted u : u_objective u = None \/ u_known u = None \/ u_ineq u = None \/ (u_eq u = None /\ semi_says (u_semiknown u) = []) -> solve_lp_args u = None.
Proof.
  intros H. unfold solve_lp_args. destruct (declared_variables u) as [vars|]; [|reflexivity]. destruct H as [->|[->|[->|[E S]]]]; [reflexivity| | |].
  - destruct (required vars (u_objective u)); reflexivity.
  - destruct (required vars (u_objective u)), (required vars (u_known u)); reflexivity.
  - assert (EC : convert_equalities vars (u_eq u) (u_semiknown u) = None) by (rewrite E; unfold convert_equalities; destruct (u_semiknown u) as [[|q l]|]; [reflexivity|discriminate|reflexivity]). rewrite EC.
    destruct (required vars (u_objective u)), (required vars (u_known u)), (match u_ineq u with Some m => convert_mat vars m | None => None end); reflexivity.
Qed.
(** The names in bounds do not count as variables: a bound on a variable that occurs nowhere else raises
    unless the variables are declared. *)
Theorem C47_bounds_declare_nothing_refuted u vars d y : declared_variables u = Some vars -> u_upper u = Some (VDict d) \/ u_lower u = Some (VDict d) -> In y (map fst d) -> ~ In y vars -> solve_lp_args u = None.
Proof.
  intros D H Hy NI. unfold solve_lp_args. rewrite D.
  assert (X : to_sparse_dict vars d = None) by (unfold to_sparse_dict; rewrite (dict_entries_none vars 0 d y Hy NI); reflexivity).
  destruct H as [H|H]; rewrite H; cbn [optional convert_vec]; rewrite X;
    destruct (required vars (u_objective u)), (required vars (u_known u)), (match u_ineq u with Some m => convert_mat vars m | None => None end), (convert_equalities vars (u_eq u) (u_semiknown u)); try reflexivity; destruct (optional vars (u_lower u)); reflexivity.
Qed.
(** Equalities given as a sparse matrix are lost if there are semi-known variables: x = 1 and y = 2 x. *)
Definition mixed_args : user_args := {|
  u_objective := Some (VDict []); u_known := Some (VDict [("1", 1%Qc)]); u_semiknown := Some [("y", (Q2Qc 2, "x"))];
  u_ineq := Some (MDicts []); u_eq := Some (MSparse (Coo 1 3 [(0, 1, 1%Qc); (0, 0, (- (1))%Qc)])); u_lower := None; u_upper := None;
  u_variables := Some ["1"; "x"; "y"]; u_default_non_negative := true; u_relax_known_vars := false; u_relax_inequalities := false |}.
Definition mixed_point (y : string) : Qc := if String.eqb y "1" then 1%Qc else if String.eqb y "x" then Q2Qc 5 else Q2Qc 10.
Theorem C47_replaced_equalities_refuted : exists vars a, solve_lp_args mixed_args = Some (vars, a) /\
  problem_point (List.length vars) a (fun j => mixed_point (nth j vars "")) 0%Qc /\ ~ named_point vars mixed_args mixed_point 0%Qc.
Proof.
  eexists _, _. split; [reflexivity|]. split.
  - constructor; cbn.
    + intros i Hi. lia.
    + intros i Hi. assert (i = 0) by lia. subst i. apply Qc_is_canon. reflexivity.
    + intros e [<-|[]]. apply Qc_is_canon. reflexivity.
    + intros e [].
    + intros e [].
    + intros _ _ [|[|[|j]]] Hj; try lia; cbn; discriminate.
  - intros NP. assert (X := np_eq _ _ _ _ NP _ (or_introl eq_refl)). apply (f_equal (fun v => Qc_eq_bool v 0%Qc)) in X. vm_compute in X. discriminate.
Qed.

(** ** Example: the problem of test_solvers.py, 225-290 *)
Definition q_of (z : BinNums.Z) : Qc := Q2Qc (inject_Z z).
Definition test_args : user_args := {|
  u_objective := Some (VDict [("x", q_of (-1)); ("y", q_of (-2)); ("z", q_of (-1))]); u_known := Some (VDict [("1", q_of 1)]); u_semiknown := Some [("z", (Q2Qc (1 # 2), "x"))];
  u_ineq := Some (MDicts [[("x", q_of 1); ("y", q_of 1); ("z", q_of 1); ("1", q_of (-26))]; [("x", q_of 1); ("1", q_of (-3))]; [("y", q_of 1); ("1", q_of (-4))]; [("z", q_of 1); ("1", q_of (-1))]]);
  u_eq := Some (MDicts [[("x", q_of (-5)); ("y", q_of 1); ("z", q_of (-2)); ("1", q_of (-7))]]); u_lower := None; u_upper := None;
  u_variables := None; u_default_non_negative := true; u_relax_known_vars := false; u_relax_inequalities := false |}.
Lemma test_usable : declared_variables test_args = Some ["1"; "x"; "y"; "z"] /\ usable ["1"; "x"; "y"; "z"] test_args /\ lower_bounds_fit ["1"; "x"; "y"; "z"] test_args /\ plain_problem ["1"; "x"; "y"; "z"] test_args.
Proof.
  assert (IN : forall y, existsb (String.eqb y) ["1"; "x"; "y"; "z"] = true -> In y ["1"; "x"; "y"; "z"]) by (intros y H; apply existsb_exists in H as (z & Hz & E); apply String.eqb_eq in E as ->; exact Hz).
  split; [vm_compute; reflexivity|]. split; [|split; [intros _ _ y v []|]].
  - constructor; cbn.
    + repeat constructor; cbn; intuition discriminate.
    + discriminate.
    + eexists. split; [reflexivity|]. cbn. split; [repeat constructor; cbn; intuition discriminate|]. intros y H. repeat (destruct H as [<-|H]; [apply IN; reflexivity|]). destruct H.
    + eexists. split; [reflexivity|]. cbn. split; [repeat constructor; cbn; intuition discriminate|]. intros y H. repeat (destruct H as [<-|H]; [apply IN; reflexivity|]). destruct H.
    + discriminate.
    + discriminate.
    + eexists. split; [reflexivity|]. cbn. intros d Hd. repeat (destruct Hd as [<-|Hd]; [split; [discriminate|]; intros y H; cbn in H; repeat (destruct H as [<-|H]; [apply IN; reflexivity|]); destruct H|]). destruct Hd.
    + intros m Q. injection Q as <-. cbn. intros d [<-|[]]. split; [discriminate|]. intros y H. cbn in H. repeat (destruct H as [<-|H]; [apply IN; reflexivity|]). destruct H.
    + left. discriminate.
    + intros y c y2 [Q|[]]. injection Q as <- <- <-. split; apply IN; reflexivity.
    + intros _ m Q. discriminate.
    + left. discriminate.
  - constructor; try reflexivity; [|discriminate]. cbn. intuition congruence.
Qed.
Definition test_solution (y : string) : Qc := if String.eqb y "1" then 1%Qc else if String.eqb y "x" then q_of 3 else if String.eqb y "y" then q_of 25 else Q2Qc (3 # 2).
Example C47_test_problem : exists a s, solve_lp_args test_args = Some (["1"; "x"; "y"; "z"], a) /\ prepare a = Some s /\
  (forall z, task_feasible (primal_task a s) z -> (task_value (primal_task a s) z <= Q2Qc (-109 # 2))%Qc) /\
  exists z, task_feasible (primal_task a s) z /\ task_value (primal_task a s) z = Q2Qc (-109 # 2) /\ forall y, In y ["1"; "x"; "y"; "z"] -> reading (by_name ["1"; "x"; "y"; "z"] (map z (seq 0 4))) y = test_solution y.
Proof.
  destruct test_usable as (D & U & LF & _). destruct (C47_task_is_the_problem test_args _ D U LF) as (a & s & E & ES & _ & MP & AT). exists a, s. split; [exact E|]. split; [exact ES|]. split.
  - intros z TF. destruct (MP z) as (M1 & M2). rewrite M2. apply M1 in TF. revert TF. generalize (reading (by_name ["1"; "x"; "y"; "z"] (map z (seq 0 (List.length ["1"; "x"; "y"; "z"]))))), (z (List.length ["1"; "x"; "y"; "z"])). intros x l [P1 P2 PS P3 _ _ _].
    assert (I := P1 _ (or_intror (or_introl eq_refl))). assert (EQ := P2 _ (or_introl eq_refl)). assert (SE := PS _ _ _ (or_introl eq_refl)). assert (K := P3 _ _ (or_introl eq_refl)).
    unfold named_value, expression in *. cbn in I, EQ, SE, K |- *. unfold sumQ in *. cbn in I, EQ |- *. revert I EQ SE K. generalize (x "x"), (x "y"), (x "z"), (x "1"). intros vx vy vz v1 I EQ SE K. subst v1 vz. unfold q_of in *. clear -I EQ. qc_prep. repeat match goal with |- context [this (Q2Qc ?v)] => let w := eval vm_compute in (this (Q2Qc v)) in change (this (Q2Qc v)) with w | H : context [this (Q2Qc ?v)] |- _ => let w := eval vm_compute in (this (Q2Qc v)) in change (this (Q2Qc v)) with w in H end. lra.
  - destruct (AT test_solution 0%Qc) as (z & A & B & C).
    + constructor.
      * intros d Hd. repeat (destruct Hd as [<-|Hd]; [vm_compute; discriminate|]). destruct Hd.
      * intros d [<-|[]]. apply Qc_is_canon. reflexivity.
      * intros y c y2 [Q|[]]. injection Q as <- <- <-. apply Qc_is_canon. reflexivity.
      * intros y v [Q|[]]. injection Q as <- <-. apply Qc_is_canon. reflexivity.
      * intros y v [].
      * intros y v [].
      * intros _ _ y H. repeat (destruct H as [<-|H]; [vm_compute; discriminate|]). destruct H.
    + exists z. split; [exact A|]. split; [rewrite B; apply Qc_is_canon; reflexivity|exact C].
Qed.
