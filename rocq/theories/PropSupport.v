(** C45: what problems about supports (supports_problem = True) say is right: the support of a
    distribution that the scenario can give is never declared impossible. *)
From Coq Require Import List Arith Bool QArith Qcanon Lia Permutation Sorted.
From Verif Require Import CanonModel ScenarioModel ScenarioSpec MargModel QcSum CausalSpec InflatedSpec SearchModel ProgramModel ProgramSpec ProgramProofs ProgramProofs2 ProgramProofs3 LPSolveModel LPSolveSpec ProgramLP ProgramLPProofs LPMomentModel SoundProofs GenerateProofs SoundProofs2 SoundProofs4 SoundProofs7 SupportSpec SupportProofs SupportProofs2 PropSound.
From Verif Require PropProgram PropSolve SearchProofs.
Import ListNotations.
Close Scope Q_scope. Close Scope Qc_scope. Open Scope nat_scope.

(** A use of InflationLP(supports_problem=True): construct (all outcomes are then included, line 132),
    set_distribution, solve (up to the solver call); no objective is allowed. *)
Record supports_run (sc : scenario) (arr : ndarray) (lpi shared nn rk ri : bool) (r : relaxation) (s : state) (a : lp_args) (t : setup) : Prop := {
  sr_generate : generate sc true true = Some r;
  sr_state : exists s0, generated lp (r_context r) = Some s0 /\ set_distribution sc r (Some arr) lpi shared s0 = Some s;
  sr_args : prepare_lp (r_programme r) nn rk ri s = Some a;
  sr_setup : prepare a = Some t }.
(** the values that the code takes for zero (at most 1e-8) are zero *)
Definition small_is_zero (s : state) : Prop := forall m v, In (m, v) (known s) -> v = 0%Qc.

Lemma supports_facts sc arr lpi shared nn rk ri r s a t : ready sc -> supports_run sc arr lpi shared nn rk ri r s a t ->
  programme_ok (r_programme r) /\ reachable lp (r_context r) s /\ (forall m v, In (m, v) (lower s) -> (0 <= v)%Qc) /\ extra_equalities s = [] /\ extra_inequalities s = [] /\ ProgramModel.objective s = [].
Proof.
  intros [W AC Hout Hset Np FC] [G (s0 & E0 & E) EP ET]. destruct (generated_supports sc W Hout FC true r G) as (s0' & E0' & L0 & U0 & O0 & R0). rewrite E0 in E0'. injection E0' as <-.
  destruct (supports_state sc W Hout FC true r G s0 L0 U0 arr lpi shared s E) as (sp & _ & K & L & U & SK & X & X' & O). rewrite O0 in O.
  split; [apply (programme_is_ok sc W Hout Hset Np FC true true r G)|]. split; [apply (set_distribution_reachable sc r (Some arr) lpi shared s0 s R0 E)|]. split; [|auto].
  intros m v Hm. destruct (L m v Hm) as [[-> _]|Q]; [discriminate|]. assert (v = 1%Qc) as -> by congruence. discriminate.
Qed.
Lemma supports_solved sc arr lpi shared nn rk ri r s a t y : ready sc -> supports_run sc arr lpi shared nn rk ri r s a t -> lp_point (r_programme r) true s y ->
  exists x, task_feasible (primal_task a t) x /\ task_value (primal_task a t) x = 0%Qc.
Proof.
  intros RD RUN PT. destruct (supports_facts _ _ _ _ _ _ _ _ _ _ _ RD RUN) as (OK & R & LB & EX & EX' & EO). destruct RUN as [G _ EP ET].
  destruct (point_solves_task (r_programme r) nn rk ri (r_context r) s y a t OK R) as (x & F & V); try assumption.
  - rewrite EX. intros d [].
  - rewrite EX'. intros d [].
  - intros _. exact LB.
  - destruct PT; constructor; auto.
  - exists x. split; [exact F|]. rewrite V, EO. destruct (rk || ri); reflexivity.
Qed.

(** ** The problem can be set up *)
Theorem C45_problem_is_built sc arr lpi shared nn rk ri : ready sc -> nd_shape arr = outcomes sc ++ private_settings sc -> exists r s a t, supports_run sc arr lpi shared nn rk ri r s a t.
Proof.
  intros [W AC Hout Hset Np FC] SH. destruct (generate_some sc W Hout FC true true) as (r & G). destruct (generated_supports sc W Hout FC true r G) as (s0 & E0 & L0 & U0 & O0 & R0).
  destruct (set_distribution_some sc W Hout Hset FC true true r G (Some arr) lpi shared s0 SH) as (s & E). destruct (supports_prepared sc W Hout Hset FC true r G s0 L0 U0 arr lpi shared s nn rk ri O0 E) as (a & EP).
  destruct (supports_state sc W Hout FC true r G s0 L0 U0 arr lpi shared s E) as (sp & _ & K & L & U & SK & X & X' & O).
  assert (E4 : exists t, prepare a = Some t).
  { apply (PropProgram.C25_lp_task_is_built (r_programme r) nn rk ri (r_context r) s a (programme_is_ok sc W Hout Hset Np FC true true r G) (set_distribution_reachable sc r (Some arr) lpi shared s0 s R0 E)); [rewrite X; intros d []|rewrite X'; intros d []|exact EP]. }
  destruct E4 as (t & ET). exists r, s, a, t. constructor; auto. exists s0. auto.
Qed.

(** ** A possible support is never declared impossible *)
Theorem C45_possible_supports_are_feasible sc arr lpi shared nn rk ri r s a t : ready sc -> supports_run sc arr lpi shared nn rk ri r s a t -> small_is_zero s -> possible_support sc arr ->
  exists x, task_feasible (primal_task a t) x /\ task_value (primal_task a t) x = 0%Qc.
Proof.
  intros RD RUN Z PS. assert (PT : exists y, lp_point (r_programme r) true s y).
  { destruct RD as [W AC Hout Hset Np FC], RUN as [G (s0 & E0 & E) EP ET]. destruct (generated_supports sc W Hout FC true r G) as (s0' & E0' & L0 & U0 & O0 & R0). rewrite E0 in E0'. injection E0' as <-.
    apply (support_point sc W Hout Hset FC true r G s0 L0 U0 arr lpi shared s PS AC E Z). }
  destruct PT as (y & PT). apply (supports_solved _ _ _ _ _ _ _ _ _ _ _ y RD RUN PT).
Qed.
(** ... nor, with shared randomness, that of a mixture *)
Theorem C45_possible_mixtures_are_feasible sc arr lpi nn rk ri r s a t : ready sc -> supports_run sc arr lpi true nn rk ri r s a t -> small_is_zero s -> possible_support_shared sc arr ->
  exists x, task_feasible (primal_task a t) x /\ task_value (primal_task a t) x = 0%Qc.
Proof.
  intros RD RUN Z PS. assert (PT : exists y, lp_point (r_programme r) true s y).
  { destruct RD as [W AC Hout Hset Np FC], RUN as [G (s0 & E0 & E) EP ET]. destruct (generated_supports sc W Hout FC true r G) as (s0' & E0' & L0 & U0 & O0 & R0). rewrite E0 in E0'. injection E0' as <-.
    apply (support_point_shared sc W Hout Hset FC true r G s0 L0 U0 arr lpi s PS AC E Z). }
  destruct PT as (y & PT). apply (supports_solved _ _ _ _ _ _ _ _ _ _ _ y RD RUN PT).
Qed.
(** When the array is a table of possibilities (0 for impossible events, at least 1 for the others)
    the code takes no other value for zero. *)
Theorem C45_tables_have_no_small_values sc arr lpi shared nn rk ri r s a t : ready sc -> supports_run sc arr lpi shared nn rk ri r s a t -> possibility_table sc arr -> small_is_zero s.
Proof.
  intros [W AC Hout Hset Np FC] [G (s0 & E0 & E) EP ET] PT. destruct (generated_supports sc W Hout FC true r G) as (s0' & E0' & L0 & U0 & O0 & R0). rewrite E0 in E0'. injection E0' as <-.
  apply (table_zeros sc W Hout Hset FC true r G s0 L0 U0 arr lpi shared s PT E).
Qed.
Theorem C45_infeasible_means_impossible sc arr lpi shared nn rk ri r s a t : ready sc -> supports_run sc arr lpi shared nn rk ri r s a t -> small_is_zero s ->
  (forall x, ~ task_feasible (primal_task a t) x) -> ~ possible_support sc arr.
Proof. intros RD RUN Z N PS. destruct (C45_possible_supports_are_feasible _ _ _ _ _ _ _ _ _ _ _ RD RUN Z PS) as (x & F & _). apply (N x F). Qed.
Theorem C45_negative_optimum_means_impossible sc arr lpi shared nn rk ri r s a t u : ready sc -> supports_run sc arr lpi shared nn rk ri r s a t -> small_is_zero s ->
  (forall x, task_feasible (primal_task a t) x -> (task_value (primal_task a t) x <= u)%Qc) -> (u < 0)%Qc -> ~ possible_support sc arr.
Proof.
  intros RD RUN Z N U PS. destruct (C45_possible_supports_are_feasible _ _ _ _ _ _ _ _ _ _ _ RD RUN Z PS) as (x & F & V). specialize (N x F). rewrite V in N. apply (Qcle_not_lt _ _ N U).
Qed.

(** ** Examples *)
Lemma infeasible_by P nn c s a t d y : programme_ok P -> reachable lp c s -> extra_equalities s = [] -> extra_inequalities s = [] -> ProgramModel.objective s = [] -> (forall m v, In (m, v) (lower s) -> (0 <= v)%Qc) ->
  prepare_lp P nn false false s = Some a -> prepare a = Some t -> dual_task a t = Some d -> task_feasible d y -> (task_value d y < 0)%Qc -> forall x, ~ task_feasible (primal_task a t) x.
Proof.
  intros OK R EX EX' EO LB EP ET ED F V x TF.
  assert (AO : args_ok (length (columns P)) a).
  { apply (args_are_ok P nn s a OK) with (rk := false) (ri := false); [|split; [rewrite EX|rewrite EX']; intros ? []|exact EP]. destruct (reachable_bounds_nodup lp c s R) as (N1 & N2). rewrite EO. split; [apply (wf_known _ (reachable_wf _ _ _ R))|]. split; [constructor|auto]. }
  assert (LN : lower_bounds_nonneg a) by (intros _ _ e I; rewrite (prepared_is P nn s a false false EP) in I; apply coo_vec_in in I as (m & v & I & ->); apply (LB m v I)).
  destruct (PropSolve.C26_primal_task_is_the_problem _ a t AO LN ET x) as (PP & _). pose proof (PropSolve.C26_dual_bounds_primal _ a t d AO ET ED x _ y (proj1 PP TF) F) as LE.
  apply (Qcle_not_lt _ _ LE). replace (problem_value a x (x (length (columns P)))) with 0%Qc; [exact V|].
  rewrite (prepared_is P nn s a false false EP). unfold problem_value, relaxed, objective_at. cbn. rewrite EO. reflexivity.
Qed.
Definition full_supports_run (sc : scenario) (arr : ndarray) (lpi shared nn : bool) : option (relaxation * state * lp_args * setup * task) :=
  match generate sc true true with None => None | Some r =>
  match generated lp (r_context r) with None => None | Some s0 =>
  match set_distribution sc r (Some arr) lpi shared s0 with None => None | Some s =>
  match prepare_lp (r_programme r) nn false false s with None => None | Some a =>
  match prepare a with None => None | Some t =>
  match dual_task a t with None => None | Some d => Some (r, s, a, t, d) end end end end end end.
Lemma full_supports_run_is sc arr lpi shared nn r s a t d : full_supports_run sc arr lpi shared nn = Some (r, s, a, t, d) -> supports_run sc arr lpi shared nn false false r s a t /\ dual_task a t = Some d.
Proof.
  unfold full_supports_run. destruct (generate sc true true) as [r'|] eqn:ER; [|discriminate]. destruct (generated lp (r_context r')) as [s0|] eqn:E0; [|discriminate].
  destruct (set_distribution sc r' (Some arr) lpi shared s0) as [s'|] eqn:ES; [|discriminate]. destruct (prepare_lp _ _ _ _ _) as [a'|] eqn:EA; [|discriminate]. destruct (prepare a') as [t'|] eqn:ET; [|discriminate].
  destruct (dual_task a' t') as [d'|] eqn:ED; [|discriminate]. intros Q. assert (r' = r) by congruence. assert (s' = s) by congruence. assert (a' = a) by congruence. assert (t' = t) by congruence. assert (d' = d) by congruence. subst r' s' a' t' d'. split; [|exact ED].
  constructor; [exact ER| |exact EA|exact ET]. exists s0. auto.
Qed.
Lemma excluded sc arr lpi shared nn r s a t d y : ready sc -> full_supports_run sc arr lpi shared nn = Some (r, s, a, t, d) -> PropSolve.task_feasible_b d y = true -> (task_value d y < 0)%Qc ->
  supports_run sc arr lpi shared nn false false r s a t /\ forall x, ~ task_feasible (primal_task a t) x.
Proof.
  intros RD E F V. destruct (full_supports_run_is _ _ _ _ _ _ _ _ _ _ E) as [RUN ED]. split; [exact RUN|]. destruct (supports_facts _ _ _ _ _ _ _ _ _ _ _ RD RUN) as (OK & R & LB & EX & EX' & EO). destruct RUN as [G _ EP ET].
  apply (infeasible_by (r_programme r) nn (r_context r) s a t d y); try assumption. apply PropSolve.task_feasible_b_ok, F.
Qed.
Definition excluded_check (sc : scenario) (arr : ndarray) (y : nat -> Qc) (v : Qc) : bool :=
  match full_supports_run sc arr false false true with
  | Some (r, s, a, t, d) => PropSolve.task_feasible_b d y && Qc_eq_bool (task_value d y) v
  | None => false end.
Lemma excluded_by sc arr y v : ready sc -> excluded_check sc arr y v = true -> (v < 0)%Qc -> exists r s a t, supports_run sc arr false false true false false r s a t /\ forall x, ~ task_feasible (primal_task a t) x.
Proof.
  intros RD H V0. unfold excluded_check in H. destruct (full_supports_run sc arr false false true) as [((((r & s) & a) & t) & d)|] eqn:E; [|discriminate]. apply andb_prop in H as [F V]. apply Qc_eq_bool_correct in V.
  exists r, s, a, t. apply (excluded _ _ _ _ _ _ _ _ _ _ y RD E F). rewrite V. exact V0.
Qed.
(** The events a + b = x y of the maximally non-local correlations are no support in the Bell
    scenario, whatever their probabilities; the multipliers are the weights -2 of the assignments of
    outcomes to the settings that contradict one of the impossible events. *)
Definition pr_table : ndarray := {| nd_shape := [2; 2; 2; 2];
  nd_at := fun i => match i with [a; b; x; y] => if (a + b) mod 2 =? x * y then 1%Qc else 0%Qc | _ => 0%Qc end |}.
Definition pr_multipliers (j : nat) : Qc := nth j (map (fun z => Q2Qc (inject_Z z))
  [0; -2; 0; -2; -2; -2; 0; 0; 0; 0; -2; -2; -2; 0; -2; 0; 0; 0; 0; 0; 0; 0; 0; 1; 1; 0; 1; 1; 0; 1; 1; 0; 0; 0; 1; 0; 0; 0; 0; 0; 0; 0; 0; 0; 0; 0; 0; 0; 0; 0; 0; 0; 0; 0; 0; 0; 0; 0; 0; 0; 0; 0; 0; 0; 0; 0; -2; 0; -2; -2; -2; 0; 0; 0; 0; -2; -2; -2; 0; -2; 0; 1; 1; 1; 1; 1; 1; 1; 1; -1]%Z) 0%Qc.
Lemma pr_checked : excluded_check bell_sc pr_table pr_multipliers (- (1))%Qc = true. Proof. vm_compute. reflexivity. Qed.
Lemma four_cases (P : nat -> nat -> nat -> nat -> Prop) : (forall a b x y, a < 2 -> b < 2 -> x < 2 -> y < 2 -> P a b x y) ->
  forall o i, Forall2 lt o [2; 2] -> Forall2 lt i [2; 2] -> exists a b x y, o = [a; b] /\ i = [x; y] /\ P a b x y.
Proof.
  intros H o i Ho Hi. inversion Ho as [|a ? o' ? A0 Ho']; subst. inversion Ho' as [|b ? o'' ? A1 Ho'']; subst. inversion Ho''; subst.
  inversion Hi as [|x ? i' ? X0 Hi']; subst. inversion Hi' as [|y ? i'' ? X1 Hi'']; subst. inversion Hi''; subst. exists a, b, x, y. auto.
Qed.
Example C45_pr_support_is_excluded : possibility_table bell_sc pr_table /\ ~ possible_support bell_sc pr_table.
Proof.
  assert (T : possibility_table bell_sc pr_table).
  { intros o i Ho Hi. destruct (four_cases (fun a b x y => nd_at pr_table ([a; b] ++ [x; y]) = 0%Qc \/ (1 <= nd_at pr_table ([a; b] ++ [x; y]))%Qc)) with (2 := Ho) (3 := Hi) as (a & b & x & y & -> & -> & H); [|exact H].
    intros a b x y _ _ _ _. cbn [app nd_at pr_table]. destruct (_ =? _); [right; apply Qcle_refl|left; reflexivity]. }
  split; [exact T|]. destruct (excluded_by _ _ _ _ bell_ready pr_checked) as (r & s & a & t & RUN & N); [reflexivity|].
  apply (C45_infeasible_means_impossible _ _ _ _ _ _ _ _ _ _ _ bell_ready RUN (C45_tables_have_no_small_values _ _ _ _ _ _ _ _ _ _ _ bell_ready RUN T) N).
Qed.
(** The hypotheses are met: equal outcomes are a possible support. *)
Definition coin_table : ndarray := {| nd_shape := [2; 2; 2; 2]; nd_at := fun i => match i with a :: b :: _ => if a =? b then 1%Qc else 0%Qc | _ => 0%Qc end |}.
Definition counts (sc : scenario) (arr : ndarray) (lpi shared : bool) : option (nat * nat) :=
  match generate sc true true with None => None | Some r =>
  match generated lp (r_context r) with None => None | Some s0 =>
  match set_distribution sc r (Some arr) lpi shared s0 with None => None | Some s => Some (length (known s), length (lower s)) end end end.
Lemma counts_is sc arr lpi shared nn rk ri r s a t : supports_run sc arr lpi shared nn rk ri r s a t -> counts sc arr lpi shared = Some (length (known s), length (lower s)).
Proof. intros [G (s0 & E0 & E) _ _]. unfold counts. rewrite G, E0, E. reflexivity. Qed.
Lemma coin_counts : counts bell_sc coin_table true false = Some (8, 17). Proof. vm_compute. reflexivity. Qed.
Example C45_coin_support_is_possible : possible_support bell_sc coin_table /\ possibility_table bell_sc coin_table /\
  exists r s a t, supports_run bell_sc coin_table true false true false true r s a t /\ small_is_zero s /\ length (known s) = 8 /\ length (lower s) = 17 /\
    exists x, task_feasible (primal_task a t) x /\ task_value (primal_task a t) x = 0%Qc.
Proof.
  assert (PS : possible_support bell_sc coin_table).
  { exists coin. split; [exact C43_shared_coin_is_compatible|]. intros o i Ho Hi.
    destruct (four_cases (fun a b x y => (0 <= nd_at coin_table ([a; b] ++ [x; y]))%Qc /\ (0 <= nd_at coin ([a; b] ++ [x; y]))%Qc /\ (nd_at coin_table ([a; b] ++ [x; y]) = 0%Qc <-> nd_at coin ([a; b] ++ [x; y]) = 0%Qc))) with (2 := Ho) (3 := Hi) as (a & b & x & y & -> & -> & H); [|exact H].
    intros a b x y _ _ _ _. cbn [app nd_at coin_table coin]. destruct (a =? b); (split; [discriminate|]); (split; [discriminate|]); split; intros Q; try reflexivity; discriminate. }
  assert (T : possibility_table bell_sc coin_table).
  { intros o i Ho Hi. destruct (four_cases (fun a b x y => nd_at coin_table ([a; b] ++ [x; y]) = 0%Qc \/ (1 <= nd_at coin_table ([a; b] ++ [x; y]))%Qc)) with (2 := Ho) (3 := Hi) as (a & b & x & y & -> & -> & H); [|exact H].
    intros a b x y _ _ _ _. cbn [app nd_at coin_table]. destruct (_ =? _); [right; apply Qcle_refl|left; reflexivity]. }
  split; [exact PS|]. split; [exact T|]. destruct (C45_problem_is_built bell_sc coin_table true false true false true bell_ready eq_refl) as (r & s & a & t & RUN). exists r, s, a, t. split; [exact RUN|].
  pose proof (C45_tables_have_no_small_values _ _ _ _ _ _ _ _ _ _ _ bell_ready RUN T) as Z. split; [exact Z|].
  pose proof (counts_is _ _ _ _ _ _ _ _ _ _ _ RUN) as L. rewrite coin_counts in L. split; [congruence|]. split; [congruence|].
  apply (C45_possible_supports_are_feasible _ _ _ _ _ _ _ _ _ _ _ bell_ready RUN Z PS).
Qed.

(** ** What the code does not guarantee *)
(** Values of at most 1e-8 are taken for zero: a distribution that the scenario can give can then be
    declared impossible.  Here P(A=0,B=0) = P(A=0,B=1) = 1e-8 and P(A=0) = 2e-8. *)
Definition small_sc : scenario := {| outcomes := [2; 2]; private_settings := [1; 1]; parents := [[]; []];
     sources := [{| s_classical := true; s_children := [0; 1]; s_latents := [] |}]; levels := [1] |}.
Lemma small_ready : ready small_sc.
Proof.
  constructor.
  - constructor; try reflexivity.
    + intros ps q [<-|[<-|[]]] [].
    + intros m [<-|[]]; lia.
    + intros p Hp. exists {| s_classical := true; s_children := [0; 1]; s_latents := [] |}. split; [left; reflexivity|]. left. destruct p as [|[|p]]; cbn in *; auto; lia.
  - exists (fun _ => 0). intros p q Hp Hq. destruct p as [|[|p]]; cbn in *; try contradiction; lia.
  - intros o [<-|[<-|[]]]; lia.
  - intros o [<-|[<-|[]]]; lia.
  - cbn. lia.
  - unfold few_copies. vm_compute. repeat constructor.
Qed.
Definition eps : Qc := Q2Qc (1 # 100000000).
Definition small_arr : ndarray := {| nd_shape := [2; 2; 1; 1]; nd_at := fun i => match i with a :: _ => if a =? 0 then eps else (half - eps)%Qc | _ => 0%Qc end |}.
Definition two_bits (w : list (Qc * nat)) : causal_model :=
  {| source_distribution := fun _ => w; noise_distribution := fun _ => [(1%Qc, 0)]; response := fun p u _ _ _ => if p =? 0 then u 0 / 2 mod 2 else u 0 mod 2 |}.
Lemma two_bits_model w : (forall q, In q w -> (0 <= fst q)%Qc) -> sumQ (map fst w) = 1%Qc -> model_of small_sc (two_bits w).
Proof.
  intros P1 T. constructor.
  - intros k _. split; [exact P1|exact T].
  - intros k _. split; [intros wv [<-|[]]; cbn; discriminate|apply Qc_eq_bool_correct; vm_compute; reflexivity].
  - intros p u e x os Hp. cbn [response two_bits]. destruct p as [|[|p]]; [| |cbn in Hp; lia]; cbn [Nat.eqb outcomes small_sc nth]; apply Nat.mod_upper_bound; lia.
  - intros p u u' e x os Hp H. cbn [response two_bits]. rewrite (H 0 _ eq_refl); [reflexivity|]. left. destruct p as [|[|p]]; cbn in *; auto; lia.
Qed.
Lemma two_cases (P : nat -> nat -> Prop) : (forall a b, a < 2 -> b < 2 -> P a b) -> forall o i, Forall2 lt o [2; 2] -> Forall2 lt i [1; 1] -> exists a b, o = [a; b] /\ i = [0; 0] /\ P a b.
Proof.
  intros H o i Ho Hi. inversion Ho as [|a ? o' ? A0 Ho']; subst. inversion Ho' as [|b ? o'' ? A1 Ho'']; subst. inversion Ho''; subst.
  inversion Hi as [|x ? i' ? X0 Hi']; subst. inversion Hi' as [|y ? i'' ? X1 Hi'']; subst. inversion Hi''; subst. exists a, b. assert (x = 0) by lia. assert (y = 0) by lia. subst. auto.
Qed.
Lemma small_compatible : compatible_distribution small_sc small_arr.
Proof.
  split; [reflexivity|]. exists (two_bits [(eps, 0); (eps, 1); ((half - eps)%Qc, 2); ((half - eps)%Qc, 3)]). split.
  - apply two_bits_model; [intros wv [<-|[<-|[<-|[<-|[]]]]]; cbn; discriminate|apply Qc_eq_bool_correct; vm_compute; reflexivity].
  - intros o i Ho Hi. set (M := two_bits _). destruct (two_cases (fun a b => nd_at small_arr ([a; b] ++ [O; O]) = observed small_sc M [a; b] [0; 0])) with (2 := Ho) (3 := Hi) as (a & b & -> & -> & H); [|exact H].
    intros a b A B. unfold M. destruct (lt2 _ A) as [-> | ->], (lt2 _ B) as [-> | ->]; apply Qc_eq_bool_correct; vm_compute; reflexivity.
Qed.
Definition small_multipliers (j : nat) : Qc := nth j (map (fun z => Q2Qc (inject_Z z)) [0; 0; 0; 0; 0; 0; 0; 1; 0; 1; 1; 0; -1]%Z) 0%Qc.
Lemma small_checked : excluded_check small_sc small_arr small_multipliers (eps + eps - 1)%Qc = true. Proof. vm_compute. reflexivity. Qed.
Theorem C45_small_probabilities_refuted : ready small_sc /\ compatible_distribution small_sc small_arr /\ possible_support small_sc small_arr /\
  exists r s a t, supports_run small_sc small_arr false false true false false r s a t /\ forall x, ~ task_feasible (primal_task a t) x.
Proof.
  split; [exact small_ready|]. split; [exact small_compatible|]. split.
  - exists small_arr. split; [exact small_compatible|]. intros o i Ho Hi. destruct (two_cases (fun a b => (0 <= nd_at small_arr ([a; b] ++ [O; O]))%Qc)) with (2 := Ho) (3 := Hi) as (a & b & -> & -> & H); [|split; [exact H|split; [exact H|reflexivity]]].
    intros a b _ _. cbn [app nd_at small_arr]. destruct (a =? 0); discriminate.
  - apply (excluded_by _ _ _ _ small_ready small_checked). reflexivity.
Qed.
(** A second call of set_distribution keeps the lower bounds of the first: a possible support can then
    be declared impossible.  Here the first table allows all events and the second those with A=0. *)
Definition all_table : ndarray := {| nd_shape := [2; 2; 1; 1]; nd_at := fun i => 1%Qc |}.
Definition zero_table : ndarray := {| nd_shape := [2; 2; 1; 1]; nd_at := fun i => match i with a :: _ => if a =? 0 then 1%Qc else 0%Qc | _ => 0%Qc end |}.
Definition zero_arr : ndarray := {| nd_shape := [2; 2; 1; 1]; nd_at := fun i => match i with a :: _ => if a =? 0 then half else 0%Qc | _ => 0%Qc end |}.
Lemma zero_possible : possible_support small_sc zero_table.
Proof.
  exists zero_arr. split.
  - split; [reflexivity|]. exists (two_bits [(half, 0); (half, 1)]). split.
    + apply two_bits_model; [intros wv [<-|[<-|[]]]; cbn; discriminate|apply Qc_eq_bool_correct; vm_compute; reflexivity].
    + intros o i Ho Hi. set (M := two_bits _). destruct (two_cases (fun a b => nd_at zero_arr ([a; b] ++ [O; O]) = observed small_sc M [a; b] [0; 0])) with (2 := Ho) (3 := Hi) as (a & b & -> & -> & H); [|exact H].
      intros a b A B. unfold M. destruct (lt2 _ A) as [-> | ->], (lt2 _ B) as [-> | ->]; apply Qc_eq_bool_correct; vm_compute; reflexivity.
  - intros o i Ho Hi. destruct (two_cases (fun a b => (0 <= nd_at zero_table ([a; b] ++ [O; O]))%Qc /\ (0 <= nd_at zero_arr ([a; b] ++ [O; O]))%Qc /\ (nd_at zero_table ([a; b] ++ [O; O]) = 0%Qc <-> nd_at zero_arr ([a; b] ++ [O; O]) = 0%Qc))) with (2 := Ho) (3 := Hi) as (a & b & -> & -> & H); [|exact H].
    intros a b _ _. cbn [app nd_at zero_table zero_arr]. destruct (a =? 0); (split; [discriminate|]); (split; [discriminate|]); split; intros Q; try reflexivity; discriminate.
Qed.
Definition second_run (sc : scenario) (arr arr2 : ndarray) : option (relaxation * state * state * state * lp_args * setup * task) :=
  match generate sc true true with None => None | Some r =>
  match generated lp (r_context r) with None => None | Some s0 =>
  match set_distribution sc r (Some arr) false false s0 with None => None | Some s1 =>
  match set_distribution sc r (Some arr2) false false s1 with None => None | Some s =>
  match prepare_lp (r_programme r) true false false s with None => None | Some a =>
  match prepare a with None => None | Some t =>
  match dual_task a t with None => None | Some d => Some (r, s0, s1, s, a, t, d) end end end end end end end.
Lemma second_run_is sc arr arr2 r s0 s1 s a t d : second_run sc arr arr2 = Some (r, s0, s1, s, a, t, d) -> generate sc true true = Some r /\ generated lp (r_context r) = Some s0 /\ set_distribution sc r (Some arr) false false s0 = Some s1 /\
    set_distribution sc r (Some arr2) false false s1 = Some s /\ prepare_lp (r_programme r) true false false s = Some a /\ prepare a = Some t /\ dual_task a t = Some d.
Proof.
  unfold second_run. destruct (generate sc true true) as [r'|] eqn:ER; [|discriminate]. destruct (generated lp (r_context r')) as [s0'|] eqn:E0; [|discriminate]. destruct (set_distribution sc r' (Some arr) false false s0') as [s1'|] eqn:E1; [|discriminate].
  destruct (set_distribution sc r' (Some arr2) false false s1') as [s'|] eqn:ES; [|discriminate]. destruct (prepare_lp _ _ _ _ _) as [a'|] eqn:EA; [|discriminate]. destruct (prepare a') as [t'|] eqn:ET; [|discriminate].
  destruct (dual_task a' t') as [d'|] eqn:ED; [|discriminate]. intros E. assert (r' = r) by congruence. assert (s0' = s0) by congruence. assert (s1' = s1) by congruence. assert (s' = s) by congruence. assert (a' = a) by congruence. assert (t' = t) by congruence. assert (d' = d) by congruence. subst r' s0' s1' s' a' t' d'. auto 8.
Qed.
Definition second_multipliers (j : nat) : Qc := nth j (map (fun z => Q2Qc (inject_Z z)) [0; 0; 0; 0; 0; 0; 0; 0; 0; 1; 0; 0; 0; 0; -1]%Z) 0%Qc.
Definition second_check : bool :=
  match second_run small_sc all_table zero_table with
  | Some (r, s0, s1, s, a, t, d) => PropSolve.task_feasible_b d second_multipliers && Qc_eq_bool (task_value d second_multipliers) (- (1))%Qc && forallb (fun p => qleb 0 (snd p)) (lower s)
      && match extra_equalities s, extra_inequalities s, ProgramModel.objective s with [], [], [] => true | _, _, _ => false end
  | None => false end.
Lemma second_checked : second_check = true. Proof. vm_compute. reflexivity. Qed.
Theorem C45_second_support_refuted : ready small_sc /\ possibility_table small_sc zero_table /\ possible_support small_sc zero_table /\
  exists r s0 s1 s a t, generate small_sc true true = Some r /\ generated lp (r_context r) = Some s0 /\ set_distribution small_sc r (Some all_table) false false s0 = Some s1 /\
    set_distribution small_sc r (Some zero_table) false false s1 = Some s /\ prepare_lp (r_programme r) true false false s = Some a /\ prepare a = Some t /\ forall x, ~ task_feasible (primal_task a t) x.
Proof.
  split; [exact small_ready|]. split. { intros o i _ _. cbn [nd_at zero_table]. destruct (o ++ i) as [|a l]; [left; reflexivity|]. destruct (a =? 0); [right; apply Qcle_refl|left; reflexivity]. } split; [exact zero_possible|].
  pose proof second_checked as H. unfold second_check in H. destruct (second_run small_sc all_table zero_table) as [((((((r & s0) & s1) & s) & a) & t) & d)|] eqn:E; [|discriminate]. apply andb_prop in H as [H X]. apply andb_prop in H as [H LB]. apply andb_prop in H as [F V]. apply Qc_eq_bool_correct in V. rewrite forallb_forall in LB.
  apply second_run_is in E as (ER & E0 & E1 & ES & EA & ET & ED). exists r, s0, s1, s, a, t. split; [exact ER|]. split; [exact E0|]. split; [exact E1|]. split; [exact ES|]. split; [exact EA|]. split; [exact ET|]. destruct small_ready as [W AC Hout Hset Np FC].
  assert (XX : extra_equalities s = [] /\ extra_inequalities s = [] /\ ProgramModel.objective s = []) by (destruct (extra_equalities s); [|discriminate]; destruct (extra_inequalities s); [|discriminate]; destruct (ProgramModel.objective s); [auto|discriminate]). destruct XX as (X1 & X2 & X3).
  apply (infeasible_by (r_programme r) true (r_context r) s a t d second_multipliers); try assumption.
  - apply (programme_is_ok small_sc W Hout Hset Np FC true true r ER).
  - apply (set_distribution_reachable small_sc r (Some zero_table) false false s1 s); [|exact ES]. apply (set_distribution_reachable small_sc r (Some all_table) false false s0 s1); [exists []; exact E0|exact E1].
  - intros m v Hm. apply SearchProofs.qleb_true, (LB (m, v) Hm).
  - apply PropSolve.task_feasible_b_ok, F.
  - rewrite V. reflexivity.
Qed.
