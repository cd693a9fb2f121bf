(** C43: what the linear programmes say about distributions is right: a distribution that the
    scenario can give is never declared incompatible, certificates are non-negative on all such
    distributions, and optima bound what the scenario can give. *)
From Coq Require Import List Arith Bool QArith Qcanon Lia Permutation Sorted.
From Verif Require Import CanonModel ScenarioModel ScenarioSpec MargModel QcSum CausalSpec InflatedSpec ClassicalProofs2 ProgramModel ProgramSpec ProgramProofs ProgramProofs2 ProgramProofs3 LPSolveModel LPSolveSpec ProgramLP ProgramLPProofs LPMomentModel LPMomentProofs LPMomentProofs2 ColumnsFacts SoundProofs GenerateProofs SoundProofs2 SoundProofs3 SoundProofs4 SoundProofs5 SoundProofs6 SoundProofs7.
From Verif Require PropProgram PropSolve LPProofs10.
Import ListNotations.
Close Scope Q_scope. Close Scope Qc_scope. Open Scope nat_scope.

(** Scenarios: well-formed, no directed cycle, at least one party, outcome and setting, and few enough
    copies for the code's factorisation (C11). *)
Record ready (sc : scenario) : Prop := {
  rd_wf : wf_scenario sc;
  rd_acyclic : acyclic sc;
  rd_outcomes : forall o, In o (outcomes sc) -> 1 <= o;
  rd_settings : forall k, In k (private_settings sc) -> 1 <= k;
  rd_party : 0 < nr_parties sc;
  rd_copies : few_copies sc }.
(** A use of InflationLP: construct, set_objective, set_distribution, solve (up to the solver call).
    [items] is the objective (None: none), [arr] the distribution (None: none). *)
Record lp_run (sc : scenario) (all_outcomes : bool) (items : option (list (moment * Qc))) (maximise : bool)
              (arr : option ndarray) (lpi shared nn rk ri : bool)
              (r : relaxation) (s : state) (a : lp_args) (t : setup) : Prop := {
  lr_generate : generate sc all_outcomes false = Some r;
  lr_state : exists s0 s1, generated lp (r_context r) = Some s0 /\
    set_objective lp (r_context r) items maximise s0 = Some s1 /\ set_distribution sc r arr lpi shared s1 = Some s;
  lr_args : prepare_lp (r_programme r) nn rk ri s = Some a;
  lr_setup : prepare a = Some t }.

(** after construction and set_objective *)
Lemma state_after sc ao r items mx s0 s1 : ready sc -> generate sc ao false = Some r -> generated lp (r_context r) = Some s0 -> set_objective lp (r_context r) items mx s0 = Some s1 ->
  lower s1 = [] /\ upper s1 = [] /\ (items = None -> ProgramModel.objective s1 = []) /\ reachable lp (r_context r) s1 /\ keyed r s1.
Proof.
  intros [W AC Hout Hset Np FC] G E0 E1. destruct (generated_fresh sc W Hout FC ao false r G eq_refl) as (s0' & E0' & (K1 & K2 & K3) & L0 & U0 & O0 & (ops & R)). rewrite E0 in E0'. injection E0' as <-.
  assert (R1 : reachable lp (r_context r) s1) by (exists (ops ++ [SetObjective items mx]); unfold run in *; rewrite fold_left_app, R; exact E1).
  pose proof (moments_are_columns sc W Hout FC ao false r G) as MC.
  unfold set_objective in E1. destruct items as [items|].
  - destruct (supports_problem _); [discriminate|]. cbn [with_constant] in E1. destruct (forallb _ _) eqn:F; [|discriminate]. assert (X : forall o, Some (with_objective o o s0) = Some s1 -> forallb (fun m => mmem m (moments (r_context r))) (keys o) = true -> lower s1 = [] /\ upper s1 = [] /\ keyed r s1).
    { intros o Q F'. assert (s1 = with_objective o o s0) by congruence. subst s1. cbn [with_objective lower upper]. split; [exact L0|]. split; [exact U0|]. split; [|split; assumption]. cbn [with_objective ProgramModel.objective].
      rewrite MC in F'. exact F'. }
    destruct (X _ E1 F) as (X1 & X2 & X3). split; [exact X1|]. split; [exact X2|]. split; [discriminate|]. split; assumption.
  - assert (s1 = with_objective [] [] s0) by congruence. subst s1. split; [exact L0|]. split; [exact U0|]. split; [reflexivity|]. split; [exact R1|]. split; [reflexivity|split; assumption].
Qed.

(** ** The problem can be set up *)
Theorem C43_problem_is_built sc ao arr lpi shared nn rk ri : ready sc -> (forall x, arr = Some x -> nd_shape x = outcomes sc ++ private_settings sc) ->
  exists r s a t, lp_run sc ao None true arr lpi shared nn rk ri r s a t.
Proof.
  intros RD AL. pose proof RD as RD'. destruct RD' as [W AC Hout Hset Np FC].
  destruct (generate_some sc W Hout FC ao false) as (r & G). destruct (generated_fresh sc W Hout FC ao false r G eq_refl) as (s0 & E0 & _).
  assert (E1 : set_objective lp (r_context r) None true s0 = Some (with_objective [] [] s0)) by reflexivity.
  destruct (state_after sc ao r None true s0 _ RD G E0 E1) as (L1 & U1 & O1 & R1 & K1).
  destruct (set_distribution_some sc W Hout Hset FC ao false r G arr lpi shared (with_objective [] [] s0)) as (s & E2). { destruct arr as [x|]; [apply AL; reflexivity|exact Logic.I]. }
  destruct (prepared_some sc W Hout Hset FC ao false r G arr lpi shared _ s nn rk ri eq_refl K1 E2) as (a & E3).
  assert (E4 : exists t, prepare a = Some t).
  { pose proof (set_distribution_reachable sc r arr lpi shared _ s R1 E2) as R2.
    assert (ST : extra_equalities s = [] /\ extra_inequalities s = []).
    { unfold set_distribution in E2. destruct (match arr with Some a => distribution_values sc r a | None => Some [] end) as [values|]; [|discriminate]. destruct (set_state sc W Hout FC ao false r G values lpi shared _ s E2 eq_refl) as (_ & _ & Q & Q' & _). auto. }
    apply (PropProgram.C25_lp_task_is_built (r_programme r) nn rk ri (r_context r) s a (programme_is_ok sc W Hout Hset Np FC ao false r G) R2); [rewrite (proj1 ST); intros d []|rewrite (proj2 ST); intros d []|exact E3]. }
  destruct E4 as (t & E4). exists r, s, a, t. constructor; auto. exists s0, (with_objective [] [] s0). auto.
Qed.

(** ** Every distribution the scenario can give has inflations of every level *)
Theorem C43_compatible_distributions_have_inflations sc arr : ready sc -> compatible_distribution sc arr -> exists P, inflation_of sc arr P.
Proof. intros [W AC Hout Hset Np FC] C. apply (compatible_inflation sc arr W AC Hset C). Qed.

(** the state of a run *)
Lemma run_state sc ao items mx arr lpi shared nn rk ri r s a t : ready sc -> lp_run sc ao items mx arr lpi shared nn rk ri r s a t ->
  programme_ok (r_programme r) /\ reachable lp (r_context r) s /\ lower s = [] /\ upper s = [] /\ extra_equalities s = [] /\ extra_inequalities s = [] /\ (items = None -> ProgramModel.objective s = []).
Proof.
  intros RD [G (s0 & s1 & E0 & E1 & E2) EP ET]. destruct (state_after sc ao r items mx s0 s1 RD G E0 E1) as (L1 & U1 & O1 & R1 & K1). destruct RD as [W AC Hout Hset Np FC].
  split; [apply (programme_is_ok sc W Hout Hset Np FC ao false r G)|]. split; [apply (set_distribution_reachable sc r arr lpi shared s1 s R1 E2)|].
  unfold set_distribution in E2. destruct (match arr with Some a => distribution_values sc r a | None => Some [] end) as [values|]; [|discriminate].
  destruct (set_state sc W Hout FC ao false r G values lpi shared _ s E2 eq_refl) as (EL & EU & Q & Q' & _ & EO). rewrite EL, EU, EO. auto 8.
Qed.
Lemma run_solved sc ao items mx arr lpi shared nn rk ri r s a t y : ready sc -> lp_run sc ao items mx arr lpi shared nn rk ri r s a t -> lp_point (r_programme r) true s y ->
  exists x, task_feasible (primal_task a t) x /\ task_value (primal_task a t) x = (if rk || ri then 0%Qc else expr_at y (ProgramModel.objective s)).
Proof.
  intros RD RUN PT. destruct (run_state _ _ _ _ _ _ _ _ _ _ _ _ _ _ RD RUN) as (OK & R & EL & EU & EX & EX' & _). destruct RUN as [G _ EP ET].
  apply (point_solves_task (r_programme r) nn rk ri (r_context r) s y a t OK R); try assumption.
  - rewrite EX. intros d [].
  - rewrite EX'. intros d [].
  - rewrite EL. intros _ m v [].
  - destruct PT; constructor; auto.
Qed.
(** known products that the code takes for zero are zero (only used with linearised constraints, where
    a product of known probabilities of at most 1e-8 is written as the value of the whole moment) *)
Definition no_tiny_values (lpi shared : bool) (s : state) : Prop :=
  lpi = true -> shared = false -> forall m v, In (m, v) (known s) -> isclose0 v = true -> v = 0%Qc.
Lemma run_point sc ao items mx arr lpi shared nn rk ri r s a t : ready sc -> lp_run sc ao items mx (Some arr) lpi shared nn rk ri r s a t -> no_tiny_values lpi shared s ->
  compatible_distribution sc arr -> exists P, inflation_of sc arr P /\ lp_point (r_programme r) true s (moment_at (the_atom sc r P)).
Proof.
  intros RD [G (s0 & s1 & E0 & E1 & E2) EP ET] NT C. destruct (C43_compatible_distributions_have_inflations sc arr RD C) as (P & IO). exists P. split; [exact IO|].
  destruct (state_after sc ao r items mx s0 s1 RD G E0 E1) as (L1 & U1 & _). destruct RD as [W AC Hout Hset Np FC].
  apply (inflation_is_a_point sc W Hout Hset FC ao false r G arr P lpi shared s1 s IO eq_refl E2); [exact NT|rewrite L1; intros m v []|rewrite U1; intros m v []].
Qed.

(** ** A compatible distribution is never declared incompatible *)
Theorem C43_compatible_distributions_are_feasible sc ao items mx arr lpi shared nn rk ri r s a t : ready sc -> lp_run sc ao items mx (Some arr) lpi shared nn rk ri r s a t ->
  no_tiny_values lpi shared s -> compatible_distribution sc arr ->
  exists x, task_feasible (primal_task a t) x /\ (rk || ri = true -> task_value (primal_task a t) x = 0%Qc).
Proof.
  intros RD RUN NT C. destruct (run_point _ _ _ _ _ _ _ _ _ _ _ _ _ _ RD RUN NT C) as (P & _ & PT). destruct (run_solved _ _ _ _ _ _ _ _ _ _ _ _ _ _ _ RD RUN PT) as (x & F & V). exists x. split; [exact F|]. intros B. rewrite V, B. reflexivity.
Qed.
Theorem C43_infeasible_means_incompatible sc ao items mx arr lpi shared nn rk ri r s a t : ready sc -> lp_run sc ao items mx (Some arr) lpi shared nn rk ri r s a t -> no_tiny_values lpi shared s ->
  (forall x, ~ task_feasible (primal_task a t) x) -> ~ compatible_distribution sc arr.
Proof.
  intros RD RUN NT N C. destruct (C43_compatible_distributions_are_feasible _ _ _ _ _ _ _ _ _ _ _ _ _ _ RD RUN NT C) as (x & F & _). apply (N x F).
Qed.
(** relaxed problems (feas_as_optim, relax_known_vars): a negative optimum *)
Theorem C43_negative_optimum_means_incompatible sc ao items mx arr lpi shared nn rk ri r s a t u : ready sc -> lp_run sc ao items mx (Some arr) lpi shared nn rk ri r s a t -> no_tiny_values lpi shared s ->
  rk || ri = true -> (forall x, task_feasible (primal_task a t) x -> (task_value (primal_task a t) x <= u)%Qc) -> (u < 0)%Qc -> ~ compatible_distribution sc arr.
Proof.
  intros RD RUN NT B N U C. destruct (C43_compatible_distributions_are_feasible _ _ _ _ _ _ _ _ _ _ _ _ _ _ RD RUN NT C) as (x & F & V). specialize (N x F). rewrite (V B) in N. apply (Qcle_not_lt _ _ N U).
Qed.

(** ** Shared randomness *)
Lemma mixture_inflations sc l : ready sc -> (forall q : Qc * ndarray, In q l -> (0 <= fst q)%Qc /\ compatible_distribution sc (snd q)) ->
  exists l', map fst l' = l /\ forall q, In q l' -> SoundProofs6.inflated sc q /\ (0 <= fst (fst q))%Qc.
Proof.
  intros RD. induction l as [|q l IH]; intros H; [exists []; split; [reflexivity|intros q []]|]. destruct IH as (l' & E & IH); [intros q' Hq'; apply H; right; exact Hq'|].
  destruct (H q (or_introl eq_refl)) as [Wq Cq]. destruct (C43_compatible_distributions_have_inflations sc (snd q) RD Cq) as (P & IO). exists ((q, P) :: l'). split; [cbn [map fst]; congruence|].
  intros q' [<-|Hq']; [|apply IH, Hq']. split; [exact IO|exact Wq].
Qed.
Lemma mixture_run_point sc ao items mx arr lpi nn rk ri r s a t : ready sc -> lp_run sc ao items mx (Some arr) lpi true nn rk ri r s a t -> mixture_of_compatible sc arr ->
  exists y, lp_point (r_programme r) true s y.
Proof.
  intros RD [G (s0 & s1 & E0 & E1 & E2) EP ET] (_ & l & HL & W1 & MX). destruct (mixture_inflations sc l RD HL) as (l' & EL & HL').
  destruct (state_after sc ao r items mx s0 s1 RD G E0 E1) as (L1 & U1 & _). destruct RD as [W AC Hout Hset Np FC]. eexists.
  apply (mixture_point sc W Hout Hset FC ao r G s1 L1 U1 arr lpi s l' HL'); [| |exact E2].
  - rewrite <- W1, <- EL, map_map. reflexivity.
  - intros o x Ho Hx. rewrite (MX o x Ho Hx), <- EL, map_map. reflexivity.
Qed.
Theorem C43_mixtures_are_feasible_with_shared_randomness sc ao items mx arr lpi nn rk ri r s a t : ready sc -> lp_run sc ao items mx (Some arr) lpi true nn rk ri r s a t ->
  mixture_of_compatible sc arr -> exists x, task_feasible (primal_task a t) x /\ (rk || ri = true -> task_value (primal_task a t) x = 0%Qc).
Proof.
  intros RD RUN C. destruct (mixture_run_point _ _ _ _ _ _ _ _ _ _ _ _ _ RD RUN C) as (y & PT). destruct (run_solved _ _ _ _ _ _ _ _ _ _ _ _ _ _ _ RD RUN PT) as (x & F & V). exists x. split; [exact F|]. intros B. rewrite V, B. reflexivity.
Qed.

(** ** Certificates *)
(** the value of a certificate (a coefficient per column) at known values *)
Definition certificate_value (r : relaxation) (cert : list Qc) (values : mdict Qc) : Qc :=
  sumQ (map (fun p => nth (column (r_programme r) (fst p)) cert 0 * snd p)%Qc values).
(** a certificate that the solver's dual variables give, from either form of the task *)
Inductive certificate_of (a : lp_args) (t : setup) : list Qc -> Prop :=
| from_dual d y : dual_task a t = Some d -> task_feasible d y -> certificate_of a t (certificate a t (map y (seq 0 (t_numvar d))))
| from_primal y : multipliers (primal_task a t) y -> certificate_of a t (certificate a t (map y (seq 0 (t_numcon (primal_task a t))))).
Lemma runs_share sc ao mx mx' arr arr' lpi shared nn rk ri nn' rk' ri' r s a t r' s' a' t' : lp_run sc ao None mx arr lpi shared nn rk ri r s a t -> lp_run sc ao None mx' arr' lpi shared nn' rk' ri' r' s' a' t' ->
  r' = r /\ exists s0 s1, generated lp (r_context r) = Some s0 /\ set_objective lp (r_context r) None mx s0 = Some s1 /\ set_distribution sc r arr lpi shared s1 = Some s /\ set_distribution sc r arr' lpi shared s1 = Some s'.
Proof.
  intros [G (s0 & s1 & E0 & E1 & E2) _ _] [G' (s0' & s1' & E0' & E1' & E2') _ _]. assert (r' = r) by congruence. subst r'. split; [reflexivity|]. assert (s0' = s0) by congruence. subst s0'. exists s0, s1. repeat (split; [assumption|]).
  cbn [set_objective] in E1, E1'. assert (s1' = s1) by congruence. congruence.
Qed.
Lemma certificates_hold sc ao mx mx' arr arr' lpi shared nn rk ri nn' rk' ri' r s a t r' s' a' t' cert y0 : ready sc -> lpi = false \/ shared = true ->
  lp_run sc ao None mx (Some arr) lpi shared nn rk ri r s a t -> lp_run sc ao None mx' (Some arr') lpi shared nn' rk' ri' r' s' a' t' ->
  certificate_of a t cert -> lp_point (r_programme r') true s' y0 -> (0 <= certificate_value r cert (known s'))%Qc.
Proof.
  intros RD LP RUN RUN' CE PT. destruct (runs_share _ _ _ _ _ _ _ _ _ _ _ _ _ _ _ _ _ _ _ _ _ _ RUN RUN') as (-> & s0 & s1 & E0 & E1 & E2 & E2'). destruct RUN as [G _ EP ET].
  destruct (state_after sc ao r None mx s0 s1 RD G E0 E1) as (L1 & U1 & O1 & R1 & _). destruct RD as [W AC Hout Hset Np FC].
  destruct (certificate_at_point sc W Hout Hset Np FC ao r G s1 L1 U1 (O1 eq_refl) R1 arr arr' lpi shared nn rk ri s s' a t y0 LP E2 E2' EP ET PT) as [D M].
  destruct CE as [d y ED TF|y TF]; [apply (D d y ED TF)|apply (M y TF)].
Qed.
(** A certificate found for one distribution is non-negative on every compatible distribution (the
    known values of [arr'] are those that set_distribution gives). *)
Theorem C43_certificates_hold_for_compatible_distributions sc ao mx mx' arr arr' lpi shared nn rk ri nn' rk' ri' r s a t r' s' a' t' cert : ready sc -> lpi = false \/ shared = true ->
  lp_run sc ao None mx (Some arr) lpi shared nn rk ri r s a t -> lp_run sc ao None mx' (Some arr') lpi shared nn' rk' ri' r' s' a' t' ->
  certificate_of a t cert -> compatible_distribution sc arr' -> (0 <= certificate_value r cert (known s'))%Qc.
Proof.
  intros RD LP RUN RUN' CE C. destruct (run_point _ _ _ _ _ _ _ _ _ _ _ _ _ _ RD RUN') with (2 := C) as (P & _ & PT); [intros -> ->; destruct LP; discriminate|].
  apply (certificates_hold _ _ _ _ _ _ _ _ _ _ _ _ _ _ _ _ _ _ _ _ _ _ _ _ RD LP RUN RUN' CE PT).
Qed.
Theorem C43_certificates_hold_for_mixtures sc ao mx mx' arr arr' lpi nn rk ri nn' rk' ri' r s a t r' s' a' t' cert : ready sc ->
  lp_run sc ao None mx (Some arr) lpi true nn rk ri r s a t -> lp_run sc ao None mx' (Some arr') lpi true nn' rk' ri' r' s' a' t' ->
  certificate_of a t cert -> mixture_of_compatible sc arr' -> (0 <= certificate_value r cert (known s'))%Qc.
Proof.
  intros RD RUN RUN' CE C. destruct (mixture_run_point _ _ _ _ _ _ _ _ _ _ _ _ _ RD RUN' C) as (y & PT).
  apply (certificates_hold _ _ _ _ _ _ _ _ _ _ _ _ _ _ _ _ _ _ _ _ _ _ _ _ RD (or_intror eq_refl) RUN RUN' CE PT).
Qed.
(** ... so a distribution on which it is negative is incompatible, with no further optimisation. *)
Theorem C43_negative_certificate_means_incompatible sc ao mx mx' arr arr' lpi shared nn rk ri nn' rk' ri' r s a t r' s' a' t' cert : ready sc -> lpi = false \/ shared = true ->
  lp_run sc ao None mx (Some arr) lpi shared nn rk ri r s a t -> lp_run sc ao None mx' (Some arr') lpi shared nn' rk' ri' r' s' a' t' ->
  certificate_of a t cert -> (certificate_value r cert (known s') < 0)%Qc -> ~ compatible_distribution sc arr'.
Proof.
  intros RD LP RUN RUN' CE N C. apply (Qcle_not_lt _ _ (C43_certificates_hold_for_compatible_distributions _ _ _ _ _ _ _ _ _ _ _ _ _ _ _ _ _ _ _ _ _ _ _ RD LP RUN RUN' CE C) N).
Qed.

(** ** Optima *)
(** the value of the objective of a state at known values *)
Definition objective_value (s : state) (values : mdict Qc) : Qc :=
  sumQ (map (fun p => snd p * match get meq (fst p) values with Some v => v | None => 0 end)%Qc (ProgramModel.objective s)).
(** Without a distribution, the optimum bounds the objective (of moments that a distribution
    determines) at every compatible distribution. *)
Theorem C43_optimum_bounds_compatible_distributions sc ao items mx mx' arr' lpi shared nn nn' rk' ri' r s a t r' s' a' t' u : ready sc ->
  lp_run sc ao (Some items) mx None lpi shared nn false false r s a t -> lp_run sc ao None mx' (Some arr') false shared nn' rk' ri' r' s' a' t' ->
  (forall m, In m (keys (ProgramModel.objective s)) -> In m (keys (known s'))) ->
  (forall x, task_feasible (primal_task a t) x -> (task_value (primal_task a t) x <= u)%Qc) ->
  compatible_distribution sc arr' -> (objective_value s (known s') <= u)%Qc.
Proof.
  intros RD RUN RUN' KO U C. destruct (run_point _ _ _ _ _ _ _ _ _ _ _ _ _ _ RD RUN') with (2 := C) as (P & IO & PT); [intros X; discriminate|].
  assert (ER : r' = r) by (destruct RUN as [G _ _ _], RUN' as [G' _ _ _]; congruence). subst r'.
  assert (PT2 : lp_point (r_programme r) true s (moment_at (the_atom sc r P))).
  { destruct (run_state _ _ _ _ _ _ _ _ _ _ _ _ _ _ RD RUN) as (OK & R & EL & EU & EX & EX' & _). destruct RUN as [G (s0 & s1 & E0 & E1 & E2) EP ET]. destruct RD as [W AC Hout Hset Np FC].
    destruct (the_constraints sc W Hout FC ao false r G arr' P IO) as (C1 & C2 & C3 & C4).
    pose proof (supports_is sc W Hout FC ao false r G) as SI. cbn [set_distribution] in E2. destruct (PropProgram.C22_without_values lp (r_context r) lpi shared s1 s SI E2) as [S0 K].
    constructor; rewrite ?EL, ?EU, ?EX, ?EX', ?S0; try (intros ? []; fail); try (intros ? ? []; fail); try (intros ? ? ? []; fail); auto.
    intros m v Hm. apply (in_get meq m v (known s) (wf_known _ (reachable_wf _ _ _ R))) in Hm. rewrite K in Hm. unfold base in Hm. cbn in Hm. destruct (meq m One) as [->|]; [|discriminate]. assert (v = 1%Qc) by congruence. subst v. exact C4. }
  destruct (run_solved _ _ _ _ _ _ _ _ _ _ _ _ _ _ _ RD RUN PT2) as (x & F & V). specialize (U x F). rewrite V in U. cbn [orb] in U. replace (objective_value s (known s')) with (expr_at (moment_at (the_atom sc r P)) (ProgramModel.objective s)); [exact U|].
  unfold expr_at, objective_value. apply sumQ_ext. intros (m & w) I. cbn [fst snd]. f_equal.
  destruct (run_state _ _ _ _ _ _ _ _ _ _ _ _ _ _ RD RUN') as (_ & R' & _). assert (Hm := KO m (in_map fst _ _ I)). apply in_map_iff in Hm as ((m' & v) & Em & Hm). cbn [fst] in Em. subst m'.
  rewrite (in_get meq m v (known s') (wf_known _ (reachable_wf _ _ _ R')) Hm). apply (lpp_known _ _ _ _ PT m v Hm).
Qed.

(** ** Examples: the Bell scenario *)
Definition bell_sc : scenario :=
  {| outcomes := [2; 2]; private_settings := [2; 2]; parents := [[]; []];
     sources := [{| s_classical := true; s_children := [0; 1]; s_latents := [] |}]; levels := [1] |}.
Lemma bell_ready : ready bell_sc.
Proof.
  constructor.
  - constructor; try reflexivity.
    + intros ps q [<-|[<-|[]]] [].
    + intros m [<-|[]]; lia.
    + intros p Hp. exists {| s_classical := true; s_children := [0; 1]; s_latents := [] |}. split; [left; reflexivity|]. left. destruct p as [|[|p]]; cbn in *; auto; lia.
  - exists (fun _ => 0). intros p q Hp Hq. destruct p as [|[|p]]; cbn in *; try contradiction; lia.
  - intros o [<-|[<-|[]]]; lia.
  - intros o [<-|[<-|[]]]; lia.
  - cbn. lia.
  - unfold few_copies. vm_compute. repeat constructor.
Qed.
Definition half : Qc := Q2Qc (1 # 2).
(** shared coin *)
Definition coin : ndarray := {| nd_shape := [2; 2; 2; 2]; nd_at := fun i => match i with a :: b :: _ => if a =? b then half else 0%Qc | _ => 0%Qc end |}.
Definition coin_model : causal_model :=
  {| source_distribution := fun _ => [(half, 0); (half, 1)]; noise_distribution := fun _ => [(1%Qc, 0)];
     response := fun _ u _ _ _ => Nat.min (u 0) 1 |}.
Lemma lt2 a : a < 2 -> a = 0 \/ a = 1. Proof. lia. Qed.
Example C43_shared_coin_is_compatible : compatible_distribution bell_sc coin.
Proof.
  split; [reflexivity|]. exists coin_model. split.
  - constructor.
    + intros k _. split; [intros wv [<-|[<-|[]]]; cbn; discriminate|apply Qc_eq_bool_correct; vm_compute; reflexivity].
    + intros k _. split; [intros wv [<-|[]]; cbn; discriminate|apply Qc_eq_bool_correct; vm_compute; reflexivity].
    + intros p u e x os Hp. destruct p as [|[|p]]; cbn in *; lia.
    + intros p u u' e x os Hp H. cbn [response coin_model]. rewrite (H 0 _ eq_refl); [reflexivity|]. left. destruct p as [|[|p]]; cbn in *; auto; lia.
  - intros a x Ha Hx. inversion Ha as [|a0 ? a' ? A0 Ha']; subst. inversion Ha' as [|a1 ? a'' ? A1 Ha'']; subst. inversion Ha''; subst.
    inversion Hx as [|x0 ? x' ? X0 Hx']; subst. inversion Hx' as [|x1 ? x'' ? X1 Hx'']; subst. inversion Hx''; subst.
    destruct (lt2 _ A0) as [-> | ->], (lt2 _ A1) as [-> | ->]; apply Qc_eq_bool_correct; vm_compute; reflexivity.
Qed.
(** the maximally non-local correlations: a + b = x y modulo 2 *)
Definition pr_box : ndarray := {| nd_shape := [2; 2; 2; 2];
  nd_at := fun i => match i with [a; b; x; y] => if (a + b) mod 2 =? x * y then half else 0%Qc | _ => 0%Qc end |}.
Definition full_run (sc : scenario) (arr : ndarray) (lpi shared nn : bool) : option (relaxation * state * lp_args * setup * task) :=
  match generate sc false false with None => None | Some r =>
  match generated lp (r_context r) with None => None | Some s0 =>
  match set_objective lp (r_context r) None true s0 with None => None | Some s1 =>
  match set_distribution sc r (Some arr) lpi shared s1 with None => None | Some s =>
  match prepare_lp (r_programme r) nn false false s with None => None | Some a =>
  match prepare a with None => None | Some t =>
  match dual_task a t with None => None | Some d => Some (r, s, a, t, d) end end end end end end end.
Lemma full_run_is sc arr lpi shared nn r s a t d : full_run sc arr lpi shared nn = Some (r, s, a, t, d) ->
  lp_run sc false None true (Some arr) lpi shared nn false false r s a t /\ dual_task a t = Some d.
Proof.
  unfold full_run. destruct (generate sc false false) as [r'|] eqn:ER; [|discriminate]. destruct (generated lp (r_context r')) as [s0|] eqn:E0; [|discriminate]. destruct (set_objective lp (r_context r') None true s0) as [s1|] eqn:E1; [|discriminate].
  destruct (set_distribution sc r' (Some arr) lpi shared s1) as [s'|] eqn:ES; [|discriminate]. destruct (prepare_lp _ _ _ _ _) as [a'|] eqn:EA; [|discriminate]. destruct (prepare a') as [t'|] eqn:ET; [|discriminate].
  destruct (dual_task a' t') as [d'|] eqn:ED; [|discriminate]. intros Q. assert (r' = r) by congruence. assert (s' = s) by congruence. assert (a' = a) by congruence. assert (t' = t) by congruence. assert (d' = d) by congruence. subst r' s' a' t' d'. split; [|exact ED].
  constructor; [exact ER| |exact EA|exact ET]. exists s0, s1. auto.
Qed.
(** the Clauser-Horne inequality, as dual variables: minus its values at the 16 deterministic
    assignments, and its coefficients at 1, A0, A1, B0, B1, A0B0, A0B1, A1B0, A1B1 *)
Definition ch_multipliers (j : nat) : Qc :=
  nth j (map (fun z => Q2Qc (inject_Z z)) [0; -1; 0; -1; -1; -1; 0; 0; 0; 0; -1; -1; -1; 0; -1; 0; 0; 1; 0; 1; 0; -1; -1; -1; 1]%Z) 0%Qc.
Definition bell_check : bool :=
  match full_run bell_sc pr_box false false true with
  | Some (r, s, a, t, d) => PropSolve.task_feasible_b d ch_multipliers &&
      Qc_eq_bool (certificate_value r (certificate a t (map ch_multipliers (seq 0 (t_numvar d)))) (known s)) (- half)
  | None => false end.
Lemma bell_checked : bell_check = true. Proof. vm_compute. reflexivity. Qed.
Example C43_pr_box_is_excluded : ~ compatible_distribution bell_sc pr_box.
Proof.
  pose proof bell_checked as H. unfold bell_check in H. destruct (full_run bell_sc pr_box false false true) as [((((r & s) & a) & t) & d)|] eqn:E; [|discriminate]. apply andb_prop in H as [F V]. apply Qc_eq_bool_correct in V.
  destruct (full_run_is _ _ _ _ _ _ _ _ _ _ E) as [RUN ED].
  apply (C43_negative_certificate_means_incompatible _ _ _ _ _ _ _ _ _ _ _ _ _ _ _ _ _ _ _ _ _ _ _ bell_ready (or_introl eq_refl) RUN RUN (from_dual a t d ch_multipliers ED (PropSolve.task_feasible_b_ok _ _ F))).
  rewrite V. reflexivity.
Qed.

(** ** What the code does not guarantee *)
(** With linearised constraints (use_lpi_constraints), a known factor of at most 1e-8 is written as
    the value of the whole moment, whatever the unknown factor is; a compatible distribution with such
    a probability can then be declared incompatible.  Here P(A=0) = 1e-9, and the moment
    P(A=0) P(B0=0, B1=0) gets the value 1e-9, more than P(A=0) P(B0=0) = 5e-10. *)
Definition tiny_sc : scenario :=
  {| outcomes := [2; 2]; private_settings := [1; 2]; parents := [[]; []];
     sources := [{| s_classical := true; s_children := [0]; s_latents := [] |}; {| s_classical := true; s_children := [1]; s_latents := [] |}]; levels := [1; 1] |}.
Lemma tiny_ready : ready tiny_sc.
Proof.
  constructor.
  - constructor; try reflexivity.
    + intros ps q [<-|[<-|[]]] [].
    + intros m [<-|[<-|[]]]; lia.
    + intros p Hp. destruct p as [|[|p]]; [| |cbn in Hp; lia].
      * exists {| s_classical := true; s_children := [0]; s_latents := [] |}. split; [left; reflexivity|]. left. left. reflexivity.
      * exists {| s_classical := true; s_children := [1]; s_latents := [] |}. split; [right; left; reflexivity|]. left. left. reflexivity.
  - exists (fun _ => 0). intros p q Hp Hq. destruct p as [|[|p]]; cbn in *; try contradiction; lia.
  - intros o [<-|[<-|[]]]; lia.
  - intros o [<-|[<-|[]]]; lia.
  - cbn. lia.
  - unfold few_copies. vm_compute. repeat constructor.
Qed.
Definition tiny : Qc := Q2Qc (1 # 1000000000).
Definition tiny_arr : ndarray := {| nd_shape := [2; 2; 1; 2];
  nd_at := fun i => match i with a :: _ => ((if a =? 0 then tiny else 1 - tiny) * half)%Qc | _ => 0%Qc end |}.
Definition tiny_model : causal_model :=
  {| source_distribution := fun k => if k =? 0 then [(tiny, 0); ((1 - tiny)%Qc, 1)] else [(half, 0); (half, 1)]; noise_distribution := fun _ => [(1%Qc, 0)];
     response := fun p u _ _ _ => Nat.min (u p) 1 |}.
Lemma tiny_compatible : compatible_distribution tiny_sc tiny_arr.
Proof.
  split; [reflexivity|]. exists tiny_model. split.
  - constructor.
    + intros k _. cbn [source_distribution tiny_model]. destruct (k =? 0); (split; [intros wv [<-|[<-|[]]]; cbn; discriminate|apply Qc_eq_bool_correct; vm_compute; reflexivity]).
    + intros k _. split; [intros wv [<-|[]]; cbn; discriminate|apply Qc_eq_bool_correct; vm_compute; reflexivity].
    + intros p u e x os Hp. destruct p as [|[|p]]; cbn in *; lia.
    + intros p u u' e x os Hp H. cbn [response tiny_model]. destruct p as [|[|p]]; [rewrite (H 0 _ eq_refl)|rewrite (H 1 _ eq_refl)|cbn in Hp; lia]; try reflexivity; left; left; reflexivity.
  - intros a x Ha Hx. inversion Ha as [|a0 ? a' ? A0 Ha']; subst. inversion Ha' as [|a1 ? a'' ? A1 Ha'']; subst. inversion Ha''; subst.
    inversion Hx as [|x0 ? x' ? X0 Hx']; subst. inversion Hx' as [|x1 ? x'' ? X1 Hx'']; subst. inversion Hx''; subst.
    destruct (lt2 _ A0) as [-> | ->], (lt2 _ A1) as [-> | ->]; apply Qc_eq_bool_correct; vm_compute; reflexivity.
Qed.
Definition tiny_multipliers (j : nat) : Qc := nth j (map (fun z => Q2Qc (inject_Z z)) [0; 0; 0; 0; -1; 0; 0; 0; 0; 0; 0; 0; 1; 0; -1]%Z) 0%Qc.
Definition tiny_check : bool :=
  match full_run tiny_sc tiny_arr true false true with
  | Some (r, s, a, t, d) => PropSolve.task_feasible_b d tiny_multipliers && Qc_eq_bool (task_value d tiny_multipliers) (- (tiny * half))%Qc
  | None => false end.
Lemma tiny_checked : tiny_check = true. Proof. vm_compute. reflexivity. Qed.
Theorem C43_tiny_products_refuted : ready tiny_sc /\ compatible_distribution tiny_sc tiny_arr /\
  exists r s a t, lp_run tiny_sc false None true (Some tiny_arr) true false true false false r s a t /\ forall x, ~ task_feasible (primal_task a t) x.
Proof.
  split; [exact tiny_ready|]. split; [exact tiny_compatible|]. pose proof tiny_checked as H. unfold tiny_check in H. destruct (full_run tiny_sc tiny_arr true false true) as [((((r & s) & a) & t) & d)|] eqn:E; [|discriminate].
  apply andb_prop in H as [F V]. apply Qc_eq_bool_correct in V. apply PropSolve.task_feasible_b_ok in F. destruct (full_run_is _ _ _ _ _ _ _ _ _ _ E) as [RUN ED]. exists r, s, a, t. split; [exact RUN|]. intros x TF.
  destruct (run_state _ _ _ _ _ _ _ _ _ _ _ _ _ _ tiny_ready RUN) as (OK & R & EL & EU & EX & EX' & EO). destruct RUN as [G _ EP ET].
  assert (AO : args_ok (length (columns (r_programme r))) a).
  { apply (args_are_ok (r_programme r) true s a OK) with (rk := false) (ri := false); [|split; [rewrite EX|rewrite EX']; intros ? []|exact EP]. rewrite EL, EU, (EO eq_refl). split; [apply (wf_known _ (reachable_wf _ _ _ R))|]. repeat split; constructor. }
  assert (LN : lower_bounds_nonneg a) by (intros _ _ e I; rewrite (prepared_is (r_programme r) true s a false false EP) in I; cbn [lower_bounds] in I; rewrite EL in I; destruct I).
  destruct (PropSolve.C26_primal_task_is_the_problem _ a t AO LN ET x) as (PP & _). pose proof (PropSolve.C26_dual_bounds_primal _ a t d AO ET ED x _ tiny_multipliers (proj1 PP TF) F) as LE.
  rewrite V in LE. replace (problem_value a x (x (length (columns (r_programme r))))) with 0%Qc in LE.
  - revert LE. unfold Qcle. intros LE. apply Qle_bool_iff in LE. revert LE. vm_compute. discriminate.
  - rewrite (prepared_is (r_programme r) true s a false false EP). unfold problem_value, relaxed, objective_at. cbn. rewrite (EO eq_refl). reflexivity.
Qed.
(** the hypotheses are met: runs for the shared coin, and for the objective - I with I the
    Clauser-Horne expression, whose moments any distribution determines *)
Definition ch_objective : list (moment * Qc) := [([0], (- (1))%Qc); ([2], (- (1))%Qc); ([5], 1%Qc); ([6], 1%Qc); ([7], 1%Qc); ([8], (- (1))%Qc)].
Definition objective_run (sc : scenario) (items : list (moment * Qc)) : option (relaxation * state * lp_args * setup) :=
  match generate sc false false with None => None | Some r =>
  match generated lp (r_context r) with None => None | Some s0 =>
  match set_objective lp (r_context r) (Some items) true s0 with None => None | Some s1 =>
  match set_distribution sc r None false false s1 with None => None | Some s =>
  match prepare_lp (r_programme r) true false false s with None => None | Some a =>
  match prepare a with None => None | Some t => Some (r, s, a, t) end end end end end end.
Definition objective_check : bool :=
  match objective_run bell_sc ch_objective, full_run bell_sc coin false false true with
  | Some (r, s, a, t), Some (_, s', _, _, _) =>
      forallb (fun m => mmem m (keys (known s'))) (keys (ProgramModel.objective s)) && Qc_eq_bool (objective_value s (known s')) 0
      && (length (ProgramModel.objective s) =? 6)
  | _, _ => false end.
Lemma objective_checked : objective_check = true. Proof. vm_compute. reflexivity. Qed.
Example C43_nonvacuous : ready bell_sc /\ compatible_distribution bell_sc coin /\
  exists r s a t s' a' t', lp_run bell_sc false (Some ch_objective) true None false false true false false r s a t /\
    lp_run bell_sc false None true (Some coin) false false true false false r s' a' t' /\
    length (ProgramModel.objective s) = 6 /\ (forall m, In m (keys (ProgramModel.objective s)) -> In m (keys (known s'))).
Proof.
  split; [exact bell_ready|]. split; [exact C43_shared_coin_is_compatible|]. pose proof objective_checked as H. unfold objective_check in H.
  destruct (objective_run bell_sc ch_objective) as [(((r & s) & a) & t)|] eqn:E; [|discriminate]. destruct (full_run bell_sc coin false false true) as [((((r' & s') & a') & t') & d)|] eqn:E'; [|discriminate].
  apply andb_prop in H as [H LE]. apply andb_prop in H as [K _]. apply Nat.eqb_eq in LE. rewrite forallb_forall in K. destruct (full_run_is _ _ _ _ _ _ _ _ _ _ E') as [RUN' _].
  assert (RUN : lp_run bell_sc false (Some ch_objective) true None false false true false false r s a t).
  { revert E. unfold objective_run. destruct (generate bell_sc false false) as [r2|] eqn:ER; [|discriminate]. destruct (generated lp (r_context r2)) as [s0|] eqn:E0; [|discriminate]. destruct (set_objective lp (r_context r2) (Some ch_objective) true s0) as [s1|] eqn:E1; [|discriminate].
    destruct (set_distribution bell_sc r2 None false false s1) as [s2|] eqn:ES; [|discriminate]. destruct (prepare_lp _ _ _ _ _) as [a2|] eqn:EA; [|discriminate]. destruct (prepare a2) as [t2|] eqn:ET; [|discriminate].
    intros Q. assert (r2 = r) by congruence. assert (s2 = s) by congruence. assert (a2 = a) by congruence. assert (t2 = t) by congruence. subst r2 s2 a2 t2. constructor; [exact ER| |exact EA|exact ET]. exists s0, s1. auto. }
  assert (ER : r' = r) by (destruct RUN as [G _ _ _], RUN' as [G' _ _ _]; congruence). subst r'. exists r, s, a, t, s', a', t'. split; [exact RUN|]. split; [exact RUN'|]. split; [exact LE|]. intros m Hm. apply mmem_true, K, Hm.
Qed.
