(** C39, continued: the bounds of a semidefinite programme in the problem that is passed to the solver. *)
From Verif Require PropDict.
From Coq Require Import List Arith Bool QArith Qcanon Lia.
From Verif Require Import MargModel QcSum QcArith LPSolveModel LPSolveSpec PropSolve SearchModel SearchProofs ProgramModel ProgramSpec ProgramProofs ProgramProofs2 ProgramProofs3 ProgramLPProofs PropProgram.
Import ListNotations.
Open Scope nat_scope.

(** The constraints of the arguments of the solver; [x] gives values to the moments and the value 1 to
    the constant term. *)
Definition satisfies_constraints (a : sdp_args) (x : option moment -> Qc) : Prop :=
  (forall d, In d (a_equalities a) -> expr_at x d = 0%Qc) /\ (forall d, In d (a_inequalities a) -> (0 <= expr_at x d)%Qc).
(** A bound of at most 1e-8 in absolute value is passed as 0. *)
Definition passed (b : Qc) : Qc := if isclose0 b then 0%Qc else b.

Lemma expr_named x d : expr_at x (named d) = expr_at (fun m => x (Some m)) d.
Proof. unfold expr_at, named. rewrite map_map. reflexivity. Qed.
Lemma lower_row x m b : x (@None moment) = 1%Qc -> expr_at x ((Some m, 1%Qc) :: (if isclose0 b then [] else [(@None moment, (- b)%Qc)])) = (x (Some m) - passed b)%Qc.
Proof.
  intros X. unfold expr_at, passed. destruct (isclose0 b); cbn [map fst snd]; rewrite ?sumQ_cons; change (sumQ []) with 0%Qc; [ring|]. rewrite X. ring.
Qed.
Lemma upper_row x m b : x (@None moment) = 1%Qc -> expr_at x ((Some m, (- (1))%Qc) :: (if isclose0 b then [] else [(@None moment, b)])) = (passed b - x (Some m))%Qc.
Proof.
  intros X. unfold expr_at, passed. destruct (isclose0 b); cbn [map fst snd]; rewrite ?sumQ_cons; change (sumQ []) with 0%Qc; [ring|]. rewrite X. ring.
Qed.
Theorem C39_bounds_reach_the_solver c s a x : reachable sdp c s -> prepare_sdp c s = Some a -> x (@None moment) = 1%Qc ->
  (satisfies_constraints a x <->
   (forall d, In d (minimal_equalities c) -> expr_at (fun m => x (Some m)) d = 0%Qc) /\
   (forall d, In d (minimal_inequalities c) -> (0 <= expr_at (fun m => x (Some m)) d)%Qc) /\
   (forall m b, get meq m (lower s) = Some b -> (passed b <= x (Some m))%Qc) /\
   (forall m b, get meq m (upper s) = Some b -> (x (Some m) <= passed b)%Qc)) /\
  a_known a = known s /\ a_semiknown a = semiknown s /\ a_objective a = processed s.
Proof.
  intros R E X. destruct (reachable_bounds_nodup sdp c s R) as [NL NU]. unfold prepare_sdp in E. destruct (forallb _ _); [|discriminate]. injection E as <-. cbn [a_known a_semiknown a_objective].
  split; [|auto]. unfold satisfies_constraints. cbn [a_equalities a_inequalities].
  assert (S1 : forall u v : Qc, (0 <= u - v)%Qc <-> (v <= u)%Qc) by (intros; split; intros; qclra).
  split.
  - intros [EQ IN]. split; [|split; [|split]].
    + intros d Hd. rewrite <- expr_named. apply EQ, in_map, Hd.
    + intros d Hd. rewrite <- expr_named. apply IN, in_or_app. left. apply in_map, Hd.
    + intros m b Hb. apply (get_some_in meq) in Hb. apply S1. rewrite <- lower_row by exact X. apply IN, in_or_app. right. apply in_or_app. left. apply in_map_iff. exists (m, b). auto.
    + intros m b Hb. apply (get_some_in meq) in Hb. apply S1. rewrite <- upper_row by exact X. apply IN, in_or_app. right. apply in_or_app. right. apply in_map_iff. exists (m, b). auto.
  - intros (EQ & IN & LO & UP). split.
    + intros d Hd. apply in_map_iff in Hd as (d' & <- & Hd). rewrite expr_named. apply EQ, Hd.
    + intros d Hd. apply in_app_or in Hd as [Hd|Hd]; [|apply in_app_or in Hd as [Hd|Hd]].
      * apply in_map_iff in Hd as (d' & <- & Hd). rewrite expr_named. apply IN, Hd.
      * apply in_map_iff in Hd as ((m & b) & <- & Hd). cbn [fst snd]. rewrite lower_row by exact X. apply S1, LO. apply (in_get meq); [exact NL|exact Hd].
      * apply in_map_iff in Hd as ((m & b) & <- & Hd). cbn [fst snd]. rewrite upper_row by exact X. apply S1, UP. apply (in_get meq); [exact NU|exact Hd].
Qed.
Print Assumptions C39_bounds_reach_the_solver.

(** After set_bounds, every feasible point that takes the known values has the requested bounds, up to
    1e-8, and exactly for unknown moments with bounds that are not tiny. *)
Lemma passed_up b : (passed b <= b + atol)%Qc /\ (b <= passed b + atol)%Qc /\ (isclose0 b = false -> passed b = b).
Proof.
  unfold passed. destruct (isclose0 b) eqn:C0.
  - pose proof (PropDict.close_small b C0) as A. unfold qabs in A. destruct (qltb b 0%Qc) eqn:B; [apply qltb_true in B|apply qltb_false in B]; repeat split; try discriminate; qclra.
  - assert (0 <= atol)%Qc by (apply Qcle_alt; vm_compute; discriminate). repeat split; qclra.
Qed.
Theorem C39_requested_bounds_hold c s s' a bounds bt x : reachable sdp c s -> set_bounds sdp c bounds bt s = Some s' -> prepare_sdp c s' = Some a ->
  x (@None moment) = 1%Qc -> satisfies_constraints a x -> (forall m v, get meq m (a_known a) = Some v -> x (Some m) = v) ->
  forall m b, requested bounds m = Some b ->
  match bt with
  | bt_up => (x (Some m) <= b + atol)%Qc /\ (isclose0 b = false -> (x (Some m) <= b)%Qc)
  | bt_lo => (b <= x (Some m) + atol)%Qc /\ (isclose0 b = false -> (b <= x (Some m))%Qc)
  end.
Proof.
  intros R E P X SAT K m b Hb. assert (A0 : (0 <= atol)%Qc) by (apply Qcle_alt; vm_compute; discriminate).
  assert (R' : reachable sdp c s').
  { destruct R as (ops & Hops). exists (ops ++ [SetBounds bounds bt]). unfold run in *. rewrite fold_left_app. cbn [fold_left]. rewrite Hops. exact E. }
  destruct (C39_bounds_reach_the_solver c s' a x R' P X) as (IFF & KN & _). apply (proj1 IFF) in SAT as (_ & _ & LO & UP). rewrite KN in K. destruct (passed_up b) as (P1 & P2 & P3).
  destruct bt.
  - destruct (C39_set_upper c s bounds R) as (EX & ST). destruct (ST s' E) as (K' & _ & U). destruct (proj1 EX (ex_intro _ s' E)) as (_ & KB).
    destruct (get meq m (known s)) as [v|] eqn:G.
    + rewrite (K m v) by (rewrite K'; exact G). specialize (KB m v b G Hb). split; [|auto]. qclra.
    + assert (UB : get meq m (upper s') = Some b) by (rewrite U, mmem_keys, G; exact Hb). specialize (UP m b UB). split; [|intros Z; rewrite <- (P3 Z); exact UP]. qclra.
  - destruct (C39_set_lower c s bounds R) as (EX & ST). destruct (ST s' E) as (K' & _ & U). destruct (proj1 EX (ex_intro _ s' E)) as (_ & KB & _).
    destruct (get meq m (known s)) as [v|] eqn:G.
    + rewrite (K m v) by (rewrite K'; exact G). specialize (KB m v b G Hb). split; [|auto]. qclra.
    + assert (UB : get meq m (lower s') = Some b) by (rewrite U, mmem_keys, G; unfold lower_request; rewrite Hb; reflexivity). specialize (LO m b UB). split; [|intros Z; rewrite <- (P3 Z); exact LO]. qclra.
Qed.
Print Assumptions C39_requested_bounds_hold.
(** a state with a lower bound -1 and an upper bound 1 *)
Definition bound_ops : list op := [SetValues ex_values true false; SetBounds [([2], (- q 1 1)%Qc)] bt_lo; SetBounds [([2], q 1 1)] bt_up].
Example C39_bounds_passed : option_map (fun a => map (map (fun p => (fst p, this (snd p)))) (a_inequalities a)) 
    (match run sdp ex_ctx bound_ops (generated sdp ex_ctx) with Some s => prepare_sdp ex_ctx s | None => None end) =
  Some [[(Some [2], Qmake 1 1); (None, Qmake 1 1)]; [(Some [2], Qmake (-1) 1); (None, Qmake 1 1)]].
Proof. vm_compute. reflexivity. Qed.
