(** C57: the value that solve reports is the optimum of the user's objective, in the user's direction. *)
From Coq Require Import List Arith Bool QArith Qcanon Lia.
From Verif Require Import QcArith SearchModel SearchProofs ProgramModel ProgramSpec ProgramProofs ProgramProofs2 ProgramProofs3 ResetModel PropReset PropOrder.
From Verif Require PropProgram MargModel QcSum.
Import ListNotations.
Close Scope Q_scope. Open Scope nat_scope. Open Scope list_scope.

(** ** Model: solve after the solver has answered (inflation/sdp/InflationSDP.py 821-830,
    inflation/lp/InflationLP.py 616-624).  The solver is a parameter; a status other than
    "feasible" is reported as it is, which is None here. *)
Record answer := { feasible : bool; primal_value : Qc }.
Definition reported (mx : bool) (r : answer) : option Qc :=
  if feasible r then Some (primal_value r * (if mx then 1 else - (1)))%Qc else None.
(** self.maximize after the calls of a history (True at first; SDP 611-615, LP 353-357) *)
Definition direction (ops : list op) : bool := fold_left (fun mx o => direction_after o mx) ops true.
(** the objective that the solver maximises: InflationSDP passes _processed_objective, InflationLP the objective *)
Definition solver_objective (t : kind) (s : state) : mdict Qc := match t with sdp => processed s | lp => ProgramModel.objective s end.

(** ** Specification *)
(** v is the least upper bound, or the greatest lower bound, of f on the points of F *)
Definition supremum {X} (F : X -> Prop) (f : X -> Qc) (v : Qc) : Prop := forall u, (forall x, F x -> (f x <= u)%Qc) <-> (v <= u)%Qc.
Definition infimum {X} (F : X -> Prop) (f : X -> Qc) (v : Qc) : Prop := forall u, (forall x, F x -> (u <= f x)%Qc) <-> (u <= v)%Qc.

Lemma direction_snoc h o : direction (h ++ [o]) = direction_after o (direction h).
Proof. unfold direction. rewrite fold_left_app. reflexivity. Qed.
Lemma direction_asked h : direction h = match latest asks_objective h with Some (_, mx) => mx | None => true end.
Proof.
  induction h as [|o h IH] using rev_ind; [reflexivity|]. rewrite direction_snoc, latest_snoc. destruct o; cbn [asks_objective direction_after]; try exact IH. reflexivity.
Qed.
Lemma run_snoc t c h o s : run t c (h ++ [o]) s = match run t c h s with Some s' => step t c o s' | None => None end.
Proof. unfold run. rewrite fold_left_app. reflexivity. Qed.
Lemma set_objective_is t c i mx s s' : set_objective t c i mx s = Some s' ->
  ProgramModel.objective s' = match i with Some items => with_constant t (map (fun p => (fst p, if mx then snd p else (- snd p)%Qc)) (sanitise_dict (fun m => m) items)) | None => zero_objective t end.
Proof.
  unfold set_objective. destruct i as [items|].
  - destruct (supports_problem c); [discriminate|]. destruct (forallb _ _); [|discriminate]. destruct t.
    + destruct (update_objective _ _ _); [|discriminate]. intros E. injection E as <-. reflexivity.
    + intros E. injection E as <-. reflexivity.
  - intros E. injection E as <-. destruct t; reflexivity.
Qed.
(** whatever is called, the objective is the one set last *)
Lemma step_objective t c o h s s' : ProgramModel.objective s = objective_asked t h -> step t c o s = Some s' -> ProgramModel.objective s' = objective_asked t (h ++ [o]).
Proof.
  intros H. unfold objective_asked. rewrite latest_snoc. destruct o as [values lpi only|values lpi only|b bt|i mx|l|l]; cbn [step asks_objective]; intros E.
  - rewrite set_values_is in E. apply cleanup_values in E as (_ & _ & O & _). rewrite O. exact H.
  - unfold update_values in E. destruct values as [|p values]; [injection E as <-; exact H|]. destruct (assign_values _ _ _ _ _ _) as (d, sk). apply cleanup_values in E as (_ & _ & O & _). rewrite O. exact H.
  - unfold set_bounds in E. destruct (sanitised_bounds b) as [d|]; [|discriminate E]. destruct t, bt.
    + destruct (update_bounds up_ok _ _); [|discriminate E]. injection E as <-. exact H.
    + destruct (update_bounds lo_ok _ (default_lower c)); [|discriminate E]. destruct (update_bounds lo_ok _ _); [|discriminate E]. injection E as <-. exact H.
    + injection E as <-. exact H.
    + injection E as <-. exact H.
  - apply set_objective_is in E. rewrite E. reflexivity.
  - injection E as <-. exact H.
  - injection E as <-. exact H.
Qed.
Lemma run_objective t c g h : ProgramModel.objective g = objective_asked t [] -> forall s, run t c h (Some g) = Some s -> ProgramModel.objective s = objective_asked t h.
Proof.
  intros G. induction h as [|o h IH] using rev_ind; intros s E; [cbn in E; injection E as <-; exact G|]. rewrite run_snoc in E. destruct (run t c h (Some g)) as [s1|]; [|discriminate E].
  exact (step_objective t c o h s1 s (IH s1 eq_refl) E).
Qed.
Lemma generated_objective t c g : generated t c = Some g -> ProgramModel.objective g = objective_asked t [].
Proof.
  unfold generated. rewrite (run_snoc t c [SetObjective None true] (SetValues [] false false)). unfold run. cbn [fold_left step set_objective]. rewrite set_values_is. intros E. apply cleanup_values in E as (_ & _ & O & _). rewrite O. destruct t; reflexivity.
Qed.
Lemma expr_cons x (m : moment) (v : Qc) d : expr_at x ((m, v) :: d) = (v * x m + expr_at x d)%Qc.
Proof. unfold expr_at. cbn [map fst snd]. apply QcSum.sumQ_cons. Qed.
Lemma signed_value x (mx : bool) (d : mdict Qc) : expr_at x (map (fun p => (fst p, if mx then snd p else (- snd p)%Qc)) d) = (expr_at x d * (if mx then 1 else - (1)))%Qc.
Proof.
  induction d as [|(m, v) d IH]; [unfold expr_at; cbn [map]; rewrite QcSum.sumQ_nil; ring|]. cbn [map fst snd]. rewrite !expr_cons, IH. destruct mx; ring.
Qed.
Lemma with_constant_value t x o : expr_at x (with_constant t o) = expr_at x o.
Proof.
  unfold with_constant. destruct t; [|reflexivity]. destruct (get meq One o); [reflexivity|]. induction o as [|(m, v) o IH]; cbn [app]; rewrite !expr_cons; [unfold expr_at; cbn [map]; rewrite QcSum.sumQ_nil; ring|rewrite IH; reflexivity].
Qed.
(** no coefficient is so small that it is dropped *)
Definition no_small_coefficients (items : list (moment * Qc)) : Prop := forall p, In p items -> isclose0 (snd p) = true -> snd p = 0%Qc.
Lemma kept_value x items : no_small_coefficients items -> expr_at x (filter (fun p => negb (isclose0 (snd p))) items) = expr_at x items.
Proof.
  induction items as [|(m, v) items IH]; intros H; [reflexivity|]. cbn [filter snd]. rewrite expr_cons. assert (H' : no_small_coefficients items) by (intros p I; apply H; right; exact I).
  destruct (isclose0 v) eqn:C; cbn [negb].
  - rewrite IH by exact H'. assert (Z : v = 0%Qc) by (exact (H (m, v) (or_introl eq_refl) C)). subst v. ring.
  - rewrite expr_cons, IH by exact H'. reflexivity.
Qed.
Lemma asked_value t x h items mx : latest asks_objective h = Some (Some items, mx) -> no_small_coefficients items -> expr_at x (objective_asked t h) = (expr_at x items * (if mx then 1 else - (1)))%Qc.
Proof.
  intros L N. unfold objective_asked. rewrite L, with_constant_value, signed_value. f_equal. rewrite (sanitise_value (fun m => m)). apply kept_value, N.
Qed.
Lemma Qcopp_le a b : (a <= b)%Qc <-> (- b <= - a)%Qc.
Proof.
  split; intros H; [apply Qcopp_le_compat, H|]. apply Qcopp_le_compat in H. rewrite !Qcopp_involutive in H. exact H.
Qed.

(** ** The theorem *)
(** the user's objective is the last that was set, of the items and direction given there *)
Theorem C57_reported_value t c h s items mx (F : (moment -> Qc) -> Prop) v : run t c h (generated t c) = Some s ->
  latest asks_objective h = Some (Some items, mx) -> no_small_coefficients items ->
  (forall x, F x -> x One = 1%Qc /\ forall m w, get meq m (known s) = Some w -> x m = w) ->
  supremum F (fun x => expr_at x (solver_objective t s)) v ->
  exists w, reported (direction h) {| feasible := true; primal_value := v |} = Some w /\
    (if mx then supremum F (fun x => expr_at x items) w else infimum F (fun x => expr_at x items) w).
Proof.
  intros R L N FX SUP. assert (D : direction h = mx) by (rewrite direction_asked, L; reflexivity).
  assert (V : forall x, F x -> expr_at x (solver_objective t s) = (expr_at x items * (if mx then 1 else - (1)))%Qc).
  { intros x Fx. destruct (FX x Fx) as (X1 & XK). assert (O : ProgramModel.objective s = objective_asked t h).
    { destruct (generated t c) as [g|] eqn:G; [|rewrite PropOrder.run_none in R; discriminate R]. exact (run_objective t c g h (generated_objective t c g G) s R). }
    rewrite <- (asked_value t x h items mx L N), <- O. destruct t; [|reflexivity]. cbn [solver_objective]. apply (PropProgram.C40_same_value sdp c s x); [exists h; exact R|exact X1|exact XK]. }
  eexists. split; [reflexivity|]. rewrite D. destruct mx; intros u; cbn [primal_value].
  - replace (v * 1)%Qc with v by ring. apply (iff_trans (B := forall x, F x -> (expr_at x (solver_objective t s) <= u)%Qc)); [|apply SUP].
    split; intros H x Fx; specialize (H x Fx); [rewrite (V x Fx)|rewrite (V x Fx) in H]; replace (expr_at x items * 1)%Qc with (expr_at x items) in * by ring; exact H.
  - replace (v * - (1))%Qc with (- v)%Qc by ring. assert (Q : (u <= - v)%Qc <-> (v <= - u)%Qc) by (rewrite (Qcopp_le u (- v)%Qc), Qcopp_involutive; reflexivity).
    apply (iff_trans (B := forall x, F x -> (expr_at x (solver_objective t s) <= - u)%Qc)); [|exact (iff_trans (SUP (- u)%Qc) (iff_sym Q))].
    split; intros H x Fx; specialize (H x Fx); [rewrite (V x Fx)|rewrite (V x Fx) in H]; replace (expr_at x items * - (1))%Qc with (- expr_at x items)%Qc in * by ring; [exact (proj1 (Qcopp_le _ _) H)|exact (proj2 (Qcopp_le _ _) H)].
Qed.
Print Assumptions C57_reported_value.
(** What InflationSDP passes to the solver is that objective. *)
Theorem C57_sdp_passes_it c s a : prepare_sdp c s = Some a -> a_objective a = solver_objective sdp s.
Proof. unfold prepare_sdp. destruct (forallb _ _); [|discriminate]. intros E. injection E as <-. reflexivity. Qed.
(** Nothing is reported as a value unless the solver says that the problem is feasible. *)
Theorem C57_only_if_feasible mx r w : reported mx r = Some w -> feasible r = true.
Proof. unfold reported. destruct (feasible r); [reflexivity|discriminate]. Qed.

(** ** A case: minimise a + b with a = 1/2 known and b >= 1/2: reported is 1 *)
Definition sum_items : list (moment * Qc) := [([0], 1%Qc); ([1], 1%Qc)].
Definition value_ops : list op := [SetObjective (Some sum_items) false; the_value; the_bound].
Definition b_at_least_half (x : moment -> Qc) : Prop := x One = 1%Qc /\ x [0] = half /\ (half <= x [1%nat])%Qc.
Lemma case_state : exists s, run sdp order_ctx value_ops (generated sdp order_ctx) = Some s /\
  (forall x, expr_at x (processed s) = - half * x One + - (1) * x [1%nat])%Qc /\ forall m w, get meq m (known s) = Some w -> (m = One /\ w = 1%Qc) \/ (m = [0] /\ w = half).
Proof.
  destruct (run sdp order_ctx value_ops (generated sdp order_ctx)) as [s|] eqn:E; [|exfalso; apply (f_equal (fun o => match o with Some _ => true | None => false end)) in E; vm_compute in E; discriminate E].
  exists s. split; [reflexivity|].
  assert (C : match run sdp order_ctx value_ops (generated sdp order_ctx) with Some s =>
    match processed s, known s with
    | [(m1, v1); (m2, v2)], [(k1, w1); (k2, w2)] => map (fun m => m) [m1; m2; k1; k2] = [[1]; []; []; [0]] /\ forallb (fun p => Qc_eq_bool (fst p) (snd p)) [(v1, (- (1))%Qc); (v2, (- half)%Qc); (w1, 1%Qc); (w2, half)] = true
    | _, _ => False end | None => False end) by (vm_compute; split; reflexivity).
  rewrite E in C. destruct (processed s) as [|(m1, v1) [|(m2, v2) [|? ?]]]; try contradiction. destruct (known s) as [|(k1, w1) [|(k2, w2) [|? ?]]]; try contradiction.
  destruct C as (C1 & C2). cbn [map] in C1. injection C1 as -> -> -> ->. cbn [forallb fst snd] in C2. apply andb_prop in C2 as (A1 & C2). apply andb_prop in C2 as (A2 & C2). apply andb_prop in C2 as (A3 & C2). apply andb_prop in C2 as (A4 & _).
  apply Qc_eq_bool_correct in A1. apply Qc_eq_bool_correct in A2. apply Qc_eq_bool_correct in A3. apply Qc_eq_bool_correct in A4. subst v1 v2 w1 w2. split.
  - intros x. rewrite !expr_cons. unfold expr_at. cbn [map]. rewrite QcSum.sumQ_nil. unfold One. ring.
  - intros m w. cbn [get]. destruct (meq m []) as [->|]; [intros H; left; split; [reflexivity|congruence]|]. destruct (meq m [0]) as [->|]; [intros H; right; split; [reflexivity|congruence]|discriminate].
Qed.
Example C57_case : exists s v, run sdp order_ctx value_ops (generated sdp order_ctx) = Some s /\ no_small_coefficients sum_items /\
  (forall x, b_at_least_half x -> x One = 1%Qc /\ forall m w, get meq m (known s) = Some w -> x m = w) /\
  supremum b_at_least_half (fun x => expr_at x (solver_objective sdp s)) v /\ reported (direction value_ops) {| feasible := true; primal_value := v |} = Some 1%Qc.
Proof.
  destruct case_state as (s & R & P & K). exists s, (- (1))%Qc. split; [exact R|]. split; [|split; [|split]].
  - intros p [<-|[<-|[]]] C; vm_compute in C; discriminate C.
  - intros x (X1 & X0 & XB). split; [exact X1|]. intros m w G. apply K in G as [(-> & ->)|(-> & ->)]; assumption.
  - intros u. cbn [solver_objective]. split.
    + intros H. specialize (H (fun m => if meq m One then 1%Qc else half)). rewrite P in H. cbv beta in H. destruct (meq One One) as [_|]; [|contradiction]. destruct (meq [1] One) as [Q|_]; [discriminate Q|].
      replace (- half * 1 + - (1) * half)%Qc with (- (1))%Qc in H by (apply Qc_eq_bool_correct; vm_compute; reflexivity). apply H. split; [|split].
      * destruct (meq One One); [reflexivity|contradiction].
      * destruct (meq [0] One) as [Q|_]; [discriminate Q|reflexivity].
      * destruct (meq [1] One) as [Q|_]; [discriminate Q|apply Qcle_refl].
    + intros H x (X1 & X0 & XB). rewrite P, X1. apply (Qcle_trans _ (- (1))%Qc); [|exact H].
      replace (- (1))%Qc with (- half * 1 + - half)%Qc at 2 by (apply Qc_eq_bool_correct; vm_compute; reflexivity).
      apply Qcplus_le_compat; [apply Qcle_refl|]. replace (- (1) * x [1%nat])%Qc with (- x [1%nat])%Qc by ring. apply Qcopp_le_compat, XB.
  - vm_compute. reflexivity.
Qed.
(** Coefficients up to 1e-8 are dropped: the value of the objective 1e-9 a is reported as 0. *)
Definition tiny : Qc := Q2Qc (1 # 1000000000).
Definition tiny_ops : list op := [SetObjective (Some [([1], tiny)]) true].
Theorem C57_small_coefficients_refuted t : exists s, run t order_ctx tiny_ops (generated t order_ctx) = Some s /\
  (forall x, expr_at x (solver_objective t s) = 0%Qc) /\ tiny <> 0%Qc.
Proof.
  destruct (run t order_ctx tiny_ops (generated t order_ctx)) as [s|] eqn:E; [|exfalso; apply (f_equal (fun o => match o with Some _ => true | None => false end)) in E; destruct t; vm_compute in E; discriminate E].
  exists s. split; [reflexivity|]. split; [|intros C; apply (f_equal this) in C; vm_compute in C; discriminate C].
  assert (C : match run t order_ctx tiny_ops (generated t order_ctx) with Some s => forallb (fun p => Qc_eq_bool (snd p) 0%Qc) (solver_objective t s) = true | None => False end) by (destruct t; vm_compute; reflexivity).
  rewrite E in C. intros x. induction (solver_objective t s) as [|(m, v) d IH]; [unfold expr_at; cbn [map]; apply QcSum.sumQ_nil|]. cbn [forallb snd] in C. apply andb_prop in C as (C1 & C2). apply Qc_eq_bool_correct in C1. subst v. rewrite expr_cons, (IH C2). ring.
Qed.
