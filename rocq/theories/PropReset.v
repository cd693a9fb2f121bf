(** C53 (reset) and C54 (a stored solution belongs to the current problem). *)
From Coq Require Import List Arith Bool Ascii String QArith Qcanon Lia.
From Verif Require Import SearchModel SearchProofs ProgramModel ProgramSpec ProgramProofs ProgramProofs2 ProgramProofs3 ProgramLP ResetModel.
From Verif Require LPSolveModel PropProgram PropArgs.
Import ListNotations.
Close Scope Q_scope. Open Scope string_scope. Open Scope nat_scope. Open Scope list_scope.

(** ** C53: reset *)
Lemma no_bounds_left ok d : update_bounds ok d [] = Some [].
Proof.
  change (fold_left (ub_step ok) d (Some []) = Some []). induction d as [|p l IH]; [reflexivity|exact IH].
Qed.
Lemma lower_initial c : exists lo, update_bounds lo_ok (initial_values sdp c) (default_lower c) = Some lo.
Proof.
  apply update_bounds_iff; [apply nodup_initial|]. intros m v x G D. rewrite get_initial in G. rewrite default_get in D. unfold lo_ok. apply qleb_true.
  assert (x = 0%Qc) by (destruct (mmem m _); congruence). subst x. destruct (meq m One); [assert (v = 1%Qc) by congruence; subst v; vm_compute; discriminate|].
  destruct (zero_moment c) as [z|]; [|discriminate G]. destruct (meq m z); [|discriminate G]. assert (v = 0%Qc) by congruence. subst v. apply Qcle_refl.
Qed.
Definition zero_objective (t : kind) : mdict Qc := match t with sdp => [(One, 0%Qc)] | lp => [] end.
Lemma initial_objective c : update_objective [(One, 0%Qc)] (initial_values sdp c) [] = Some [(One, 0%Qc)].
Proof.
  unfold update_objective. set (todo := filter _ _).
  assert (T : todo = []).
  { destruct todo as [|m l] eqn:E; [reflexivity|]. exfalso. assert (I : In m todo) by (rewrite E; left; reflexivity). apply filter_In in I as [_ I]. cbn [get] in I. destruct (meq m One); discriminate I. }
  rewrite T. reflexivity.
Qed.
Lemma no_pops ks : pop_all ks ([] : mdict (Qc * moment)) = [].
Proof. unfold pop_all. induction ks as [|k ks IH]; [reflexivity|exact IH]. Qed.
Lemma generated_is t c : supports_problem c = false -> exists lo, (match t with sdp => update_bounds lo_ok (initial_values sdp c) (default_lower c) = Some lo | lp => lo = [] end) /\
  generated t c = Some {| known := initial_values t c; semiknown := []; lower := lo; upper := []; objective := zero_objective t; processed := zero_objective t; extra_equalities := []; extra_inequalities := [] |}.
Proof.
  intros SP. destruct t.
  - destruct (lower_initial c) as (lo & E). exists lo. split; [exact E|].
    unfold generated, run. cbn [fold_left step]. unfold set_objective, set_values. cbn [cleanup]. unfold cleanup_sdp, supports_step. rewrite SP.
    cbn [reset_values with_objective with_values with_extra known semiknown lower upper objective processed extra_equalities extra_inequalities].
    rewrite E, no_bounds_left, initial_objective. rewrite no_pops. reflexivity.
  - exists []. split; [reflexivity|]. unfold generated, run. cbn [fold_left step]. unfold set_objective, set_values. cbn [cleanup]. unfold cleanup_lp, supports_step. rewrite SP. reflexivity.
Qed.
(** Whatever has been done with a programme (whose problem is not about supports), reset("all") makes
    it the newly generated programme. *)
Theorem C53_all_is_new t c e : supports_problem c = false -> exists g, generated t c = Some g /\ reset t c (Name "all") e = Some (new_session g).
Proof.
  intros SP. destruct (generated_is t c SP) as (lo & L & G). eexists. split; [exact G|].
  destruct t; cbn -[update_bounds default_lower initial_values].
  - unfold reset_lower. cbn -[update_bounds default_lower initial_values]. rewrite L. reflexivity.
  - subst lo. reflexivity.
Qed.
Print Assumptions C53_all_is_new.
(** hence whatever follows does not depend on what was before *)
Theorem C53_nothing_remains t c h1 h2 later e : supports_problem c = false ->
  perform_all t c h1 (option_map new_session (generated t c)) = Some e ->
  perform_all t c (h1 ++ Reset (Name "all") :: h2) (option_map new_session (generated t c)) = later ->
  later = perform_all t c h2 (option_map new_session (generated t c)).
Proof.
  intros SP E1 E. destruct (C53_all_is_new t c e SP) as (g & G & R). rewrite <- E. unfold perform_all in *. rewrite fold_left_app, E1. cbn [fold_left perform]. rewrite R, G. reflexivity.
Qed.

(** What one part does, and that the other parts stay. *)
Theorem C53_values t c e e' : reset t c (Name "values") e = Some e' ->
  (forall m, get meq m (known (now e')) = if meq m One then Some 1%Qc else match t, zero_moment c with sdp, Some z => if meq m z then Some 0%Qc else None | _, _ => None end) /\
  semiknown (now e') = [] /\ extra_equalities (now e') = [] /\ extra_inequalities (now e') = [] /\
  lower (now e') = lower (now e) /\ upper (now e') = upper (now e) /\ objective (now e') = objective (now e) /\ maximize e' = maximize e.
Proof.
  intros E. cbn in E. injection E as <-. cbn -[initial_values]. split; [intros m; apply get_initial|]. repeat split.
Qed.
Theorem C53_objective t c e e' : reset t c (Name "objective") e = Some e' ->
  (forall x, expr_at x (objective (now e')) = 0%Qc /\ expr_at x (processed (now e')) = 0%Qc) /\ maximize e' = true /\
  known (now e') = known (now e) /\ semiknown (now e') = semiknown (now e) /\ lower (now e') = lower (now e) /\ upper (now e') = upper (now e) /\
  extra_equalities (now e') = extra_equalities (now e) /\ extra_inequalities (now e') = extra_inequalities (now e).
Proof.
  intros E. cbn in E. injection E as <-. unfold unsolved, reset_objective. cbn [now maximize with_objective objective processed known semiknown lower upper extra_equalities extra_inequalities]. split; [|repeat split]. intros x. destruct t; [|split; reflexivity]. rewrite expr_cons, expr_nil. split; ring.
Qed.
Theorem C53_bounds t c e e' (lowers uppers : bool) : reset t c (Name (if lowers then if uppers then "bounds" else "lowerbounds" else "upperbounds")) e = Some e' -> lowers || uppers = true ->
  (forall m, get meq m (lower (now e')) = if lowers then (match t with lp => None | sdp => if mmem m (keys (known (now e))) then None else if mmem m (hermitian_moments c) then Some 0%Qc else None end) else get meq m (lower (now e))) /\
  (forall m, get meq m (upper (now e')) = if uppers then None else get meq m (upper (now e))) /\
  known (now e') = known (now e) /\ semiknown (now e') = semiknown (now e) /\ objective (now e') = objective (now e) /\ processed (now e') = processed (now e) /\
  extra_equalities (now e') = extra_equalities (now e) /\ extra_inequalities (now e') = extra_inequalities (now e) /\ maximize e' = maximize e.
Proof.
  intros E B. assert (L : forall s', reset_lower t c (now e) = Some s' ->
    (forall m, get meq m (lower s') = match t with lp => None | sdp => if mmem m (keys (known (now e))) then None else if mmem m (hermitian_moments c) then Some 0%Qc else None end) /\
    upper s' = upper (now e) /\ known s' = known (now e) /\ semiknown s' = semiknown (now e) /\ objective s' = objective (now e) /\ processed s' = processed (now e) /\
    extra_equalities s' = extra_equalities (now e) /\ extra_inequalities s' = extra_inequalities (now e)).
  { intros s' H. unfold reset_lower in H. destruct t.
    - destruct (update_bounds lo_ok (known (now e)) (default_lower c)) as [lo|] eqn:U; [|discriminate H]. injection H as <-. cbn. split; [|repeat split].
      intros m. rewrite (update_bounds_get _ _ _ _ U m), default_get. reflexivity.
    - injection H as <-. cbn. repeat split. }
  destruct lowers, uppers; try discriminate B; cbn -[reset_lower] in E.
  - destruct (reset_lower t c (now e)) as [s'|] eqn:R; [|discriminate E]. injection E as <-. destruct (L s' eq_refl) as (L1 & L2 & L3). cbn. split; [exact L1|]. split; [reflexivity|]. tauto.
  - destruct (reset_lower t c (now e)) as [s'|] eqn:R; [|discriminate E]. injection E as <-. destruct (L s' eq_refl) as (L1 & L2 & L3). cbn. rewrite L2. split; [exact L1|]. split; [reflexivity|]. tauto.
  - injection E as <-. cbn. repeat split.
Qed.
(** An unknown name is refused. *)
Theorem C53_names t c e x : ~ In x ["all"; "bounds"; "lowerbounds"; "upperbounds"; "objective"; "values"] -> reset t c (Name x) e = None.
Proof.
  intros N. cbn [reset]. unfold reset_name, reset_part.
  repeat match goal with |- context [String.eqb x ?y] => destruct (String.eqb_spec x y) as [->|]; [exfalso; apply N; cbn; tauto|] end. reflexivity.
Qed.
(** The parts that need no lower bounds always succeed; lower bounds are refused exactly when a
    Hermitian moment of a semidefinite programme has a negative known value. *)
Theorem C53_succeeds t c e : NoDup (keys (known (now e))) ->
  (exists e', reset t c (Name "values") e = Some e') /\ (exists e', reset t c (Name "objective") e = Some e') /\ (exists e', reset t c (Name "upperbounds") e = Some e') /\
  ((exists e', reset t c (Name "lowerbounds") e = Some e') <-> (t = sdp -> forall m v, get meq m (known (now e)) = Some v -> In m (hermitian_moments c) -> (0 <= v)%Qc)).
Proof.
  intros N. split; [eexists; reflexivity|]. split; [eexists; reflexivity|]. split; [eexists; reflexivity|]. cbn -[reset_lower]. unfold reset_lower. destruct t.
  - pose proof (update_bounds_iff lo_ok (known (now e)) (default_lower c) N) as I. split.
    + intros (e' & E) _ m v G H. destruct (update_bounds _ _ _) as [lo|]; [|discriminate E]. apply qleb_true. apply (proj1 I (ex_intro _ lo eq_refl) m v 0%Qc G). rewrite default_get. apply mmem_iff in H. rewrite H. reflexivity.
    + intros H. destruct (proj2 I) as (lo & ->); [|eexists; reflexivity]. intros m v x G D. rewrite default_get in D. destruct (mmem m _) eqn:M; [|discriminate D].
      assert (x = 0%Qc) by congruence. subst x. apply qleb_true. apply (H eq_refl m v G). apply mmem_iff, M.
  - split; [discriminate|]. intros _. eexists. reflexivity.
Qed.

(** ** Invariants of histories with reset *)
Definition session_after (t : kind) (c : context) (h : list call) (e : session) : Prop := perform_all t c h (option_map new_session (generated t c)) = Some e.
Lemma session_invariant (Q : session -> Prop) t c : (forall g, reachable t c g -> Q (new_session g)) -> (forall k e e', Q e -> perform t c k e = Some e' -> Q e') -> forall h e, session_after t c h e -> Q e.
Proof.
  intros B ST h. unfold session_after, perform_all. destruct (generated t c) as [g|] eqn:G; cbn [option_map].
  - assert (Q0 : Q (new_session g)) by (apply B; exists []; exact G). generalize dependent (new_session g). induction h as [|k h IH]; intros e0 Q0 e E; cbn [fold_left] in E; [injection E as <-; exact Q0|].
    destruct (perform t c k e0) as [e1|] eqn:E1; [exact (IH e1 (ST k e0 e1 Q0 E1) e E)|]. exfalso. clear - E. induction h as [|k' h IH']; cbn [fold_left] in E; [discriminate E|exact (IH' E)].
  - intros e E. exfalso. induction h as [|k' h IH']; cbn [fold_left] in E; [discriminate E|exact (IH' E)].
Qed.
(** every reset is made of parts *)
Lemma reset_invariant (Q : session -> Prop) t c w e e' : (forall x e e', Q e -> reset_part t c x e = Some e' -> Q e') -> Q e -> reset t c w e = Some e' -> Q e'.
Proof.
  intros P. assert (T : forall f, (forall x e e', Q e -> f x e = Some e' -> Q e') -> forall l e e', Q e -> in_turn f l e = Some e' -> Q e').
  { intros f F l. induction l as [|x l IH]; intros e0 e1 H E; cbn [in_turn] in E; [injection E as <-; exact H|]. destruct (f x e0) as [e2|] eqn:X; [|discriminate E]. exact (IH e2 e1 (F x e0 e2 H X) E). }
  assert (N : forall x e e', Q e -> reset_name t c x e = Some e' -> Q e').
  { intros x e0 e1 H E. unfold reset_name in E. destruct (String.eqb x "all"); [exact (T _ P _ _ _ H E)|exact (P x e0 e1 H E)]. }
  intros H E. destruct w as [x|l]; cbn [reset] in E; [exact (N x e e' H E)|exact (T _ N l e e' H E)].
Qed.
Lemma part_cases t c x e e' : reset_part t c x e = Some e' ->
  (exists s', reset_lower t c (now e) = Some s' /\ (e' = unsolved (maximize e) s' \/ e' = unsolved (maximize e) (reset_upper s'))) \/
  e' = unsolved (maximize e) (reset_upper (now e)) \/ e' = unsolved true (reset_objective t (now e)) \/ e' = unsolved (maximize e) (reset_values t c (now e)).
Proof.
  unfold reset_part. repeat match goal with |- context [String.eqb x ?y] => destruct (String.eqb x y) end; intros E; try discriminate E.
  - destruct (reset_lower t c (now e)) as [s'|]; [|discriminate E]. injection E as <-. left. exists s'. auto.
  - destruct (reset_lower t c (now e)) as [s'|]; [|discriminate E]. injection E as <-. left. exists s'. auto.
  - injection E as <-. auto.
  - injection E as <-. auto.
  - injection E as <-. auto.
Qed.
(** No moment is both known and semi-known (C22), also with resets. *)
Theorem C53_never_both t c h e : session_after t c h e -> forall m, In m (keys (known (now e))) -> ~ In m (keys (semiknown (now e))).
Proof.
  intros E. apply (wf_disjoint (now e)). revert h e E. apply session_invariant; [intros g R; exact (reachable_wf t c g R)|]. intros k e e' W E. destruct k as [o|w|]; cbn [perform] in E.
  - destruct (step t c o (now e)) as [s'|] eqn:ST; [|discriminate E]. injection E as <-. cbn [now]. exact (wf_step t c o _ _ W ST).
  - revert W E. apply (reset_invariant (fun e => wf (now e))). clear. intros x e e' W E. apply part_cases in E as [(s' & R & [-> | ->])|[-> |[-> | ->]]]; cbn [now unsolved].
    + apply (wf_same (now e)); [| |exact W]; unfold reset_lower in R; destruct t; try (destruct (update_bounds _ _ _); [|discriminate R]); injection R as <-; reflexivity.
    + apply (wf_same (now e)); [| |exact W]; unfold reset_lower in R; destruct t; try (destruct (update_bounds _ _ _); [|discriminate R]); injection R as <-; reflexivity.
    + apply (wf_same (now e)); [reflexivity|reflexivity|exact W].
    + apply (wf_same (now e)); [reflexivity|reflexivity|exact W].
    + constructor; cbn [reset_values with_extra with_values known semiknown]; [apply nodup_initial|constructor|intros m _ []].
  - injection E as <-. exact W.
Qed.
Print Assumptions C53_never_both.

(** Known moments have no bounds (C39), also with resets: in problems that are not about supports, and
    whose moments include One (and Zero, if there is a zero moment). *)
Definition has_initial (c : context) (s : state) : Prop := forall m, In m (keys (initial_values sdp c)) -> In m (keys (known s)).
Lemma initial_keys c m : In m (keys (initial_values sdp c)) <-> m = One \/ zero_moment c = Some m.
Proof.
  rewrite (in_keys_get meq). split.
  - intros (v & G). rewrite get_initial in G. destruct (meq m One) as [->|]; [auto|]. destruct (zero_moment c) as [z|]; [|discriminate G]. destruct (meq m z) as [->|]; [auto|discriminate G].
  - intros H. rewrite get_initial. destruct (meq m One) as [->|]; [eauto|]. destruct H as [->|H]; [contradiction|]. rewrite H. destruct (meq m m); [eauto|contradiction].
Qed.
Section NoSupports.
Variable c : context.
Hypothesis SP : supports_problem c = false.
Hypothesis MO : In One (moments c) /\ forall z, zero_moment c = Some z -> In z (moments c).
Lemma initial_in_moments m : In m (keys (initial_values sdp c)) -> In m (moments c).
Proof. intros H. apply initial_keys in H as [->|H]; [exact (proj1 MO)|exact (proj2 MO m H)]. Qed.
Lemma keeps_keys values lpi only d sk m : In m (moments c) -> In m (keys d) -> In m (keys (fst (assign_values c values lpi only d sk))).
Proof.
  intros I H. assert (A : In m (keys (assign d values))).
  { apply (in_keys_get meq) in H as (v & H). apply (in_keys_get meq). rewrite get_assign. destruct (given values m); eauto. }
  unfold assign_values. destruct only; [exact A|]. apply (in_keys_get meq). rewrite (proj1 (get_evaluate_all _ _ _ _ _ _ _)).
  destruct (if mmem m _ then _ else None); [eauto|]. rewrite (get_filter meq (fun x => mmem x (moments c))). apply mmem_iff in I. rewrite I. apply (in_keys_get meq), A.
Qed.
Lemma cleanup_known s s' : cleanup sdp c s = Some s' -> known s' = known s.
Proof. intros E. apply cleanup_values in E as (K & _). rewrite K. unfold supports_step. rewrite SP. reflexivity. Qed.
Lemma has_step o s s' : has_initial c s -> step sdp c o s = Some s' -> has_initial c s'.
Proof.
  intros H. destruct o; cbn [step].
  - unfold set_values. destruct values as [|p values].
    + intros E m I. rewrite (cleanup_known _ _ E). exact I.
    + unfold update_values. destruct (assign_values _ _ _ _ _ _) as (d, sk) eqn:AV. intros E m I. rewrite (cleanup_known _ _ E). cbn [with_values known].
      assert (Q := keeps_keys (p :: values) lpi only (known (reset_values sdp c s)) (semiknown (reset_values sdp c s)) m (initial_in_moments m I)). rewrite AV in Q. apply Q. exact I.
  - unfold update_values. destruct values as [|p values]; [intros E; injection E as <-; exact H|]. destruct (assign_values _ _ _ _ _ _) as (d, sk) eqn:AV. intros E m I. rewrite (cleanup_known _ _ E). cbn [with_values known].
    assert (Q := keeps_keys (p :: values) lpi only (known s) (semiknown s) m (initial_in_moments m I)). rewrite AV in Q. apply Q, H, I.
  - intros E. apply bounds_values in E as (K & _). unfold has_initial. rewrite K. exact H.
  - intros E. apply objective_values in E as (K & _). unfold has_initial. rewrite K. exact H.
  - intros E. injection E as <-. exact H.
  - intros E. injection E as <-. exact H.
Qed.
Lemma unbounded_step o s s' : unbounded_known s -> step sdp c o s = Some s' -> unbounded_known s'.
Proof.
  intros UK. destruct o; cbn [step].
  - rewrite set_values_is. apply cleanup_unbounded.
  - unfold update_values. destruct values as [|p values]; [intros E; injection E as <-; assumption|]. destruct (assign_values _ _ _ _ _ _) as (d, sk). apply cleanup_unbounded.
  - apply bounds_unbounded. assumption.
  - intros E. apply objective_values in E as (K & _ & L & U & _). unfold unbounded_known. rewrite K, L, U. assumption.
  - intros E. injection E as <-. assumption.
  - intros E. injection E as <-. assumption.
Qed.
Theorem C53_known_have_no_bounds h e : session_after sdp c h e -> forall m, In m (keys (known (now e))) -> get meq m (lower (now e)) = None /\ get meq m (upper (now e)) = None.
Proof.
  intros E. enough (H : has_initial c (now e) /\ unbounded_known (now e)) by exact (proj2 H).
  revert h e E. refine (session_invariant (fun e => has_initial c (now e) /\ unbounded_known (now e)) sdp c _ _).
  - intros g R. split; [|exact (reachable_unbounded c g R)]. cbn [new_session now]. destruct R as (ops & R). destruct (generated_is sdp c SP) as (lo & _ & G). rewrite G in R.
    revert R. apply (run_invariant (has_initial c) sdp c has_step). intros m I. exact I.
  - intros k e e' H E. destruct k as [o|w|]; cbn [perform] in E.
    + destruct (step sdp c o (now e)) as [s'|] eqn:ST; [|discriminate E]. injection E as <-. cbn [now]. split; [exact (has_step o _ _ (proj1 H) ST)|exact (unbounded_step o _ _ (proj2 H) ST)].
    + revert H E. apply (reset_invariant (fun e => has_initial c (now e) /\ unbounded_known (now e))). clear e e'. intros x e e' (HI & UK) E.
      assert (RL : forall s', reset_lower sdp c (now e) = Some s' -> has_initial c s' /\ unbounded_known s').
      { intros s' R. unfold reset_lower in R. destruct (update_bounds _ _ _) as [lo|] eqn:U; [|discriminate R]. injection R as <-. split; [exact HI|].
        intros m I. cbn [with_bounds known lower upper] in *. split; [|apply UK, I]. rewrite (update_bounds_get _ _ _ _ U m). apply mmem_iff in I. rewrite I. reflexivity. }
      apply part_cases in E as [(s' & R & [-> | ->])|[-> |[-> | ->]]]; cbn [now unsolved].
      * exact (RL s' R).
      * destruct (RL s' R) as [R1 R2]. split; [exact R1|]. intros m I. split; [apply (R2 m I)|reflexivity].
      * split; [exact HI|]. intros m I. split; [apply (UK m I)|reflexivity].
      * split; [exact HI|exact UK].
      * split; [intros m I; exact I|]. intros m I. cbn [reset_values with_extra with_values known lower upper] in *. apply UK, HI, I.
    + injection E as <-. exact H.
Qed.
End NoSupports.
Print Assumptions C53_known_have_no_bounds.

(** The direction of the optimisation is the one given last: later calls other than set_objective and
    resets of the objective keep it. *)
Definition about_objective (k : call) : Prop :=
  match k with
  | Call (SetObjective _ _) => True
  | Reset (Name x) => In x ["all"; "objective"]
  | Reset (Names l) => In "all" l \/ In "objective" l
  | _ => False
  end.
Lemma part_direction t c x e e' : x <> "objective" -> reset_part t c x e = Some e' -> maximize e' = maximize e.
Proof.
  intros N E. unfold reset_part in E. destruct (String.eqb_spec x "bounds"); [destruct (reset_lower _ _ _); [injection E as <-; reflexivity|discriminate E]|].
  destruct (String.eqb_spec x "lowerbounds"); [destruct (reset_lower _ _ _); [injection E as <-; reflexivity|discriminate E]|].
  destruct (String.eqb_spec x "upperbounds"); [injection E as <-; reflexivity|]. destruct (String.eqb_spec x "objective"); [contradiction|].
  destruct (String.eqb_spec x "values"); [injection E as <-; reflexivity|discriminate E].
Qed.
Lemma name_direction t c x e e' : x <> "all" -> x <> "objective" -> reset_name t c x e = Some e' -> maximize e' = maximize e.
Proof. intros A O E. unfold reset_name in E. destruct (String.eqb_spec x "all"); [contradiction|]. exact (part_direction _ _ _ _ _ O E). Qed.
Lemma keeps_direction t c k e e' : ~ about_objective k -> perform t c k e = Some e' -> maximize e' = maximize e.
Proof.
  intros N E. destruct k as [o|[x|l]|]; cbn [perform reset] in E.
  - destruct (step t c o (now e)); [|discriminate E]. injection E as <-. cbn [maximize]. destruct o; try reflexivity. exfalso. apply N. exact I.
  - apply (name_direction t c x); [| |exact E]; intros ->; apply N; cbn; auto.
  - assert (N' : ~ In "all" l /\ ~ In "objective" l) by (split; intros Q; apply N; cbn; auto). clear N. revert e E. destruct N' as [A O].
    induction l as [|x l IH]; intros e E; cbn [in_turn] in E; [injection E as <-; reflexivity|]. destruct (reset_name t c x e) as [e1|] eqn:E1; [|discriminate E].
    rewrite (IH (fun Q => A (or_intror Q)) (fun Q => O (or_intror Q)) e1 E). apply (name_direction t c x); [| |exact E1]; intros ->; [apply A|apply O]; left; reflexivity.
  - injection E as <-. reflexivity.
Qed.
Lemma all_keep_direction t c h : forall e e', (forall k, In k h -> ~ about_objective k) -> perform_all t c h (Some e) = Some e' -> maximize e' = maximize e.
Proof.
  induction h as [|k h IH]; intros e e' N E; [injection E as <-; reflexivity|]. unfold perform_all in E. cbn [fold_left] in E. destruct (perform t c k e) as [e1|] eqn:E1.
  - rewrite (IH e1 e' (fun k' Q => N k' (or_intror Q)) E). exact (keeps_direction t c k e e1 (N k (or_introl eq_refl)) E1).
  - exfalso. clear - E. induction h as [|k' h IH]; [discriminate E|exact (IH E)].
Qed.
Theorem C53_direction t c h i mx h2 e : (forall k, In k h2 -> ~ about_objective k) ->
  (session_after t c (h ++ Call (SetObjective i mx) :: h2) e -> maximize e = mx) /\
  (session_after t c (h ++ Reset (Name "objective") :: h2) e -> maximize e = true) /\
  (session_after t c (h ++ Reset (Name "all") :: h2) e -> supports_problem c = false -> maximize e = true) /\
  (session_after t c h2 e -> maximize e = true).
Proof.
  intros N. assert (NONE : forall l, perform_all t c l None = None) by (induction l as [|k l IH]; [reflexivity|exact IH]).
  assert (A : forall k, session_after t c (h ++ k :: h2) e -> exists e0 e1, perform t c k e0 = Some e1 /\ maximize e = maximize e1).
  { intros k E. unfold session_after in E. unfold perform_all in E. rewrite fold_left_app in E. cbn [fold_left] in E. fold (perform_all t c h (option_map new_session (generated t c))) in E.
    destruct (perform_all t c h (option_map new_session (generated t c))) as [e0|]; [|fold (perform_all t c h2 None) in E; rewrite NONE in E; discriminate E].
    destruct (perform t c k e0) as [e1|] eqn:E1; [|fold (perform_all t c h2 None) in E; rewrite NONE in E; discriminate E].
    exists e0, e1. split; [exact E1|]. exact (all_keep_direction t c h2 e1 e N E). }
  repeat split.
  - intros E. destruct (A _ E) as (e0 & e1 & E1 & ->). cbn [perform] in E1. destruct (step _ _ _ _); [|discriminate E1]. injection E1 as <-. reflexivity.
  - intros E. destruct (A _ E) as (e0 & e1 & E1 & ->). cbn in E1. injection E1 as <-. reflexivity.
  - intros E SP. destruct (A _ E) as (e0 & e1 & E1 & ->). cbn [perform] in E1. destruct (C53_all_is_new t c e0 SP) as (g & _ & R). rewrite R in E1. injection E1 as <-. reflexivity.
  - intros E. unfold session_after in E. destruct (generated t c) as [g|]; cbn [option_map] in E; [|rewrite NONE in E; discriminate E]. rewrite (all_keep_direction t c h2 _ e N E). reflexivity.
Qed.
Print Assumptions C53_direction.

(** ** C53: examples, and what the code does not guarantee *)
Definition half : Qc := Q2Qc (1 # 2).
Definition two_moments (supports : bool) : context := {|
  moments := [[]; [0]]; is_knowable := fun _ => true; dagger := fun a => a; is_zero := fun _ => false; is_one := fun _ => false; hermitian_moments := [[]; [0]];
  zero_moment := None; supports_problem := supports; minimal_equalities := []; minimal_inequalities := [] |}.
(** maximise a moment, give it the value 1/2 *)
Definition used : list call := [Call (SetObjective (Some [([0], 1%Qc)]) true); Call (SetValues [([0], Some half)] false false)].
Definition seen (d : mdict Qc) : list (moment * Q) := map (fun p => (fst p, this (snd p))) d.
Definition q0 : Q := 0%Q.
Definition q1 : Q := 1%Q.
Definition qh : Q := (1 # 2)%Q.
Definition look (o : option session) := option_map (fun e => (seen (known (now e)), seen (lower (now e)), seen (objective (now e)), seen (processed (now e)))) o.
Definition looked (h : list call) := look (perform_all sdp (two_moments false) h (option_map new_session (generated sdp (two_moments false)))).
Example C53_case : looked used = Some ([([], q1); ([0], qh)], [], [([0], q1); ([], q0)], [([], qh)]) /\
  looked (used ++ [Reset (Name "all")]) = looked [] /\ looked [] = Some ([([], q1)], [([0], q0)], [([], q0)], [([], q0)]) /\
  looked (used ++ [Reset (Names ["objective"; "values"])]) = Some ([([], q1)], [], [([], q0)], [([], q0)]) /\ looked (used ++ [Reset (Name "dual")]) = None.
Proof. repeat split; vm_compute; reflexivity. Qed.
(** reset("values") forgets the values but not their substitution into the objective: the moment is
    unknown again, and the objective of the solver is the constant 1/2. *)
Theorem C53_objective_after_reset_refuted : exists c h e x, supports_problem c = false /\ session_after sdp c (h ++ [Reset (Name "values")]) e /\
  x One = 1%Qc /\ (forall m v, get meq m (known (now e)) = Some v -> x m = v) /\ expr_at x (processed (now e)) <> expr_at x (objective (now e)).
Proof.
  destruct (perform_all sdp (two_moments false) (used ++ [Reset (Name "values")]) (option_map new_session (generated sdp (two_moments false)))) as [e|] eqn:E.
  - exists (two_moments false), used, e, (fun m => match m with [] => 1%Qc | _ => 0%Qc end). split; [reflexivity|]. split; [exact E|]. split; [reflexivity|].
    assert (L := f_equal look E). vm_compute in L. injection L as L1 L2 L3 L4. unfold seen in L1, L4, L3.
    assert (K : known (now e) = [([], 1%Qc)]). { assert (K0 := f_equal (option_map (fun e => known (now e))) E). cbn [option_map] in K0. symmetry. apply (f_equal (fun o => match o with Some k => k | None => [] end)) in K0. rewrite <- K0. vm_compute. reflexivity. }
    split.
    + rewrite K. intros m v G. cbn [get] in G. destruct (meq m []) as [->|]; [|discriminate G]. congruence.
    + intros Q. assert (P0 : processed (now e) = [([], half)] ). { assert (K0 := f_equal (option_map (fun e => processed (now e))) E). apply (f_equal (fun o => match o with Some k => k | None => [] end)) in K0. cbn [option_map] in K0. rewrite <- K0. vm_compute. reflexivity. }
      assert (O0 : objective (now e) = [([0], 1%Qc); ([], 0%Qc)] ). { assert (K0 := f_equal (option_map (fun e => objective (now e))) E). apply (f_equal (fun o => match o with Some k => k | None => [] end)) in K0. cbn [option_map] in K0. rewrite <- K0. vm_compute. reflexivity. }
      rewrite P0, O0 in Q. apply (f_equal (fun v => Qc_eq_bool v half)) in Q. vm_compute in Q. discriminate Q.
  - exfalso. assert (L := f_equal look E). vm_compute in L. discriminate L.
Qed.
(** The order of the names matters: lower bounds are not restored for moments that are still known. *)
Theorem C53_order_refuted : looked (used ++ [Reset (Names ["bounds"; "values"])]) = Some ([([], q1)], [], [([0], q1); ([], q0)], [([], qh)]) /\
  looked (used ++ [Reset (Names ["values"; "bounds"])]) = Some ([([], q1)], [([0], q0)], [([0], q1); ([], q0)], [([], qh)]).
Proof. split; vm_compute; reflexivity. Qed.
(** In a problem about supports reset("all") does not give the newly generated programme: One is not
    known there, but has the lower bound 1. *)
Theorem C53_supports_refuted : forall t, let show_ h := option_map (fun e => (seen (known (now e)), seen (lower (now e)))) (perform_all t (two_moments true) h (option_map new_session (generated t (two_moments true)))) in
  show_ [] = Some (match t with sdp => ([], [([], q1); ([0], q0)]) | lp => ([], [([], q1)]) end) /\
  show_ [Reset (Name "all")] = Some (match t with sdp => ([([], q1)], [([0], q0)]) | lp => ([([], q1)], []) end).
Proof. intros []; split; vm_compute; reflexivity. Qed.

(** ** C54: a stored solution *)
(** What a semidefinite programme passes to the solver is what it passed when the stored solution was
    computed, and the direction is the same. *)
Definition same_problem (e : session) : Prop := forall s0 mx0, solution e = Some (s0, mx0) ->
  mx0 = maximize e /\ known s0 = known (now e) /\ semiknown s0 = semiknown (now e) /\ lower s0 = lower (now e) /\ upper s0 = upper (now e) /\
  objective s0 = objective (now e) /\ processed s0 = processed (now e).
Lemma keeps_problem t c h e : session_after t c h e -> same_problem e.
Proof.
  revert h e. apply session_invariant; [intros g _ s0 mx0 E; discriminate E|]. intros k e e' H E. destruct k as [o|w|]; cbn [perform] in E.
  - destruct (step t c o (now e)) as [s'|] eqn:ST; [|discriminate E]. injection E as <-. intros s0 mx0 S0. cbn [now maximize solution] in *. destruct (keeps_solution o) eqn:KS; [|discriminate S0].
    specialize (H s0 mx0 S0). destruct o as [values lpi only|values lpi only|b bt|i mx|l|l]; try discriminate KS; cbn [direction_after].
    + destruct values as [|p values]; [|discriminate KS]. cbn in ST. injection ST as <-. exact H.
    + cbn in ST. injection ST as <-. exact H.
    + cbn in ST. injection ST as <-. exact H.
  - revert H E. apply (reset_invariant same_problem). clear. intros x e e' _ E s0 mx0 S0.
    apply part_cases in E as [(s' & R & [-> | ->])|[-> |[-> | ->]]]; discriminate S0.
  - injection E as <-. intros s0 mx0 S0. cbn [solution now maximize] in *. injection S0 as <- <-. repeat split.
Qed.
Theorem C54_sdp_solution_is_current c h e s0 mx0 : session_after sdp c h e -> solution e = Some (s0, mx0) ->
  prepare_sdp c s0 = prepare_sdp c (now e) /\ mx0 = maximize e.
Proof.
  intros E S0. destruct (keeps_problem sdp c h e E s0 mx0 S0) as (M & K & SK & L & U & O & P). split; [|exact M].
  unfold prepare_sdp. rewrite K, SK, L, U, P. reflexivity.
Qed.
Print Assumptions C54_sdp_solution_is_current.
(** For a linear programme it is, unless the extra constraints have been changed. *)
Theorem C54_lp_solution_is_current P nonneg rk ri c h e s0 mx0 : session_after lp c h e -> solution e = Some (s0, mx0) ->
  extra_equalities s0 = extra_equalities (now e) -> extra_inequalities s0 = extra_inequalities (now e) ->
  prepare_lp P nonneg rk ri s0 = prepare_lp P nonneg rk ri (now e) /\ mx0 = maximize e.
Proof.
  intros E S0 X1 X2. destruct (keeps_problem lp c h e E s0 mx0 S0) as (M & K & SK & L & U & O & Pr). split; [|exact M].
  unfold prepare_lp. rewrite K, SK, L, U, O, X1, X2. reflexivity.
Qed.
Print Assumptions C54_lp_solution_is_current.
(** set_extra_equalities keeps the solution of the programme without them. *)
Definition one_is_zero : list (mdict Qc) := [[([], 1%Qc)]].
Definition half_state : list call := [Call (SetValues [([0], Some half)] true false); Solve].
Theorem C54_lp_extra_refuted : exists P c h e s0 mx0, session_after lp c h e /\ solution e = Some (s0, mx0) /\ programme_ok P /\
  (exists y, lp_point P false s0 y) /\ forall y, ~ lp_point P false (now e) y.
Proof.
  destruct (perform_all lp PropProgram.lp_ctx half_state (option_map new_session (generated lp PropProgram.lp_ctx))) as [e1|] eqn:E1.
  2: { exfalso. apply (f_equal (fun o => match o with Some _ => true | None => false end)) in E1. vm_compute in E1. discriminate E1. }
  assert (S1 : solution e1 = Some (now e1, maximize e1)).
  { unfold half_state in E1. unfold perform_all in E1. cbn [fold_left] in E1. destruct (option_map new_session _) as [e0|] in E1; [|discriminate E1]. destruct (perform lp _ (Call _) e0) as [e2|] in E1; [|discriminate E1]. cbn [perform] in E1. injection E1 as <-. reflexivity. }
  pose (e := {| now := set_extra_equalities one_is_zero (now e1); maximize := maximize e1; solution := solution e1 |}).
  exists PropProgram.lp_prog, PropProgram.lp_ctx, (half_state ++ [Call (SetExtraEqualities one_is_zero)]), e, (now e1), (maximize e1).
  split; [unfold session_after, perform_all in *; rewrite fold_left_app, E1; reflexivity|]. split; [exact S1|]. split; [exact PropProgram.lp_prog_ok|].
  assert (D : match perform_all lp PropProgram.lp_ctx half_state (option_map new_session (generated lp PropProgram.lp_ctx)) with Some e =>
    extra_equalities (now e) = [] /\ extra_inequalities (now e) = [] /\ lower (now e) = [] /\ upper (now e) = [] /\
    forallb (fun p => Qc_eq_bool (PropArgs.args_point (fst p)) (snd p)) (known (now e)) = true /\
    forallb (fun p => Qc_eq_bool (PropArgs.args_point (fst p)) (fst (snd p) * PropArgs.args_point (snd (snd p)))) (semiknown (now e)) = true /\ existsb (fun p => if meq (fst p) One then Qc_eq_bool (snd p) 1 else false) (known (now e)) = true | None => False end) by (vm_compute; repeat split).
  rewrite E1 in D. destruct D as (X1 & X2 & L & U & KN & SK & ON). rewrite forallb_forall in KN, SK. rewrite existsb_exists in ON. split.
  - exists PropArgs.args_point. constructor; try discriminate.
    + intros i I. vm_compute in I. exfalso. lia.
    + intros i I. change (LPSolveModel.c_rows (minimal_sparse_inequalities PropProgram.lp_prog)) with 1 in I. assert (i = 0) by lia. subst i. apply Qcle_alt. vm_compute. discriminate.
    + rewrite X1. intros d [].
    + rewrite X2. intros d [].
    + intros m k u I. exact (Qc_eq_bool_correct _ _ (SK _ I)).
    + intros m v I. exact (Qc_eq_bool_correct _ _ (KN _ I)).
    + rewrite L. intros m v [].
    + rewrite U. intros m v [].
  - intros y Y. destruct ON as ((m & v) & I & ON). cbn [fst snd] in ON. destruct (meq m One) as [->|]; [|discriminate ON]. apply Qc_eq_bool_correct in ON. subst v.
    assert (Y1 : y One = 1%Qc) by exact (lpp_known _ _ _ _ Y _ _ I).
    assert (Y0 := lpp_eq _ _ _ _ Y [([], 1%Qc)] (or_introl eq_refl)). unfold expr_at in Y0. cbn in Y0. change (y []) with (y One) in Y0. rewrite Y1 in Y0. vm_compute in Y0. discriminate Y0.
Qed.
Print Assumptions C54_lp_extra_refuted.
