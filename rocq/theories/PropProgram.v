(** Values, bounds, objectives and extra constraints of a programme (C22, C23, C25, C36,
    C39, C40). *)
From Coq Require Import List Arith Bool QArith Qcanon Lia.
From Verif Require Import MargModel QcSum QcArith LPSolveModel LPSolveSpec PropSolve SearchModel SearchProofs ProgramModel ProgramSpec ProgramProofs ProgramProofs2 ProgramProofs3 ProgramLP ProgramLPProofs.
Import ListNotations.
Open Scope nat_scope.

(** ** C22: known, semi-known and unknown moments *)
(** Whatever methods were called, no moment is both known and semi-known (and the
    dictionaries have no repeated key). *)
Theorem C22_never_both t c s : reachable t c s ->
  NoDup (keys (known s)) /\ NoDup (keys (semiknown s)) /\ forall m, In m (keys (known s)) -> ~ In m (keys (semiknown s)).
Proof. intros R. destruct (reachable_wf t c s R). auto. Qed.

(** After set_values the known moments and their values are exactly those of the
    specification, and so are the semi-known ones: in particular the restriction to knowable
    moments (lines 713-725) does not lose any. *)
Theorem C22_known_exactly t c values lpi s s' : dagger_involutive c -> supports_problem c = false -> values <> [] ->
  set_values t c values lpi false s = Some s' ->
  forall m v, get meq m (known s') = Some v <-> In m (moments c) /\ known_value t c values lpi m = Some v.
Proof.
  intros DI SP NE E m v. rewrite (known_after_set t c values lpi s s' m DI SP NE E). destruct (mmem m (moments c)) eqn:M.
  - apply mmem_iff in M. tauto.
  - split; [discriminate|]. intros (I & _). apply mmem_iff in I. congruence. Qed.
Theorem C22_semiknown_exactly t c values lpi s s' : dagger_involutive c -> supports_problem c = false -> values <> [] ->
  set_values t c values lpi false s = Some s' ->
  forall m k u, get meq m (semiknown s') = Some (k, u) <-> In m (moments c) /\ semiknown_value t c values lpi m k u.
Proof. intros DI SP NE E m k u. apply (semiknown_after_set t c values lpi s s'); assumption. Qed.
(** Without values, or with only_specified_values, nothing is derived. *)
Theorem C22_only_specified t c values lpi s s' : supports_problem c = false -> set_values t c values lpi true s = Some s' ->
  semiknown s' = [] /\ forall m, get meq m (known s') = base t c values m.
Proof.
  intros SP E. rewrite set_values_is in E. apply cleanup_values in E as (K & SK & _). rewrite K, SK. unfold supports_step. rewrite SP. cbn [with_values known semiknown].
  unfold result_values. destruct values as [|p values]; cbn [assign_values fst snd].
  - split; [|intros m; rewrite <- get_base; reflexivity]. unfold pop_all. generalize (keys (initial_values t c)). intros l. induction l; [reflexivity|assumption].
  - split; [|intros m; apply get_base]. unfold pop_all. generalize (keys (assign (initial_values t c) (p :: values))). intros l. induction l; [reflexivity|assumption]. Qed.
Theorem C22_without_values t c lpi only s s' : supports_problem c = false -> set_values t c [] lpi only s = Some s' ->
  semiknown s' = [] /\ forall m, get meq m (known s') = base t c [] m.
Proof.
  intros SP E. apply (C22_only_specified t c [] lpi s s' SP). rewrite set_values_is in E |- *. exact E. Qed.
(** In every point of the relaxation that factorises and has the given values of the factors,
    a known product has the known value, a moment known to be negligible is a negligible
    number times the moment of the other factors, and a semi-known moment is its coefficient
    times the moment it refers to, which is itself not semi-known. *)
Theorem C22_values_are_correct t c values lpi s s' x : dagger_involutive c -> supports_problem c = false -> values <> [] ->
  set_values t c values lpi false s = Some s' -> factorising c x -> (forall a v, atom_value t c values a = Some v -> x a = v) ->
  (forall m v, get meq m (known s') = Some v -> 2 <= length m ->
     (forall a, In a m -> valued t c values a = true) -> moment_at x m = v) /\
  (forall m v, get meq m (known s') = Some v -> base t c values m = None ->
     moment_at x m = v \/ lpi = true /\ isclose0 v = true /\ moment_at x m = (v * moment_at x (unvalued t c values m))%Qc) /\
  (forall m k u, get meq m (semiknown s') = Some (k, u) -> moment_at x m = (k * moment_at x u)%Qc).
Proof.
  intros DI SP NE E FX AV. split; [|split].
  - intros m v G L VA. apply (C22_known_exactly t c values lpi s s' DI SP NE E) in G as (I & KV). unfold known_value in KV.
    assert (F : forallb (valued t c values) m = true) by (apply forallb_forall; assumption). assert (L' : (2 <=? length m) = true) by (apply Nat.leb_le; assumption).
    rewrite F, L' in KV. cbn [andb orb] in KV. assert (v = coefficient t c values m) as -> by congruence. rewrite (moment_splits t c values x m AV).
    assert (U : unvalued t c values m = []). { unfold unvalued. clear - F. induction m as [|a m IH]; [reflexivity|]. cbn [forallb filter] in *. apply andb_prop in F as (-> & F). cbn. auto. }
    rewrite U. unfold moment_at. cbn. ring.
  - intros m v G B. apply (C22_known_exactly t c values lpi s s' DI SP NE E) in G as (I & KV). unfold known_value in KV. rewrite B in KV.
    destruct ((2 <=? length m) && _) eqn:D; [|discriminate]. assert (v = coefficient t c values m) as -> by congruence. rewrite (moment_splits t c values x m AV).
    apply andb_prop in D as (_ & D). apply orb_prop in D as [F|D].
    + left. assert (U : unvalued t c values m = []). { unfold unvalued. clear - F. induction m as [|a m IH]; [reflexivity|]. cbn [forallb filter] in *. apply andb_prop in F as (-> & F). cbn. auto. }
      rewrite U. unfold moment_at. cbn. ring.
    + right. apply andb_prop in D as (D & C0). apply andb_prop in D as (D & _). auto.
  - intros m k u G. apply (C22_semiknown_exactly t c values lpi s s' DI SP NE E) in G as (I & _ & _ & _ & _ & _ & -> & ->).
    rewrite (moment_from_atoms c x _ FX). apply moment_splits. assumption. Qed.
Theorem C22_target_is_not_semiknown t c values lpi s s' : dagger_involutive c -> supports_problem c = false -> values <> [] ->
  set_values t c values lpi false s = Some s' ->
  forall m k u, get meq m (semiknown s') = Some (k, u) -> get meq u (semiknown s') = None /\ forall a, In a u -> valued t c values a = false.
Proof.
  intros DI SP NE E m k u G. apply (C22_semiknown_exactly t c values lpi s s' DI SP NE E) in G as (I & _ & _ & _ & _ & _ & -> & ->).
  assert (V : forall a, In a (monomial_from_atoms c (unvalued t c values m)) -> valued t c values a = false) by (intros a; apply unvalued_from_atoms; assumption).
  split; [|exact V]. destruct (get meq _ (semiknown s')) as [(k' & u')|] eqn:G'; [|reflexivity]. exfalso.
  apply (C22_semiknown_exactly t c values lpi s s' DI SP NE E) in G' as (_ & _ & X & _). apply existsb_exists in X as (a & A & B). rewrite V in B by assumption. discriminate. Qed.
(** In a problem about supports only negligible values stay known, and nothing is semi-known. *)
Theorem C22_supports t c values lpi only s s' : supports_problem c = true -> set_values t c values lpi only s = Some s' ->
  semiknown s' = [] /\ forall m v, get meq m (known s') = Some v -> isclose0 v = true.
Proof.
  intros SP E. pose proof (wf_set t c values lpi only s s' E) as W. rewrite set_values_is in E. apply cleanup_values in E as (K & SK & _). rewrite SK. split.
  - unfold supports_step at 2. rewrite SP. cbn [with_bounds with_values semiknown]. unfold pop_all. generalize (keys (known (supports_step c (with_values (fst (result_values t c values lpi only)) (snd (result_values t c values lpi only)) (reset_values t c s))))).
    intros l. induction l; [reflexivity|assumption].
  - intros m v G. rewrite K in G. unfold supports_step in G. rewrite SP in G. cbn [with_bounds with_values known] in G. rewrite get_pop_all in G.
    destruct (mmem m _) eqn:M; [discriminate|]. destruct (isclose0 v) eqn:C0; [reflexivity|]. exfalso.
    assert (I : In m (keys (filter (fun p => negb (isclose0 (snd p))) (fst (result_values t c values lpi only))))).
    { apply in_map_iff. exists (m, v). split; [reflexivity|]. apply filter_In. split; [apply (get_some_in meq); assumption|]. cbn [snd]. rewrite C0. reflexivity. }
    apply mmem_iff in I. congruence. Qed.

(** a programme: factors 0 and 1 are knowable, 2 and its conjugate 3 are not *)
Definition ex_ctx : context := {|
  moments := [[]; [0]; [1]; [2]; [0; 1]; [0; 2]; [1; 2]; [0; 1; 2]; [2; 2]];
  is_knowable := fun a => a <? 2; dagger := fun a => match a with 2 => 3 | 3 => 2 | _ => a end;
  is_zero := fun _ => false; is_one := fun _ => false; hermitian_moments := [[0]; [1]; [0; 1]]; zero_moment := None;
  supports_problem := false; minimal_equalities := []; minimal_inequalities := [] |}.
Definition q (n : Z) (d : positive) : Qc := Q2Qc (n # d).
Definition show (o : option state) :=
  option_map (fun s => (map (fun p => (fst p, this (snd p))) (known s), map (fun p => (fst p, this (fst (snd p)), snd (snd p))) (semiknown s))) o.
Definition ex_values : list (moment * option Qc) := [([0], Some (q 1 2)); ([1], Some (q 1 3)); ([2; 2], None)].
Example C22_example : dagger_involutive ex_ctx /\ supports_problem ex_ctx = false /\ ex_values <> [] /\
  show (run sdp ex_ctx [SetValues ex_values true false] (generated sdp ex_ctx)) =
  Some ([([], Qmake 1 1); ([0], Qmake 1 2); ([1], Qmake 1 3); ([0; 1], Qmake 1 6)],
        [([0; 2], Qmake 1 2, [2]); ([1; 2], Qmake 1 3, [2]); ([0; 1; 2], Qmake 1 6, [2])]).
Proof. split; [intros [|[|[|[|a]]]]; reflexivity|]. split; [reflexivity|]. split; [discriminate|]. vm_compute. reflexivity. Qed.
(** update_values may leave the semi-known values of an earlier assignment: after giving the
    factor 0 the value 1/2 with, and then 7/10 without linearised constraints, the product
    [0; 2] still is 1/2 times [2]. *)
Theorem C22_update_values_refuted : exists c s m k u, dagger_involutive c /\ supports_problem c = false /\
  reachable sdp c s /\ get meq m (semiknown s) = Some (k, u) /\ m = [0; 2] /\ u = [2] /\
  get meq [0] (known s) = Some (q 7 10) /\ k = q 1 2 /\ k <> q 7 10.
Proof.
  set (ops := [UpdateValues [([0], Some (q 1 2))] true false; UpdateValues [([0], Some (q 7 10))] false false]).
  destruct (run sdp ex_ctx ops (generated sdp ex_ctx)) as [s|] eqn:E; [|apply (f_equal (fun o => match o with Some _ => true | None => false end)) in E; vm_compute in E; discriminate].
  assert (C : match run sdp ex_ctx ops (generated sdp ex_ctx) with
              | Some s => match get meq [0; 2] (semiknown s), get meq [0] (known s) with
                          | Some (k, u), Some v => (Qc_eq_bool k (q 1 2) && (if meq u [2] then true else false) && Qc_eq_bool v (q 7 10))%bool | _, _ => false end
              | None => false end = true) by (vm_compute; reflexivity).
  rewrite E in C. destruct (get meq [0; 2] (semiknown s)) as [(k & u)|] eqn:G; [|discriminate]. destruct (get meq [0] (known s)) as [v|] eqn:GK; [|discriminate].
  apply andb_prop in C as (C & C3). apply andb_prop in C as (C1 & C2). apply Qc_eq_bool_correct in C1, C3. destruct (meq u [2]) as [EU|]; [|discriminate].
  exists ex_ctx, s, [0; 2], k, u. split; [intros [|[|[|[|a]]]]; reflexivity|]. split; [reflexivity|]. split; [exists ops; exact E|]. split; [assumption|]. split; [reflexivity|]. split; [assumption|].
  split; [rewrite <- C3; assumption|]. split; [assumption|]. rewrite C1. intros X. apply (f_equal this) in X. vm_compute in X. discriminate. Qed.

(** ** C23: setting values afresh *)
(** The values, semi-known values and extra constraints after set_values do not depend on
    what was set before. *)
Theorem C23_values_afresh t c values lpi only s1 s2 s1' s2' :
  set_values t c values lpi only s1 = Some s1' -> set_values t c values lpi only s2 = Some s2' ->
  known s1' = known s2' /\ semiknown s1' = semiknown s2' /\ extra_equalities s1' = [] /\ extra_inequalities s1' = [] /\ extra_equalities s2' = [] /\ extra_inequalities s2' = [].
Proof.
  rewrite !set_values_is. intros E1 E2. apply cleanup_values in E1 as (K1 & SK1 & _ & X1 & Y1). apply cleanup_values in E2 as (K2 & SK2 & _ & X2 & Y2).
  rewrite K1, K2, SK1, SK2, X1, Y1, X2, Y2. unfold supports_step. destruct (supports_problem c); cbn; auto 8. Qed.
(** Setting values, both kinds of bounds and the objective determines the whole programme. *)
Definition set_everything values lpi only lo up items mx : list op :=
  [SetValues values lpi only; SetBounds lo bt_lo; SetBounds up bt_up; SetObjective items mx].
Theorem C23_everything_afresh t c values lpi only lo up items mx s1 s2 s1' s2' :
  run t c (set_everything values lpi only lo up items mx) (Some s1) = Some s1' ->
  run t c (set_everything values lpi only lo up items mx) (Some s2) = Some s2' -> s1' = s2'.
Proof.
  unfold run, set_everything. cbn [fold_left step].
  destruct (set_values t c values lpi only s1) as [u1|] eqn:E1; [|discriminate]. destruct (set_values t c values lpi only s2) as [u2|] eqn:E2; [|intros _; discriminate].
  destruct (C23_values_afresh t c values lpi only s1 s2 u1 u2 E1 E2) as (K & SK & X1 & Y1 & X2 & Y2). clear E1 E2.
  destruct (set_bounds t c lo bt_lo u1) as [v1|] eqn:E1; [|discriminate]. destruct (set_bounds t c lo bt_lo u2) as [v2|] eqn:E2; [|intros _; discriminate].
  assert (Q : known v1 = known v2 /\ semiknown v1 = semiknown v2 /\ lower v1 = lower v2 /\ extra_equalities v1 = extra_equalities v2 /\ extra_inequalities v1 = extra_inequalities v2).
  { unfold set_bounds in E1, E2. destruct (sanitised_bounds lo) as [d|]; [|discriminate]. rewrite K in E1. destruct t.
    - destruct (update_bounds lo_ok (known u2) (default_lower c)) as [l0|]; [|discriminate]. destruct (update_bounds lo_ok (known u2) (update meq l0 d)) as [l1|]; [|discriminate].
      injection E1 as <-. injection E2 as <-. cbn. rewrite X1, X2, Y1, Y2. auto.
    - injection E1 as <-. injection E2 as <-. cbn. rewrite X1, X2, Y1, Y2. auto. }
  clear E1 E2 K SK X1 Y1 X2 Y2. destruct Q as (K & SK & L & X & Y).
  destruct (set_bounds t c up bt_up v1) as [w1|] eqn:E1; [|discriminate]. destruct (set_bounds t c up bt_up v2) as [w2|] eqn:E2; [|intros _; discriminate].
  assert (Q : known w1 = known w2 /\ semiknown w1 = semiknown w2 /\ lower w1 = lower w2 /\ upper w1 = upper w2 /\ extra_equalities w1 = extra_equalities w2 /\ extra_inequalities w1 = extra_inequalities w2).
  { unfold set_bounds in E1, E2. destruct (sanitised_bounds up) as [d|]; [|discriminate]. rewrite K in E1. destruct t.
    - destruct (update_bounds up_ok (known v2) d) as [l0|]; [|discriminate]. injection E1 as <-. injection E2 as <-. cbn. auto 8.
    - injection E1 as <-. injection E2 as <-. cbn. auto 8. }
  clear E1 E2 K SK X Y L. destruct Q as (K & SK & L & U & X & Y). unfold set_objective. rewrite K, SK. destruct items as [items|].
  - destruct (supports_problem c); [discriminate|]. set (o := with_constant t _). destruct (forallb _ _); [|discriminate]. destruct t.
    + destruct (update_objective o (known w2) (semiknown w2)) as [p|]; [|discriminate]. intros E1 E2. injection E1 as <-. injection E2 as <-. destruct w1, w2; cbn in *; subst; reflexivity.
    + intros E1 E2. injection E1 as <-. injection E2 as <-. destruct w1, w2; cbn in *; subst; reflexivity.
  - intros E1 E2. injection E1 as <-. injection E2 as <-. destruct w1, w2; cbn in *; subst; reflexivity. Qed.
(** set_values alone never adds a bound outside problems about supports, and removes only
    those of known moments ... *)
Theorem C23_bounds_only_shrink c values lpi only s s' : supports_problem c = false -> set_values sdp c values lpi only s = Some s' ->
  forall m, get meq m (lower s') = (if mmem m (keys (known s')) then None else get meq m (lower s)) /\
            get meq m (upper s') = (if mmem m (keys (known s')) then None else get meq m (upper s)).
Proof.
  intros SP E m. rewrite set_values_is in E. cbn [cleanup] in E. unfold cleanup_sdp, supports_step in E. rewrite SP in E.
  destruct (update_bounds lo_ok _ _) as [l|] eqn:L; [|discriminate]. destruct (update_bounds up_ok _ _) as [u|] eqn:U; [|discriminate].
  destruct (update_objective _ _ _) as [p|]; [|discriminate]. injection E as <-. cbn [with_values with_objective with_bounds known lower upper] in *.
  split; [apply (update_bounds_get _ _ _ _ L m)|apply (update_bounds_get _ _ _ _ U m)]. Qed.
(** ... so it does depend on the history: the lower bound 0 of a Hermitian moment disappears
    for good once the moment has been known. *)
Theorem C23_bounds_refuted : exists c h1 h2 values s1 s2 m,
  run sdp c (h1 ++ [SetValues values false false]) (generated sdp c) = Some s1 /\
  run sdp c (h2 ++ [SetValues values false false]) (generated sdp c) = Some s2 /\
  get meq m (lower s1) = Some 0%Qc /\ get meq m (lower s2) = None /\ get meq m (known s2) = None /\ In m (hermitian_moments c).
Proof.
  set (r := fun h => run sdp ex_ctx (h ++ [SetValues [([1], Some (q 1 3))] false false]) (generated sdp ex_ctx)).
  set (h := [SetValues [([0], Some (q 1 2))] false false]).
  destruct (r []) as [s1|] eqn:E1; [|apply (f_equal (fun o => match o with Some _ => true | None => false end)) in E1; vm_compute in E1; discriminate].
  destruct (r h) as [s2|] eqn:E2; [|apply (f_equal (fun o => match o with Some _ => true | None => false end)) in E2; vm_compute in E2; discriminate].
  exists ex_ctx, [], h, [([1], Some (q 1 3))], s1, s2, [0]. split; [exact E1|]. split; [exact E2|].
  assert (C1 : match r [] with Some s => match get meq [0] (lower s) with Some v => Qc_eq_bool v 0 | None => false end | None => false end = true) by (vm_compute; reflexivity).
  assert (C2 : match r h with Some s => negb (is_some (get meq [0] (lower s))) && negb (is_some (get meq [0] (known s))) | None => false end = true) by (vm_compute; reflexivity).
  rewrite E1 in C1. rewrite E2 in C2. split; [|split; [|split]].
  - destruct (get meq [0] (lower s1)); [|discriminate]. apply Qc_eq_bool_correct in C1. congruence.
  - destruct (get meq [0] (lower s2)); [discriminate|reflexivity].
  - destruct (get meq [0] (known s2)); [|reflexivity]. cbn in C2. rewrite andb_false_r in C2. discriminate.
  - left. reflexivity. Qed.
(** [run] from a generated programme is not vacuous: see C22_example; setting everything *)
Example C23_example : is_some (run sdp ex_ctx (set_everything ex_values true false [([2], (- q 1 1)%Qc)] [([2], q 1 1)] (Some [([2], q 3 1)]) true) (generated sdp ex_ctx)) = true.
Proof. vm_compute. reflexivity. Qed.

(** ** C36: dictionaries of moments *)
(** Coefficients of keys denoting the same moment are added up; only coefficients of at most
    1e-8 are dropped, so the value changes at most by their share. *)
Theorem C36_linear {K} (san : K -> moment) items :
  NoDup (keys (sanitise_dict san items)) /\
  (forall x, expr_at x (sanitise_dict san items) = expr_at (fun k => x (san k)) (filter (fun p => negb (isclose0 (snd p))) items)) /\
  (forall m, In m (keys (sanitise_dict san items)) <-> exists k v, In (k, v) items /\ san k = m /\ isclose0 v = false).
Proof. split; [apply sanitise_nodup|]. split; [intros x; apply sanitise_value|]. intros m. apply sanitise_key. Qed.
Theorem C36_value_changes_little {K} (san : K -> moment) items x bound : (forall m, - bound <= x m /\ x m <= bound)%Qc -> (0 <= bound)%Qc ->
  (qabs (expr_at (fun k => x (san k)) items - expr_at x (sanitise_dict san items)) <= z2q (Z.of_nat (length items)) * (atol * bound))%Qc.
Proof.
  intros XB B0. rewrite sanitise_value.
  assert (D : forall l : list (K * Qc), (expr_at (fun k => x (san k)) l - expr_at (fun k => x (san k)) (filter (fun p => negb (isclose0 (snd p))) l))%Qc =
     sumQ (map (fun p => if isclose0 (snd p) then snd p * x (san (fst p)) else 0)%Qc l)).
  { intros l. unfold expr_at. induction l as [|p l IH]; cbn [filter map]; [rewrite sumQ_nil; ring|]. rewrite !sumQ_cons.
    destruct (isclose0 (snd p)); cbn [negb map]; rewrite ?sumQ_cons, <- IH; ring. }
  rewrite D. clear D.
  assert (A : (0 <= atol)%Qc) by (apply (proj1 (qleb_true 0%Qc atol)); vm_compute; reflexivity).
  assert (T : forall v y, isclose0 v = true -> (- bound <= y /\ y <= bound)%Qc -> (qabs (v * y) <= atol * bound)%Qc).
  { intros v y C Y. unfold isclose0, isclose in C. apply qleb_true in C. replace (v - 0)%Qc with v in C by ring. replace (qabs 0) with 0%Qc in C by (apply Qc_is_canon; vm_compute; reflexivity).
    replace (atol + rtol * 0)%Qc with atol in C by ring. revert A C Y. generalize atol. intros w A C (Y1 & Y2).
    assert (V : (- w <= v /\ v <= w)%Qc) by (destruct (qabs_case v) as [(V & E)|(V & E)]; rewrite E in C; split; qclra).
    destruct V as (V1 & V2). destruct (qabs_case (v * y)) as [(P & ->)|(P & ->)]; qcnra. }
  assert (TR : forall a b, (qabs (a + b) <= qabs a + qabs b)%Qc).
  { intros a b. destruct (qabs_case a) as [(P1 & ->)|(P1 & ->)], (qabs_case b) as [(P2 & ->)|(P2 & ->)], (qabs_case (a + b)) as [(P3 & ->)|(P3 & ->)]; qclra. }
  induction items as [|p items IH]; cbn [map length].
  - rewrite sumQ_nil. replace (qabs 0) with 0%Qc by (apply Qc_is_canon; vm_compute; reflexivity). replace (z2q (Z.of_nat 0)) with 0%Qc by (apply Qc_is_canon; vm_compute; reflexivity).
    replace (0 * (atol * bound))%Qc with 0%Qc by ring. apply Qcle_refl.
  - rewrite sumQ_cons. eapply Qcle_trans; [apply TR|].
    assert (S1 : (qabs (if isclose0 (snd p) then snd p * x (san (fst p)) else 0) <= atol * bound)%Qc).
    { destruct (isclose0 (snd p)) eqn:C; [apply T; [assumption|apply XB]|]. replace (qabs 0) with 0%Qc by (apply Qc_is_canon; vm_compute; reflexivity). revert A. generalize atol. intros w A. qcnra. }
    assert (Z1 : z2q (Z.of_nat (S (length items))) = (1 + z2q (Z.of_nat (length items)))%Qc).
    { rewrite Nat2Z.inj_succ. unfold z2q, Z.succ. apply Qc_is_canon. unfold Qcplus. cbn [this Q2Qc]. rewrite !Qred_correct, inject_Z_plus. rewrite Qplus_comm. reflexivity. }
    rewrite Z1. replace ((1 + z2q (Z.of_nat (length items))) * (atol * bound))%Qc with (atol * bound + z2q (Z.of_nat (length items)) * (atol * bound))%Qc by ring.
    apply Qcplus_le_compat; assumption. Qed.
Example C36_example : map (fun p => (fst p, this (snd p))) (sanitise_dict (fun k : bool * moment => snd k) [((true, [0]), q 1 2); ((false, [0]), q 1 3); ((true, [1]), q 1 1000000000)]) = [([0], Qmake 5 6)].
Proof. vm_compute. reflexivity. Qed.

(** ** C39: bounds of a semidefinite programme *)
(** Known moments never carry bounds. *)
Theorem C39_known_have_no_bounds c s : reachable sdp c s -> forall m, In m (keys (known s)) -> get meq m (lower s) = None /\ get meq m (upper s) = None.
Proof. intros R. apply reachable_unbounded in R. exact R. Qed.
(** set_bounds succeeds exactly when the requested bounds do not contradict each other nor a
    known value, and then the bounds are exactly those requested (for lower bounds with 0 for
    the other Hermitian moments), without those of known moments. *)
Theorem C39_set_upper c s bounds : reachable sdp c s ->
  ((exists s', set_bounds sdp c bounds bt_up s = Some s') <->
     consistent_request bounds /\ forall m v b, get meq m (known s) = Some v -> requested bounds m = Some b -> (v <= b)%Qc) /\
  (forall s', set_bounds sdp c bounds bt_up s = Some s' -> known s' = known s /\ lower s' = lower s /\
     forall m, get meq m (upper s') = if mmem m (keys (known s)) then None else requested bounds m).
Proof.
  intros R. pose proof (wf_known _ (reachable_wf sdp c s R)) as NK. unfold set_bounds. pose proof (sanitised_iff bounds) as SI.
  destruct (sanitised_bounds bounds) as [d|] eqn:SB.
  - pose proof (sanitised_get bounds d SB) as SG. pose proof (update_bounds_iff up_ok (known s) d NK) as UI. split.
    + split.
      * intros (s' & E). split; [apply SI; eauto|]. intros m v b G B. destruct (update_bounds up_ok (known s) d) as [u|] eqn:U; [|discriminate].
        apply (proj1 (qleb_true v b)). apply (proj1 UI (ex_intro _ u eq_refl) m v b G). rewrite SG. assumption.
      * intros (_ & H). destruct (proj2 UI) as (u & U). { intros m v x G B. rewrite SG in B. unfold up_ok. apply qleb_true. eauto. } rewrite U. eauto.
    + intros s' E. destruct (update_bounds up_ok (known s) d) as [u|] eqn:U; [|discriminate]. injection E as <-. cbn. split; [reflexivity|]. split; [reflexivity|].
      intros m. rewrite (update_bounds_get _ _ _ _ U m), SG. reflexivity.
  - split; [|discriminate]. split; [intros (s' & E); discriminate|]. intros (CR & _). exfalso. apply SI in CR as (d & E). discriminate. Qed.
Theorem C39_set_lower c s bounds : reachable sdp c s ->
  ((exists s', set_bounds sdp c bounds bt_lo s = Some s') <->
     consistent_request bounds /\ (forall m v b, get meq m (known s) = Some v -> requested bounds m = Some b -> (b <= v)%Qc) /\
     (forall m v, get meq m (known s) = Some v -> In m (hermitian_moments c) -> (0 <= v)%Qc)) /\
  (forall s', set_bounds sdp c bounds bt_lo s = Some s' -> known s' = known s /\ upper s' = upper s /\
     forall m, get meq m (lower s') = if mmem m (keys (known s)) then None else lower_request c bounds m).
Proof.
  intros R. pose proof (wf_known _ (reachable_wf sdp c s R)) as NK. unfold set_bounds. pose proof (sanitised_iff bounds) as SI.
  destruct (sanitised_bounds bounds) as [d|] eqn:SB.
  - pose proof (sanitised_get bounds d SB) as SG. pose proof (sanitised_nodup bounds d SB) as SN. pose proof (update_bounds_iff lo_ok (known s) (default_lower c) NK) as DI.
    assert (D0 : forall l0, update_bounds lo_ok (known s) (default_lower c) = Some l0 -> forall m, get meq m (update meq l0 d) = match requested bounds m with Some b => Some b | None => if mmem m (keys (known s)) then None else if mmem m (hermitian_moments c) then Some 0%Qc else None end).
    { intros l0 L0 m. rewrite get_update by assumption. rewrite SG, (update_bounds_get _ _ _ _ L0 m), default_get. reflexivity. }
    split.
    + split.
      * intros (s' & E). split; [apply SI; eauto|]. destruct (update_bounds lo_ok (known s) (default_lower c)) as [l0|] eqn:L0; [|discriminate].
        destruct (update_bounds lo_ok (known s) (update meq l0 d)) as [l|] eqn:L; [|discriminate]. split.
        -- intros m v b G B. apply (proj1 (qleb_true b v)). pose proof (update_bounds_iff lo_ok (known s) (update meq l0 d) NK) as LI. apply (proj1 LI (ex_intro _ l L) m v b G). rewrite (D0 l0 eq_refl), B. reflexivity.
        -- intros m v G H. apply (proj1 (qleb_true 0%Qc v)). apply (proj1 DI (ex_intro _ l0 eq_refl) m v 0%Qc G). rewrite default_get. apply mmem_iff in H. rewrite H. reflexivity.
      * intros (_ & H1 & H2). destruct (proj2 DI) as (l0 & L0).
        { intros m v x G B. rewrite default_get in B. destruct (mmem m (hermitian_moments c)) eqn:M; [|discriminate]. assert (x = 0%Qc) as -> by congruence. apply mmem_iff in M. unfold lo_ok. apply qleb_true. eauto. }
        rewrite L0. destruct (proj2 (update_bounds_iff lo_ok (known s) (update meq l0 d) NK)) as (l & L).
        { intros m v x G B. rewrite (D0 l0 L0) in B. destruct (requested bounds m) eqn:RB.
          - assert (x = q0) as -> by congruence. unfold lo_ok. apply qleb_true. eauto.
          - rewrite mmem_keys, G in B. discriminate. }
        rewrite L. eauto.
    + intros s' E. destruct (update_bounds lo_ok (known s) (default_lower c)) as [l0|] eqn:L0; [|discriminate].
      destruct (update_bounds lo_ok (known s) (update meq l0 d)) as [l|] eqn:L; [|discriminate]. injection E as <-. cbn. split; [reflexivity|]. split; [reflexivity|].
      intros m. rewrite (update_bounds_get _ _ _ _ L m), (D0 l0 eq_refl). unfold lower_request. destruct (mmem m (keys (known s))); [reflexivity|]. reflexivity.
  - split; [|discriminate]. split; [intros (s' & E); discriminate|]. intros (CR & _). exfalso. apply SI in CR as (d & E). discriminate. Qed.
(** A value contradicting a bound is detected when it is set. *)
Theorem C39_contradiction_is_detected c values lpi only s s' : reachable sdp c s -> supports_problem c = false -> set_values sdp c values lpi only s = Some s' ->
  forall m v, get meq m (known s') = Some v -> (forall b, get meq m (lower s) = Some b -> (b <= v)%Qc) /\ (forall b, get meq m (upper s) = Some b -> (v <= b)%Qc).
Proof.
  intros R SP E m v G. pose proof (wf_known _ (wf_set sdp c values lpi only s s' E)) as NK. rewrite set_values_is in E. cbn [cleanup] in E. unfold cleanup_sdp, supports_step in E. rewrite SP in E.
  destruct (update_bounds lo_ok _ _) as [l|] eqn:L; [|discriminate]. destruct (update_bounds up_ok _ _) as [u|] eqn:U; [|discriminate].
  destruct (update_objective _ _ _) as [p|]; [|discriminate]. injection E as <-. cbn [with_values with_objective with_bounds known lower upper reset_values with_extra] in *.
  split; intros b B.
  - apply (proj1 (qleb_true b v)). exact (proj1 (update_bounds_iff lo_ok _ _ NK) (ex_intro _ l L) m v b G B).
  - apply (proj1 (qleb_true v b)). exact (proj1 (update_bounds_iff up_ok _ _ NK) (ex_intro _ u U) m v b G B). Qed.
Example C39_example :
  option_map (fun s => (map (fun p => (fst p, this (snd p))) (lower s), map (fun p => (fst p, this (snd p))) (upper s)))
    (run sdp ex_ctx [SetValues ex_values true false; SetBounds [([2], (- q 1 1)%Qc); ([0], q 1 4)] bt_lo; SetBounds [([2], q 1 1)] bt_up] (generated sdp ex_ctx)) =
  Some ([([2], Qmake (-1) 1)], [([2], Qmake 1 1)]) /\
  run sdp ex_ctx [SetValues ex_values true false; SetBounds [([0], q 3 4)] bt_lo] (generated sdp ex_ctx) = None.
Proof. split; vm_compute; reflexivity. Qed.

(** ** C40: the objective of the solver *)
(** In every reachable state the objective passed to the solver takes the value of the
    objective set by the user at every point with the known values. *)
Theorem C40_same_value t c s x : reachable t c s -> x One = 1%Qc -> (forall m v, get meq m (known s) = Some v -> x m = v) ->
  expr_at x (processed s) = expr_at x (ProgramModel.objective s).
Proof. intros R. apply (ow_value _ _ (reachable_objective t c s R)). Qed.
(** It mentions no known moment but the normalisation. *)
Theorem C40_no_known_moments c s m : reachable sdp c s -> In m (keys (processed s)) -> m = One \/ ~ In m (keys (known s)).
Proof.
  intros R I. destruct (meq m One) as [|NE]; [left; assumption|]. right. intros K. pose proof (ow_clean _ _ (reachable_objective sdp c s R) eq_refl m NE) as G.
  apply mmem_iff in K. rewrite K in G. apply (get_none meq) in G. contradiction. Qed.
(** Setting an objective fails exactly when it mentions a semi-known moment (lines 2035-2040
    are wrong, but never give a wrong objective). *)
Theorem C40_fails_exactly c s items mx : reachable sdp c s -> supports_problem c = false -> (forall m, In m (keys (sanitise_dict (fun m => m) items)) -> In m (moments c)) -> In One (moments c) ->
  set_objective sdp c (Some items) mx s = None <-> exists m v, In (m, v) items /\ isclose0 v = false /\ In m (keys (semiknown s)).
Proof.
  intros R SP IM I1. unfold set_objective. rewrite SP. set (o := map _ (sanitise_dict _ items)). set (o' := with_constant sdp o).
  assert (KO : keys o = keys (sanitise_dict (fun m => m) items)) by apply (keys_map_snd (fun p => if mx then snd p else (- snd p)%Qc)).
  assert (KO' : forall m, In m (keys o') <-> m = One \/ In m (keys o)).
  { intros m. subst o'. cbn [with_constant]. destruct (get meq One o) eqn:G.
    - split; [auto|]. intros [->|I]; [|assumption]. apply (in_keys_get meq). eauto.
    - unfold keys. rewrite map_app, in_app_iff. cbn. intuition. }
  assert (F : forallb (fun m => mmem m (moments c)) (keys o') = true).
  { apply forallb_forall. intros m I. apply mmem_iff. apply KO' in I as [->|I]; [assumption|]. apply IM. rewrite <- KO. assumption. }
  rewrite F, update_objective_is.
  destruct (existsb (fun m => is_some (get meq m (substituted o' (known s)))) (keys (semiknown s))) eqn:X.
  - split; [intros _|reflexivity]. apply existsb_exists in X as (m & I & G). assert (NE : m <> One) by (intros ->; apply (reachable_semi_products sdp c s R) in I as (L & _); cbn in L; lia).
    rewrite substituted_get in G by assumption. destruct (mmem m (keys (known s))); [discriminate|].
    apply (is_some_get meq) in G. apply KO' in G as [G|G]; [contradiction|]. rewrite KO in G. apply sanitise_key in G as (k & v & IV & <- & C). eauto.
  - split; [discriminate|]. intros (m & v & I & C & SI). exfalso.
    assert (NE : m <> One) by (intros ->; apply (reachable_semi_products sdp c s R) in SI as (L & _); cbn in L; lia).
    assert (T : existsb (fun m => is_some (get meq m (substituted o' (known s)))) (keys (semiknown s)) = true); [|congruence].
    apply existsb_exists. exists m. split; [assumption|]. rewrite substituted_get by assumption.
    destruct (mmem m (keys (known s))) eqn:M; [apply mmem_iff in M; exfalso; exact (wf_disjoint _ (reachable_wf sdp c s R) m M SI)|].
    apply (is_some_get meq). apply KO'. right. rewrite KO. apply sanitise_key. eauto. Qed.
Example C40_example : option_map (fun s => map (fun p => (fst p, this (snd p))) (processed s))
    (run sdp ex_ctx [SetObjective (Some [([2], q 2 1); ([0; 1], q 3 1)]) true; SetValues ex_values false false] (generated sdp ex_ctx)) = Some [([2], Qmake 2 1); ([], Qmake 1 2)] /\
  run sdp ex_ctx [SetValues ex_values true false; SetObjective (Some [([0; 2], q 2 1)]) true] (generated sdp ex_ctx) = None.
Proof. split; vm_compute; reflexivity. Qed.

(** ** C25: extra constraints *)
(** Linear programmes: a point is feasible for the task given to the solver exactly when it
    satisfies the minimal constraints, the extra constraints, the known and semi-known
    values, the bounds and (if asked for) non-negativity; and the objective is the user's. *)
Theorem C25_lp_constraints_reach_the_solver P nonneg c s a t x : programme_ok P -> reachable lp c s ->
  (forall d, In d (extra_equalities s) -> d <> []) -> (forall d, In d (extra_inequalities s) -> d <> []) ->
  (nonneg = true -> forall m v, In (m, v) (lower s) -> (0 <= v)%Qc) ->
  prepare_lp P nonneg false false s = Some a -> prepare a = Some t ->
  (task_feasible (primal_task a t) x <-> lp_point P nonneg s (fun m => x (column P m))) /\
  task_value (primal_task a t) x = expr_at (fun m => x (column P m)) (ProgramModel.objective s).
Proof.
  intros OK R E1 E2 LB EP ET.
  assert (W : NoDup (keys (known s)) /\ NoDup (keys (ProgramModel.objective s)) /\ NoDup (keys (lower s)) /\ NoDup (keys (upper s))).
  { destruct (reachable_bounds_nodup lp c s R) as (N1 & N2). pose proof (wf_known _ (reachable_wf lp c s R)). pose proof (ow_nodup _ _ (reachable_objective lp c s R)). auto. }
  pose proof (args_are_ok P nonneg s a OK W (conj E1 E2) false false EP) as AO.
  assert (LN : lower_bounds_nonneg a).
  { intros _ NN e I. rewrite (prepared_is P nonneg s a false false EP) in NN, I. cbn in NN. apply coo_vec_in in I as (m & v & I & ->). exact (LB NN m v I). }
  destruct (C26_primal_task_is_the_problem _ a t AO LN ET x) as (F & V & _).
  assert (RX : relaxed a = false) by (rewrite (prepared_is P nonneg s a false false EP); reflexivity).
  split.
  - rewrite F, <- (linked P nonneg s a OK (conj E1 E2) false false EP x eq_refl eq_refl).
    assert (FL : relax_known_vars a = false /\ relax_inequalities a = false) by (rewrite (prepared_is P nonneg s a false false EP); auto). destruct FL as (FL1 & FL2).
    split; intros [Q1 Q2 Q3 Q4 Q5 Q6]; constructor; auto; rewrite ?FL1, ?FL2 in *; auto.
  - rewrite V. unfold problem_value. rewrite RX. apply (linked_objective P nonneg s a false false EP). Qed.
(** The task exists. *)
Theorem C25_lp_task_is_built P nonneg rk ri c s a : programme_ok P -> reachable lp c s ->
  (forall d, In d (extra_equalities s) -> d <> []) -> (forall d, In d (extra_inequalities s) -> d <> []) ->
  prepare_lp P nonneg rk ri s = Some a -> exists t, prepare a = Some t.
Proof.
  intros OK R E1 E2 EP.
  assert (W : NoDup (keys (known s)) /\ NoDup (keys (ProgramModel.objective s)) /\ NoDup (keys (lower s)) /\ NoDup (keys (upper s))).
  { destruct (reachable_bounds_nodup lp c s R) as (N1 & N2). pose proof (wf_known _ (reachable_wf lp c s R)). pose proof (ow_nodup _ _ (reachable_objective lp c s R)). auto. }
  destruct (C26_tasks_are_built _ a (args_are_ok P nonneg s a OK W (conj E1 E2) rk ri EP)) as (t & d & E & _). eauto. Qed.
(** What the extra constraints are: the user's, aggregated (see C36). *)
Theorem C25_extra_constraints_are_the_users t c l s s' : step t c (SetExtraEqualities l) s = Some s' ->
  length (extra_equalities s') = length l /\ forall x i, i < length l ->
    expr_at x (nth i (extra_equalities s') []) = expr_at x (filter (fun p => negb (isclose0 (snd p))) (nth i l [])).
Proof.
  intros E. injection E as <-. cbn. rewrite map_length. split; [reflexivity|]. intros x i I. rewrite (nth_indep _ [] (sanitise_dict (fun m => m) [])) by (rewrite map_length; assumption).
  rewrite map_nth. apply (sanitise_value (fun m => m)). Qed.
Theorem C25_extra_inequalities_are_the_users t c l s s' : step t c (SetExtraInequalities l) s = Some s' ->
  length (extra_inequalities s') = length l /\ forall x i, i < length l ->
    expr_at x (nth i (extra_inequalities s') []) = expr_at x (filter (fun p => negb (isclose0 (snd p))) (nth i l [])).
Proof.
  intros E. injection E as <-. cbn. rewrite map_length. split; [reflexivity|]. intros x i I. rewrite (nth_indep _ [] (sanitise_dict (fun m => m) [])) by (rewrite map_length; assumption).
  rewrite map_nth. apply (sanitise_value (fun m => m)). Qed.
(** Semidefinite programmes: the extra constraints are not passed to the solver at all ... *)
Theorem C25_sdp_ignores_extra_constraints_refuted c s e i : prepare_sdp c (with_extra e i s) = prepare_sdp c s.
Proof. reflexivity. Qed.
(** ... and in both cases a later set_values discards them (C23_values_afresh). *)
Theorem C25_discarded_by_set_values_refuted t c l values lpi only s s' :
  run t c [SetExtraEqualities l; SetExtraInequalities l; SetValues values lpi only] (Some s) = Some s' -> extra_equalities s' = [] /\ extra_inequalities s' = [].
Proof.
  unfold run. cbn [fold_left step]. intros E. destruct (C23_values_afresh t c values lpi only _ _ s' s' E E) as (_ & _ & X & Y & _). auto. Qed.

(** a linear programme with columns 1, a, b, ab and a >= ab; extra: a = b and 2b >= a *)
Definition lp_ctx : context := {|
  moments := [[]; [0]; [1]; [0; 1]]; is_knowable := fun _ => true; dagger := fun a => a; is_zero := fun _ => false; is_one := fun _ => false;
  hermitian_moments := []; zero_moment := None; supports_problem := false; minimal_equalities := []; minimal_inequalities := [] |}.
Definition lp_prog : lp_programme := {| columns := moments lp_ctx; minimal_sparse_equalities := Coo 0 4 []; minimal_sparse_inequalities := Coo 1 4 [(0, 1, 1%Qc); (0, 3, (- (1))%Qc)] |}.
Definition lp_ops : list op := [SetValues [([0], Some (q 1 2))] true false; SetExtraEqualities [[([0], q 1 1); ([1], (- q 1 1)%Qc)]]; SetExtraInequalities [[([1], q 2 1); ([0], (- q 1 1)%Qc)]]].
Lemma lp_prog_ok : programme_ok lp_prog.
Proof.
  constructor; cbn.
  - repeat constructor; cbn; intuition discriminate.
  - discriminate.
  - constructor; [left; reflexivity|intros e []|cbn; intros; lia].
  - constructor; [left; reflexivity| |].
    + intros e [<-|[<-|[]]]; cbn; split; lia.
    + cbn. intros i I. exists (0, 1, 1%Qc). split; [left; reflexivity|]. cbn. lia.
  - lia. Qed.
Example C25_example : exists s a, run lp lp_ctx lp_ops (generated lp lp_ctx) = Some s /\
  (forall d, In d (extra_equalities s) -> d <> []) /\ (forall d, In d (extra_inequalities s) -> d <> []) /\ (forall m v, In (m, v) (lower s) -> (0 <= v)%Qc) /\
  prepare_lp lp_prog true false false s = Some a /\ length (extra_equalities s) = 1 /\ length (extra_inequalities s) = 1 /\ length (semiknown s) = 1.
Proof.
  destruct (run lp lp_ctx lp_ops (generated lp lp_ctx)) as [s|] eqn:E; [|apply (f_equal (fun o => match o with Some _ => true | None => false end)) in E; vm_compute in E; discriminate].
  destruct (prepare_lp lp_prog true false false s) as [a|] eqn:EP.
  - exists s, a. assert (C : match run lp lp_ctx lp_ops (generated lp lp_ctx) with Some s => map (@length _) (extra_equalities s) = [2] /\ map (@length _) (extra_inequalities s) = [2] /\ lower s = [] /\ length (semiknown s) = 1 | None => False end) by (vm_compute; auto).
    rewrite E in C. destruct C as (C1 & C2 & C3 & C4). split; [reflexivity|]. split; [|split; [|split; [|split; [exact EP|split; [|split; [|exact C4]]]]]].
    + intros d I ->. destruct (extra_equalities s) as [|d1 [|d2 l]]; try discriminate. destruct I as [->|[]]. discriminate.
    + intros d I ->. destruct (extra_inequalities s) as [|d1 [|d2 l]]; try discriminate. destruct I as [->|[]]. discriminate.
    + rewrite C3. intros m v [].
    + apply (f_equal (@length nat)) in C1. rewrite map_length in C1. exact C1.
    + apply (f_equal (@length nat)) in C2. rewrite map_length in C2. exact C2.
  - exfalso. assert (C : match run lp lp_ctx lp_ops (generated lp lp_ctx) with Some s => is_some (prepare_lp lp_prog true false false s) | None => false end = true) by (vm_compute; reflexivity).
    rewrite E, EP in C. discriminate. Qed.
