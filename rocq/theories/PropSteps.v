(** C55: values can be given in several calls.  set_values and update_values: ProgramModel. *)
From Coq Require Import List Arith Bool QArith Qcanon Lia.
From Verif Require Import MargModel QcSum SearchModel SearchProofs ProgramModel ProgramSpec ProgramProofs ProgramProofs2 ProgramProofs3.
Import ListNotations.
Close Scope Q_scope. Open Scope nat_scope. Open Scope list_scope.

Definition table := list (moment * option Qc).
Lemma given_app (v w : table) m : given (v ++ w) m = match given w m with Some x => Some x | None => given v m end.
Proof.
  induction v as [|p v IH]; cbn [app]; [destruct (given w m); reflexivity|]. rewrite !given_cons, IH. destruct (given w m); [reflexivity|]. reflexivity.
Qed.
Lemma base_app t c (v w : table) m : base t c (v ++ w) m = match given w m with Some x => Some x | None => base t c v m end.
Proof. unfold base. rewrite given_app. destruct (given w m); reflexivity. Qed.
Lemma given_in (v : table) m x : given v m = Some x -> exists p, In p v /\ fst p = m.
Proof.
  induction v as [|p v IH]; [discriminate|]. rewrite given_cons. destruct (given v m) as [y|].
  - intros E0. destruct (IH E0) as (q & I & E). exists q. split; [right; exact I|exact E].
  - destruct (meq (fst p) m) as [E|]; [|discriminate]. intros _. exists p. split; [left; reflexivity|exact E].
Qed.
Lemma valued_app t c (v w : table) a : valued t c v a = true -> valued t c (v ++ w) a = true.
Proof.
  unfold valued, atom_value. rewrite !base_app. destruct (given w [dagger c a]); [reflexivity|]. destruct (base t c v [dagger c a]); [reflexivity|]. destruct (given w [a]); [reflexivity|]. auto.
Qed.
Lemma all_valued_app t c (v w : table) m : forallb (valued t c v) m = true -> forallb (valued t c (v ++ w)) m = true.
Proof. rewrite !forallb_forall. intros H a I. apply valued_app, H, I. Qed.

(** ** Everything in update_values depends on the values of single factors only *)
Section Same.
Variables a b : list (nat * Qc).
Hypothesis SAME : forall x, get Nat.eq_dec x a = get Nat.eq_dec x b.
Lemma evaluate_same m lpi : evaluate a m lpi = evaluate b m lpi.
Proof.
  unfold evaluate. assert (U : filter (fun x => negb (is_some (get Nat.eq_dec x a))) m = filter (fun x => negb (is_some (get Nat.eq_dec x b))) m) by (apply filter_ext; intros x; rewrite SAME; reflexivity).
  assert (F : flat_map (fun x => match get Nat.eq_dec x a with Some v => [v] | None => [] end) m = flat_map (fun x => match get Nat.eq_dec x b with Some v => [v] | None => [] end) m) by (apply flat_map_ext; intros x; rewrite SAME; reflexivity).
  rewrite U, F. reflexivity.
Qed.
Lemma keys_same x : In x (keys a) <-> In x (keys b).
Proof. rewrite !(in_keys_get Nat.eq_dec). rewrite SAME. reflexivity. Qed.
Lemma remaining_same c lpi : remaining c lpi a = remaining c lpi b.
Proof.
  unfold remaining. assert (E : forallb (is_knowable c) (keys a) = forallb (is_knowable c) (keys b)).
  { apply eq_true_iff_eq. rewrite !forallb_forall. split; intros H x I; apply H, keys_same, I. }
  rewrite E. reflexivity.
Qed.
End Same.

Section Steps.
Variables (t : kind) (c : context).
Hypothesis DI : dagger_involutive c.
(** values are given to moments of the programme, if they are given to single factors *)
Definition on_columns (v : table) : Prop := forall p, In p v -> length (fst p) = 1 -> In (fst p) (moments c).
Hypothesis ZERO : forall z, t = sdp -> zero_moment c = Some z -> length z = 1 -> In z (moments c).

Definition holds (v : table) (d : mdict Qc) : Prop := forall m, get meq m d = if mmem m (moments c) then known_value t c v false m else None.
Lemma known_value_1 v x : known_value t c v false [x] = base t c v [x].
Proof. reflexivity. Qed.
Lemma single_in v x y : on_columns v -> base t c v [x] = Some y -> In [x] (moments c).
Proof.
  intros OC B. unfold base in B. destruct (given v [x]) as [w|] eqn:G.
  - apply given_in in G as (p & I & E). rewrite <- E. apply (OC p I). rewrite E. reflexivity.
  - destruct (meq [x] One) as [E|]; [discriminate E|]. destruct t eqn:T; [|discriminate B]. destruct (zero_moment c) as [z|] eqn:Z; [|discriminate B]. destruct (meq [x] z) as [<-|]; [|discriminate B].
    apply (ZERO [x] eq_refl eq_refl eq_refl).
Qed.
Lemma step_holds v w d sk : on_columns v -> NoDup (keys d) -> holds v d -> holds (v ++ w) (fst (assign_values c w false false d sk)).
Proof.
  intros OC ND H. unfold assign_values.
  assert (S1 : forall x, get meq [x] (assign d w) = base t c (v ++ w) [x]).
  { intros x. rewrite get_assign, base_app. destruct (given w [x]); [reflexivity|]. rewrite H. destruct (mmem [x] (moments c)) eqn:M; [apply known_value_1|].
    destruct (base t c v [x]) eqn:B; [|reflexivity]. apply (single_in v x _ OC) in B. apply mmem_iff in B. congruence. }
  assert (SAME : forall x, get Nat.eq_dec x (atomic_knowns c (assign d w)) = get Nat.eq_dec x (the_atoms t c (v ++ w))).
  { intros x. rewrite get_the_atoms by exact DI. rewrite get_atomic by (try exact DI; apply nodup_assign, ND). rewrite !S1. reflexivity. }
  intros m. rewrite (proj1 (get_evaluate_all _ _ _ _ _ _ _)). rewrite (remaining_same _ _ SAME).
  assert (KS : known_status false (atomic_knowns c (assign d w)) m = known_status false (the_atoms t c (v ++ w)) m) by (unfold known_status; rewrite (evaluate_same _ _ SAME); reflexivity).
  rewrite KS, known_status_spec by exact DI. rewrite (get_filter meq (fun x => mmem x (moments c))), get_assign.
  unfold known_value at 1, derived. destruct (mmem m (moments c)) eqn:M; [|reflexivity]. cbn [andb orb]. rewrite !orb_false_r.
  destruct ((2 <=? length m) && forallb (valued t c (v ++ w)) m) eqn:D; [reflexivity|]. rewrite base_app. destruct (given w m); [reflexivity|]. rewrite H, M.
  unfold known_value. cbn [andb orb]. rewrite orb_false_r. destruct (2 <=? length m); [|reflexivity]. cbn [andb] in D |- *.
  destruct (forallb (valued t c v) m) eqn:F; [|reflexivity]. apply (all_valued_app t c v w) in F. congruence.
Qed.
Lemma no_semi ms d sk atoms m : get meq m (snd (evaluate_all c false atoms ms d sk)) = get meq m sk.
Proof.
  rewrite (proj2 (get_evaluate_all _ _ _ _ _ _ _)). destruct (mmem m ms); [|reflexivity]. unfold semi_status, evaluate. cbn [negb]. rewrite orb_true_r. destruct (filter _ m); reflexivity.
Qed.

Hypothesis SP : supports_problem c = false.
(** the bounds of unknown moments stay *)
Definition bounds_left (k old new : mdict Qc) : Prop := forall m, get meq m new = match t with sdp => if mmem m (keys k) then None else get meq m old | lp => get meq m old end.
Record after (s0 : state) (v : table) (s : state) : Prop := {
  af_known : holds v (known s); af_nodup : NoDup (keys (known s)); af_semi : forall m, get meq m (semiknown s) = None;
  af_lower : bounds_left (known s) (lower s0) (lower s); af_upper : bounds_left (known s) (upper s0) (upper s);
  af_objective : objective s = objective s0; af_extra : extra_equalities s = [] /\ extra_inequalities s = []
}.
Lemma more_known v w d d' m : holds v d -> holds (v ++ w) d' -> mmem m (keys d) = true -> mmem m (keys d') = true.
Proof.
  intros H H' M. apply mmem_iff in M. apply mmem_iff. apply (in_keys_get meq) in M as (x & G). apply (in_keys_get meq). rewrite H in G. rewrite H'. destruct (mmem m (moments c)); [|discriminate G].
  unfold known_value in *. cbn [andb orb] in *. rewrite orb_false_r in *. destruct (2 <=? length m); cbn [andb] in *.
  - destruct (forallb (valued t c v) m) eqn:F; [rewrite (all_valued_app t c v w m F); eauto|]. destruct (forallb (valued t c (v ++ w)) m); [eauto|]. rewrite base_app. destruct (given w m); [eauto|exists x; exact G].
  - rewrite base_app. destruct (given w m); [eauto|exists x; exact G].
Qed.
(** cleaning up keeps the values, and removes the bounds of known moments *)
Lemma cleanup_effect s s' : cleanup t c s = Some s' -> (forall m, get meq m (semiknown s) = None) ->
  known s' = known s /\ (forall m, get meq m (semiknown s') = None) /\ bounds_left (known s) (lower s) (lower s') /\ bounds_left (known s) (upper s) (upper s') /\
  objective s' = objective s /\ extra_equalities s' = extra_equalities s /\ extra_inequalities s' = extra_inequalities s.
Proof.
  intros E NS. pose proof (cleanup_values _ _ _ _ E) as (K & SK & O & X1 & X2). unfold supports_step in K, SK. rewrite SP in K, SK.
  split; [exact K|]. split; [intros m; rewrite SK, get_pop_all, NS; destruct (mmem m _); reflexivity|].
  assert (B : bounds_left (known s) (lower s) (lower s') /\ bounds_left (known s) (upper s) (upper s')).
  { unfold bounds_left. clear K SK O X1 X2. destruct t; cbn [cleanup] in E; unfold cleanup_sdp, cleanup_lp, supports_step in E; rewrite SP in E.
    - destruct (update_bounds lo_ok _ _) as [lo|] eqn:L; [|discriminate E]. destruct (update_bounds up_ok _ _) as [up|] eqn:U; [|discriminate E]. destruct (update_objective _ _ _); [|discriminate E].
      injection E as <-. cbn [with_values with_objective with_bounds lower upper]. split; intros m0; [exact (update_bounds_get _ _ _ _ L m0)|exact (update_bounds_get _ _ _ _ U m0)].
    - injection E as <-. split; intros m; reflexivity. }
  destruct B as [B1 B2]. repeat (split; [assumption|]). assumption.
Qed.
Lemma update_after s0 v w s s' : on_columns v -> after s0 v s -> update_values t c w false false s = Some s' -> after s0 (v ++ w) s'.
Proof.
  intros OC A E. destruct w as [|p w]; [rewrite app_nil_r; cbn in E; injection E as <-; exact A|]. unfold update_values in E.
  destruct (assign_values c (p :: w) false false (known s) (semiknown s)) as (d, sk) eqn:AV.
  assert (HD : holds (v ++ p :: w) d) by (pose proof (step_holds v (p :: w) (known s) (semiknown s) OC (af_nodup _ _ _ A) (af_known _ _ _ A)) as Q; rewrite AV in Q; exact Q).
  assert (NS : forall m, get meq m sk = None).
  { intros m. unfold assign_values in AV. apply (f_equal snd) in AV. cbn [snd] in AV. rewrite <- AV, no_semi. apply (af_semi _ _ _ A). }
  assert (ND : NoDup (keys d)).
  { unfold assign_values in AV. apply (f_equal fst) in AV. cbn [fst] in AV. rewrite <- AV. assert (N1 : NoDup (keys (assign (known s) (p :: w)))) by (apply nodup_assign, (af_nodup _ _ _ A)).
    assert (N2 : NoDup (keys (filter (fun q : moment * Qc => mmem (fst q) (moments c)) (assign (known s) (p :: w))))) by (apply nodup_filter_keys; exact N1).
    revert N2. generalize (filter (fun q : moment * Qc => mmem (fst q) (moments c)) (assign (known s) (p :: w))). generalize (remaining c false (atomic_knowns c (assign (known s) (p :: w)))). generalize (atomic_knowns c (assign (known s) (p :: w))). intros at_ ms. generalize (semiknown s).
    unfold evaluate_all. induction ms as [|m ms IH]; intros sk0 e Ne; [exact Ne|]. cbn [fold_left]. destruct (evaluate at_ m false) as ((x, u), st). destruct st; [|apply IH, Ne|apply IH, Ne]. apply IH, nodup_set, Ne. }
  apply cleanup_effect in E as (K & SK & L & U & O & X1 & X2); [|exact NS]. cbn [with_values known semiknown lower upper objective extra_equalities extra_inequalities] in *.
  assert (MORE : forall m, mmem m (keys (known s)) = true -> mmem m (keys d) = true) by (intros m; apply (more_known v (p :: w)); [apply (af_known _ _ _ A)|exact HD]).
  constructor.
  - rewrite K. exact HD.
  - rewrite K. exact ND.
  - exact SK.
  - rewrite K. unfold bounds_left in *. intros m. rewrite L. pose proof (af_lower _ _ _ A m) as Q. unfold bounds_left in Q. destruct t; [|exact Q]. rewrite Q. destruct (mmem m (keys (known s))) eqn:M; [rewrite (MORE m M); reflexivity|reflexivity].
  - rewrite K. unfold bounds_left in *. intros m. rewrite U. pose proof (af_upper _ _ _ A m) as Q. unfold bounds_left in Q. destruct t; [|exact Q]. rewrite Q. destruct (mmem m (keys (known s))) eqn:M; [rewrite (MORE m M); reflexivity|reflexivity].
  - rewrite O. apply (af_objective _ _ _ A).
  - rewrite X1, X2. apply (af_extra _ _ _ A).
Qed.
Lemma set_after v s0 s : v <> [] -> set_values t c v false false s0 = Some s -> after s0 v s.
Proof.
  intros NE E. assert (KA := fun m => known_after_set t c v false s0 s m DI SP NE E). pose proof (wf_set t c v false false s0 s E) as W.
  rewrite set_values_is in E. assert (NS : forall m, get meq m (semiknown (with_values (fst (result_values t c v false false)) (snd (result_values t c v false false)) (reset_values t c s0))) = None).
  { intros m. cbn [with_values semiknown]. unfold result_values. destruct v as [|p v]; [reflexivity|]. unfold assign_values. rewrite no_semi. reflexivity. }
  apply cleanup_effect in E as (K & SK & L & U & O & X1 & X2); [|exact NS]. cbn [with_values reset_values with_extra known semiknown lower upper objective extra_equalities extra_inequalities] in *.
  constructor; [exact KA|apply W|exact SK|rewrite K; exact L|rewrite K; exact U|exact O|split; assumption].
Qed.
Lemma on_columns_app v w : on_columns v -> on_columns w -> on_columns (v ++ w).
Proof. intros A B p I. apply in_app_or in I as [I|I]; auto. Qed.
Lemma run_none ops : run t c ops None = None.
Proof. unfold run. induction ops as [|o ops IH]; [reflexivity|exact IH]. Qed.
Lemma run_after ws : forall s0 v s s', on_columns v -> (forall w, In w ws -> on_columns w) -> after s0 v s -> run t c (map (fun w => UpdateValues w false false) ws) (Some s) = Some s' -> after s0 (v ++ concat ws) s'.
Proof.
  induction ws as [|w ws IH]; intros s0 v s s' OC OW A E; [cbn in E; injection E as <-; rewrite app_nil_r; exact A|].
  cbn [map] in E. unfold run in E. cbn [fold_left step] in E. destruct (update_values t c w false false s) as [s1|] eqn:E1; [|fold (run t c (map (fun w => UpdateValues w false false) ws) None) in E; rewrite run_none in E; discriminate E].
  cbn [concat]. rewrite app_assoc. apply (IH s0 (v ++ w) s1 s'); [apply on_columns_app; [exact OC|apply OW; left; reflexivity]|intros w' I; apply OW; right; exact I|exact (update_after s0 v w s s1 OC A E1)|exact E].
Qed.
End Steps.

(** Values given in one call of set_values and any number of calls of update_values are those given
    together, provided values of single factors are given to moments of the programme. *)
Theorem C55_values_in_steps t c v ws s0 s1 s2 : dagger_involutive c -> supports_problem c = false ->
  (forall z, t = sdp -> zero_moment c = Some z -> length z = 1 -> In z (moments c)) ->
  (forall w p, In w (v :: ws) -> In p w -> length (fst p) = 1 -> In (fst p) (moments c)) -> v <> [] ->
  run t c (SetValues v false false :: map (fun w => UpdateValues w false false) ws) (Some s0) = Some s1 ->
  run t c [SetValues (v ++ concat ws) false false] (Some s0) = Some s2 ->
  (forall m, get meq m (known s1) = get meq m (known s2)) /\ (forall m, get meq m (semiknown s1) = None /\ get meq m (semiknown s2) = None) /\
  (forall m, get meq m (lower s1) = get meq m (lower s2)) /\ (forall m, get meq m (upper s1) = get meq m (upper s2)) /\
  objective s1 = objective s2 /\ extra_equalities s1 = extra_equalities s2 /\ extra_inequalities s1 = extra_inequalities s2.
Proof.
  intros DI SP ZERO OC NE E1 E2.
  assert (A1 : after t c s0 (v ++ concat ws) s1).
  { unfold run in E1. cbn [fold_left step] in E1. destruct (set_values t c v false false s0) as [s|] eqn:E; [|fold (run t c (map (fun w => UpdateValues w false false) ws) None) in E1; rewrite run_none in E1; discriminate E1].
    apply (run_after t c DI ZERO SP ws s0 v s s1); [intros p I; apply (OC v p (or_introl eq_refl) I)|intros w I p Ip; apply (OC w p (or_intror I) Ip)|apply (set_after t c DI ZERO SP v s0 s NE E)|exact E1]. }
  assert (A2 : after t c s0 (v ++ concat ws) s2).
  { unfold run in E2. cbn [fold_left step] in E2. apply (set_after t c DI ZERO SP _ s0 s2); [destruct v; [congruence|discriminate]|exact E2]. }
  assert (K : forall m, get meq m (known s1) = get meq m (known s2)) by (intros m; rewrite (af_known _ _ _ _ _ A1 m), (af_known _ _ _ _ _ A2 m); reflexivity).
  assert (KM : forall m, mmem m (keys (known s1)) = mmem m (keys (known s2))).
  { intros m. rewrite !mmem_keys, K. reflexivity. }
  split; [exact K|]. split; [intros m; split; [apply (af_semi _ _ _ _ _ A1)|apply (af_semi _ _ _ _ _ A2)]|].
  split; [intros m; rewrite (af_lower _ _ _ _ _ A1 m), (af_lower _ _ _ _ _ A2 m), KM; reflexivity|]. split; [intros m; rewrite (af_upper _ _ _ _ _ A1 m), (af_upper _ _ _ _ _ A2 m), KM; reflexivity|].
  split; [rewrite (af_objective _ _ _ _ _ A1), (af_objective _ _ _ _ _ A2); reflexivity|]. destruct (af_extra _ _ _ _ _ A1) as [-> ->], (af_extra _ _ _ _ _ A2) as [-> ->]. split; reflexivity.
Qed.
Print Assumptions C55_values_in_steps.

(** For linear programmes neither can fail. *)
Lemma lp_update c w lpi only s : exists s', update_values lp c w lpi only s = Some s'.
Proof. unfold update_values. destruct w; [eauto|]. destruct (assign_values _ _ _ _ _ _) as (d, sk). cbn [cleanup]. unfold cleanup_lp. eauto. Qed.
Theorem C55_lp_succeeds c v ws s0 : exists s1, run lp c (SetValues v false false :: map (fun w => UpdateValues w false false) ws) (Some s0) = Some s1.
Proof.
  unfold run. cbn [fold_left step]. assert (E : exists s, set_values lp c v false false s0 = Some s).
  { rewrite set_values_is. cbn [cleanup]. unfold cleanup_lp. eauto. }
  destruct E as (s & ->). revert s. induction ws as [|w ws IH]; intros s; [exists s; reflexivity|]. cbn [map fold_left step]. destruct (lp_update c w false false s) as (s1 & ->). apply IH.
Qed.

(** ** Examples, and what the code does not guarantee *)
Definition small (ms : list moment) : context := {|
  moments := ms; is_knowable := fun _ => true; dagger := fun a => a; is_zero := fun _ => false; is_one := fun _ => false; hermitian_moments := [];
  zero_moment := None; supports_problem := false; minimal_equalities := []; minimal_inequalities := [] |}.
Definition a_half : table := [([0], Some (Q2Qc (1 # 2)))].
Definition b_third : table := [([1], Some (Q2Qc (1 # 3)))].
Definition numbers (o : option state) : option (list (moment * Q) * list (moment * Q)) :=
  option_map (fun s => (map (fun p => (fst p, this (snd p))) (known s), map (fun p => (fst p, this (fst (snd p)))) (semiknown s))) o.
Definition after_ops (t : kind) (ms : list moment) (ops : list op) := numbers (run t (small ms) ops (generated t (small ms))).
Definition one : Q := 1%Q.
Definition zero : Q := 0%Q.
Definition half : Q := (1 # 2)%Q.
Definition third : Q := (1 # 3)%Q.
Definition sixth : Q := (1 # 6)%Q.
Example C55_case t : after_ops t [[]; [0]; [1]; [0; 1]] [SetValues a_half false false; UpdateValues b_third false false] = Some ([([], one); ([0], half); ([1], third); ([0; 1], sixth)], []) /\
  after_ops t [[]; [0]; [1]; [0; 1]] [SetValues (a_half ++ b_third) false false] = Some ([([], one); ([0], half); ([1], third); ([0; 1], sixth)], []).
Proof. destruct t; split; vm_compute; reflexivity. Qed.
(** Values of factors that are not moments of the programme are forgotten between the calls. *)
Theorem C55_not_a_column_refuted t : after_ops t [[]; [0; 1]] [SetValues a_half false false; UpdateValues b_third false false] = Some ([([], one)], []) /\
  after_ops t [[]; [0; 1]] [SetValues (a_half ++ b_third) false false] = Some ([([], one); ([0; 1], sixth)], []).
Proof. destruct t; split; vm_compute; reflexivity. Qed.
(** With linearised polynomial constraints it is false: a product once known to vanish stays known
    when the value of the factor is replaced. *)
Theorem C55_lpi_refuted t : let a_zero : table := [([0], Some 0%Qc)] in
  after_ops t [[]; [0]; [1]; [0; 1]] [SetValues a_zero true false; UpdateValues a_half true false] = Some ([([], one); ([0], half); ([0; 1], zero)], []) /\
  after_ops t [[]; [0]; [1]; [0; 1]] [SetValues (a_zero ++ a_half) true false] = Some ([([], one); ([0], half)], [([0; 1], half)]).
Proof. destruct t; split; vm_compute; reflexivity. Qed.
