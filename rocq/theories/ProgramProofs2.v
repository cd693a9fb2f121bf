From Coq Require Import List Arith Bool ZArith QArith Qcanon Lia Permutation.
From Verif Require Import MargModel QcSum QcArith SearchModel ProgramModel ProgramSpec ProgramProofs.
Import ListNotations.
Open Scope nat_scope.

(** ** The moments that are evaluated *)
Lemma valued_key t c values a : dagger_involutive c -> valued t c values a = true -> In a (keys (the_atoms t c values)).
Proof. intros DI V. apply (is_some_get Nat.eq_dec). rewrite get_the_atoms by assumption. exact V. Qed.
Lemma in_remaining t c values lpi m : dagger_involutive c -> In m (moments c) -> 2 <= length m ->
  (forallb (valued t c values) m = true \/ lpi = true /\ existsb (valued t c values) m = true) ->
  mmem m (remaining c lpi (the_atoms t c values)) = true.
Proof.
  intros DI I L H. apply mmem_iff. unfold remaining.
  assert (L' : (1 <? length m) = true) by (apply Nat.ltb_lt; lia).
  assert (K : forallb (is_knowable c) (keys (the_atoms t c values)) = true -> forall a, valued t c values a = true -> is_knowable c a = true).
  { intros F a V. rewrite forallb_forall in F. apply F. apply valued_key; assumption. }
  assert (X : lpi = true -> existsb (valued t c values) m = true).
  { intros EL. destruct H as [H|(_ & H)]; [|assumption]. destruct m as [|a m]; [cbn in L; lia|].
    cbn [forallb] in H. apply andb_prop in H as (H & _). cbn [existsb]. rewrite H. reflexivity. }
  destruct (forallb (is_knowable c) (keys (the_atoms t c values))) eqn:F; [specialize (K eq_refl)|].
  - destruct lpi.
    + apply filter_In. split; [assumption|]. rewrite L'. cbn [andb]. specialize (X eq_refl). apply existsb_exists in X as (a & A & V).
      apply existsb_exists. exists a. auto.
    + apply filter_In. split; [assumption|]. rewrite L'. cbn [andb]. destruct H as [H|(H & _)]; [|discriminate].
      rewrite forallb_forall in *. auto.
  - apply filter_In. auto. Qed.
Lemma remaining_in c lpi a m : mmem m (remaining c lpi a) = true -> In m (moments c) /\ 2 <= length m.
Proof.
  intros M. apply mmem_iff in M. unfold remaining in M.
  destruct (forallb (is_knowable c) (keys a)); [destruct lpi|]; apply filter_In in M as (I & B); split; try assumption.
  - apply andb_prop in B as (B & _). apply Nat.ltb_lt in B. lia.
  - apply andb_prop in B as (B & _). apply Nat.ltb_lt in B. lia.
  - apply Nat.ltb_lt in B. lia. Qed.

Definition derived (t : kind) (c : context) (values : list (moment * option Qc)) (lpi : bool) (m : moment) : bool :=
  (2 <=? length m) && (forallb (valued t c values) m || (lpi && existsb (valued t c values) m && isclose0 (coefficient t c values m))).
Lemma known_status_spec t c values lpi m : dagger_involutive c ->
  (if mmem m (remaining c lpi (the_atoms t c values)) then known_status lpi (the_atoms t c values) m else None) =
  if mmem m (moments c) && derived t c values lpi m then Some (coefficient t c values m) else None.
Proof.
  intros DI. unfold known_status. rewrite evaluate_spec by assumption. unfold derived.
  destruct (mmem m (remaining c lpi (the_atoms t c values))) eqn:R.
  - apply remaining_in in R as (I & L). assert (M : mmem m (moments c) = true) by (apply mmem_iff; assumption). rewrite M.
    assert (L' : (2 <=? length m) = true) by (apply Nat.leb_le; assumption). rewrite L'. cbn [andb].
    destruct (forallb (valued t c values) m); cbn [orb]; [reflexivity|].
    destruct lpi, (existsb (valued t c values) m); cbn [andb]; try reflexivity. destruct (isclose0 _); reflexivity.
  - destruct (mmem m (moments c)) eqn:M; [|reflexivity]. cbn [andb]. destruct (2 <=? length m) eqn:L; [|reflexivity]. cbn [andb].
    apply mmem_iff in M. apply Nat.leb_le in L.
    destruct (forallb (valued t c values) m) eqn:F.
    + rewrite (in_remaining t c values lpi m) in R by auto. discriminate.
    + cbn [orb]. destruct lpi; [|reflexivity]. destruct (existsb (valued t c values) m) eqn:X; [|reflexivity].
      rewrite (in_remaining t c values true m) in R by auto. discriminate. Qed.
Lemma some_not_all {A} (f : A -> bool) l : existsb f l = true -> forallb f l = false -> 2 <= length l.
Proof. intros X F. destruct l as [|a [|b l]]; cbn in *; [discriminate|destruct (f a); discriminate|lia]. Qed.
Lemma semi_status_spec t c values lpi m k u : dagger_involutive c ->
  (if mmem m (remaining c lpi (the_atoms t c values)) then semi_status c lpi (the_atoms t c values) m else None) = Some (k, u) <->
  In m (moments c) /\ lpi = true /\ existsb (valued t c values) m = true /\ forallb (valued t c values) m = false /\
  isclose0 (coefficient t c values m) = false /\ k = coefficient t c values m /\ u = monomial_from_atoms c (unvalued t c values m).
Proof.
  intros DI. unfold semi_status. rewrite evaluate_spec by assumption. split.
  - destruct (mmem m (remaining c lpi (the_atoms t c values))) eqn:R; [|discriminate]. apply remaining_in in R as (I & L).
    destruct (forallb (valued t c values) m); [discriminate|]. destruct (existsb (valued t c values) m); [|discriminate]. cbn [andb].
    destruct lpi; [|discriminate]. destruct (isclose0 _) eqn:E; [discriminate|].
    intros H. assert (coefficient t c values m = k /\ monomial_from_atoms c (unvalued t c values m) = u) as (<- & <-) by (split; congruence). auto 8.
  - intros (I & -> & X & F & E & -> & ->). rewrite (in_remaining t c values true m); auto; [|eapply some_not_all; eassumption].
    rewrite F, X, E. reflexivity. Qed.

(** ** The values after set_values *)
Definition result_values (t : kind) (c : context) (values : list (moment * option Qc)) (lpi only : bool) : mdict Qc * mdict (Qc * moment) :=
  match values with [] => (initial_values t c, []) | _ => assign_values c values lpi only (initial_values t c) [] end.
Lemma set_values_is t c values lpi only s :
  set_values t c values lpi only s = cleanup t c (with_values (fst (result_values t c values lpi only)) (snd (result_values t c values lpi only)) (reset_values t c s)).
Proof.
  unfold set_values, result_values, update_values. destruct values as [|p values].
  - destruct s; reflexivity.
  - cbn [reset_values with_extra with_values known semiknown fst snd].
    destruct (assign_values c (p :: values) lpi only (initial_values t c) []) as (d, sk). reflexivity. Qed.
Lemma cleanup_values t c s s' : cleanup t c s = Some s' ->
  known s' = known (supports_step c s) /\ semiknown s' = pop_all (keys (known (supports_step c s))) (semiknown (supports_step c s)) /\
  objective s' = objective s /\ extra_equalities s' = extra_equalities s /\ extra_inequalities s' = extra_inequalities s.
Proof.
  assert (O : objective (supports_step c s) = objective s /\ extra_equalities (supports_step c s) = extra_equalities s /\ extra_inequalities (supports_step c s) = extra_inequalities s)
    by (unfold supports_step; destruct (supports_problem c); repeat split; reflexivity).
  destruct O as (O1 & O2 & O3). destruct t; cbn [cleanup]; unfold cleanup_sdp, cleanup_lp.
  - destruct (update_bounds lo_ok _ _); [|discriminate]. destruct (update_bounds up_ok _ _); [|discriminate]. destruct (update_objective _ _ _); [|discriminate].
    intros E. injection E as <-. cbn. auto.
  - intros E. injection E as <-. cbn. auto. Qed.

Lemma known_after_set t c values lpi s s' m : dagger_involutive c -> supports_problem c = false -> values <> [] ->
  set_values t c values lpi false s = Some s' ->
  get meq m (known s') = if mmem m (moments c) then known_value t c values lpi m else None.
Proof.
  intros DI SP NE E. rewrite set_values_is in E. apply cleanup_values in E as (K & _). rewrite K. unfold supports_step. rewrite SP. cbn [with_values known fst snd].
  unfold result_values. destruct values as [|p values]; [congruence|]. unfold assign_values. set (vs := p :: values) in *.
  change (atomic_knowns c (assign (initial_values t c) vs)) with (the_atoms t c vs).
  destruct (get_evaluate_all c lpi (the_atoms t c vs) (remaining c lpi (the_atoms t c vs)) (filter (fun p => mmem (fst p) (moments c)) (assign (initial_values t c) vs)) [] m) as (G & _).
  rewrite G, known_status_spec by assumption. rewrite (get_filter meq (fun x => mmem x (moments c))), get_base.
  unfold known_value, derived. destruct (mmem m (moments c)); [|reflexivity]. cbn [andb]. destruct (_ && _); reflexivity. Qed.
Lemma semiknown_after_set t c values lpi s s' m k u : dagger_involutive c -> supports_problem c = false -> values <> [] ->
  set_values t c values lpi false s = Some s' ->
  (get meq m (semiknown s') = Some (k, u) <-> In m (moments c) /\ semiknown_value t c values lpi m k u).
Proof.
  intros DI SP NE E. pose proof (known_after_set t c values lpi s s' m DI SP NE E) as KA.
  rewrite set_values_is in E. apply cleanup_values in E as (K & SK & _). rewrite SK, get_pop_all, <- K, mmem_keys, KA.
  clear K SK KA. unfold supports_step. rewrite SP. cbn [with_values semiknown fst snd].
  unfold result_values. destruct values as [|p values]; [congruence|]. unfold assign_values. set (vs := p :: values) in *.
  change (atomic_knowns c (assign (initial_values t c) vs)) with (the_atoms t c vs).
  destruct (get_evaluate_all c lpi (the_atoms t c vs) (remaining c lpi (the_atoms t c vs)) (filter (fun p => mmem (fst p) (moments c)) (assign (initial_values t c) vs)) [] m) as (_ & G).
  rewrite G. clear G. cbn [get].
  pose proof (semi_status_spec t c vs lpi m k u DI) as SS.
  destruct (mmem m (moments c)) eqn:M.
  - apply mmem_iff in M. destruct (is_some (known_value t c vs lpi m)) eqn:KV.
    + split; [discriminate|]. intros (_ & -> & X & F & E & B & _). exfalso. unfold known_value in KV. rewrite F, X, E, B in KV. cbn [andb orb] in KV. rewrite andb_false_r in KV. discriminate.
    + split.
      * intros H. assert (SG : (if mmem m (remaining c lpi (the_atoms t c vs)) then semi_status c lpi (the_atoms t c vs) m else None) = Some (k, u)).
        { destruct (if mmem m (remaining c lpi (the_atoms t c vs)) then semi_status c lpi (the_atoms t c vs) m else None); [assumption|discriminate]. }
        apply SS in SG as (_ & -> & X & F & E & -> & ->). split; [assumption|]. unfold semiknown_value. repeat (split; [assumption||reflexivity|]).
        split; [|auto]. unfold known_value in KV. rewrite F, X, E in KV. cbn [andb orb] in KV. rewrite andb_false_r in KV. destruct (base t c vs m); [discriminate|reflexivity].
      * intros (_ & SV). destruct SV as (-> & X & F & E & B & -> & ->).
        assert (SG : (if mmem m (remaining c true (the_atoms t c vs)) then semi_status c true (the_atoms t c vs) m else None) = Some (coefficient t c vs m, monomial_from_atoms c (unvalued t c vs m))) by (apply SS; auto 8).
        rewrite SG. reflexivity.
  - assert (NI : ~ In m (moments c)) by (intros I; apply mmem_iff in I; congruence). cbn [is_some]. split.
    + destruct (if mmem m (remaining c lpi (the_atoms t c vs)) then semi_status c lpi (the_atoms t c vs) m else None) eqn:SG; [|discriminate].
      intros H. apply (proj1 SS) in H as (I & _). contradiction.
    + intros (I & _). contradiction. Qed.

(** ** Products *)
Lemma product_cons a l : product (a :: l) = (a * product l)%Qc. Proof. reflexivity. Qed.
Lemma product_app l l' : product (l ++ l') = (product l * product l')%Qc.
Proof. induction l as [|a l IH]; cbn [app]; [unfold product at 2; cbn; ring|]. rewrite !product_cons, IH. ring. Qed.
Lemma product_perm l l' : Permutation l l' -> product l = product l'.
Proof. induction 1; rewrite ?product_cons; try reflexivity; try congruence; try ring. Qed.
Lemma insert_atom_perm a l : Permutation (insert_atom a l) (a :: l).
Proof.
  induction l as [|b l IH]; cbn [insert_atom]; [apply Permutation_refl|]. destruct (a <=? b); [apply Permutation_refl|].
  eapply Permutation_trans; [apply perm_skip; exact IH|]. apply perm_swap. Qed.
Lemma sort_atoms_perm l : Permutation (sort_atoms l) l.
Proof. induction l as [|a l IH]; cbn; [constructor|]. eapply Permutation_trans; [apply insert_atom_perm|]. apply perm_skip. exact IH. Qed.
Lemma moment_at_perm x l l' : Permutation l l' -> moment_at x l = moment_at x l'.
Proof. intros P. apply product_perm, Permutation_map, P. Qed.
Lemma product_zero x l : In 0%Qc (map x l) -> moment_at x l = 0%Qc.
Proof.
  unfold moment_at. induction l as [|a l IH]; cbn [map In]; [contradiction|]. rewrite product_cons. intros [E|I]; [rewrite E; ring|rewrite (IH I); ring]. Qed.
Lemma moment_from_atoms c x l : factorising c x -> moment_at x (monomial_from_atoms c l) = moment_at x l.
Proof.
  intros (XD & XO & XZ). unfold monomial_from_atoms.
  set (l0 := match find (is_zero c) l with Some z => [z] | None => filter (fun a => negb (is_one c a)) l end).
  assert (L0 : moment_at x l0 = moment_at x l).
  { subst l0. destruct (find (is_zero c) l) as [z|] eqn:F.
    - apply find_some in F as (I & Z). rewrite (product_zero x l) by (rewrite <- (XZ z Z); apply in_map; assumption).
      unfold moment_at. cbn [map]. rewrite product_cons, (XZ z Z). ring.
    - clear F. unfold moment_at. induction l as [|a l IH]; cbn [filter map]; [reflexivity|]. rewrite product_cons, <- IH.
      destruct (is_one c a) eqn:O; cbn [negb map]; rewrite ?product_cons; [rewrite (XO a O); ring|reflexivity]. }
  rewrite <- L0. assert (D : moment_at x (map (dagger c) (sort_atoms l0)) = moment_at x (sort_atoms l0)).
  { unfold moment_at. rewrite map_map. f_equal. apply map_ext. intros a. apply XD. }
  destruct (lex_lt _ _); rewrite ?(moment_at_perm x _ _ (sort_atoms_perm _)), ?D; rewrite ?(moment_at_perm x _ _ (sort_atoms_perm _)); reflexivity. Qed.
Lemma moment_splits t c values x m : (forall a v, atom_value t c values a = Some v -> x a = v) ->
  moment_at x m = (coefficient t c values m * moment_at x (unvalued t c values m))%Qc.
Proof.
  intros AV. unfold moment_at, coefficient, unvalued, valued. induction m as [|a m IH]; cbn [map filter]; [unfold product; cbn; ring|].
  rewrite !product_cons, IH. destruct (atom_value t c values a) as [v|] eqn:E; cbn [is_some negb map]; rewrite ?product_cons; [rewrite (AV a v E)|]; ring. Qed.

(** the moment a semi-known moment refers to has no valued factor *)
Lemma atom_value_dagger t c values a : dagger_involutive c -> valued t c values (dagger c a) = valued t c values a.
Proof.
  intros DI. unfold valued, atom_value. rewrite DI. destruct (base t c values [dagger c a]), (base t c values [a]); reflexivity. Qed.
Lemma unvalued_from_atoms t c values m a : dagger_involutive c -> In a (monomial_from_atoms c (unvalued t c values m)) -> valued t c values a = false.
Proof.
  intros DI. unfold monomial_from_atoms.
  set (l0 := match find (is_zero c) (unvalued t c values m) with Some z => [z] | None => filter (fun a => negb (is_one c a)) (unvalued t c values m) end).
  assert (L0 : forall b, In b l0 -> valued t c values b = false).
  { intros b I. assert (IU : In b (unvalued t c values m)).
    { subst l0. destruct (find (is_zero c) (unvalued t c values m)) as [z|] eqn:F.
      - destruct I as [<-|[]]. apply find_some in F. tauto.
      - apply filter_In in I. tauto. }
    unfold unvalued in IU. apply filter_In in IU as (_ & IU). destruct (valued t c values b); [discriminate|reflexivity]. }
  assert (L1 : forall b, In b (sort_atoms l0) -> valued t c values b = false) by (intros b I; apply L0; eapply Permutation_in; [apply sort_atoms_perm|exact I]).
  destruct (lex_lt _ _); intros I; [|auto].
  apply (Permutation_in _ (sort_atoms_perm _)) in I. apply in_map_iff in I as (b & <- & I). rewrite atom_value_dagger by assumption. auto. Qed.

(** ** Invariants of histories *)
Record wf (s : state) : Prop := {
  wf_known : NoDup (keys (known s));
  wf_semi : NoDup (keys (semiknown s));
  wf_disjoint : forall m, In m (keys (known s)) -> ~ In m (keys (semiknown s))
}.
Lemma wf_cleanup t c s s' : NoDup (keys (known s)) -> NoDup (keys (semiknown s)) -> cleanup t c s = Some s' -> wf s'.
Proof.
  intros N1 N2 E. apply cleanup_values in E as (K & SK & _).
  assert (N : NoDup (keys (known (supports_step c s))) /\ NoDup (keys (semiknown (supports_step c s)))).
  { unfold supports_step. destruct (supports_problem c); cbn [with_bounds with_values known semiknown]; split; auto; [apply nodup_pop_all; assumption|constructor]. }
  destruct N as (N3 & N4). constructor; rewrite ?K, ?SK; auto.
  - apply nodup_pop_all. assumption.
  - intros m I J. apply (in_keys_get meq) in J as (v & J). rewrite get_pop_all in J. apply mmem_iff in I. rewrite I in J. discriminate. Qed.
Lemma nodup_assign_values c values lpi only d sk : NoDup (keys d) -> NoDup (keys sk) ->
  NoDup (keys (fst (assign_values c values lpi only d sk))) /\ NoDup (keys (snd (assign_values c values lpi only d sk))).
Proof.
  intros N1 N2. unfold assign_values. destruct only; cbn [fst snd].
  - split; [apply nodup_assign|]; assumption.
  - apply nodup_evaluate_all; [|assumption]. apply nodup_filter_keys, nodup_assign. assumption. Qed.
Lemma wf_update t c values lpi only s s' : wf s -> update_values t c values lpi only s = Some s' -> wf s'.
Proof.
  intros W. unfold update_values. destruct values as [|p values]; [intros E; injection E as <-; assumption|].
  pose proof (nodup_assign_values c (p :: values) lpi only (known s) (semiknown s) (wf_known _ W) (wf_semi _ W)) as (N1 & N2).
  destruct (assign_values _ _ _ _ _ _) as (d, sk). cbn [fst snd] in *. intros E. eapply wf_cleanup; [| |exact E]; assumption. Qed.
Lemma wf_set t c values lpi only s s' : set_values t c values lpi only s = Some s' -> wf s'.
Proof.
  intros E. rewrite set_values_is in E. eapply wf_cleanup; [| |exact E]; cbn [with_values known semiknown].
  - unfold result_values. destruct values; [apply nodup_initial|]. apply nodup_assign_values; [apply nodup_initial|constructor].
  - unfold result_values. destruct values; [constructor|]. apply nodup_assign_values; [apply nodup_initial|constructor]. Qed.
Lemma wf_same s s' : known s' = known s -> semiknown s' = semiknown s -> wf s -> wf s'.
Proof. intros K E [W1 W2 W3]. constructor; rewrite ?K, ?E; assumption. Qed.
Lemma bounds_values t c b bt s s' : set_bounds t c b bt s = Some s' -> known s' = known s /\ semiknown s' = semiknown s /\ objective s' = objective s /\ processed s' = processed s.
Proof.
  unfold set_bounds. destruct (sanitised_bounds b) as [d|]; [|discriminate]. destruct t, bt; try (intros E; injection E as <-; repeat split; reflexivity).
  - destruct (update_bounds up_ok _ _); [|discriminate]. intros E; injection E as <-; repeat split; reflexivity.
  - destruct (update_bounds lo_ok _ (default_lower c)); [|discriminate]. destruct (update_bounds lo_ok _ _); [|discriminate]. intros E; injection E as <-; repeat split; reflexivity. Qed.
Lemma objective_values t c i mx s s' : set_objective t c i mx s = Some s' ->
  known s' = known s /\ semiknown s' = semiknown s /\ lower s' = lower s /\ upper s' = upper s /\
  extra_equalities s' = extra_equalities s /\ extra_inequalities s' = extra_inequalities s.
Proof.
  unfold set_objective. destruct i as [i|]; [|intros E; injection E as <-; repeat split; reflexivity].
  destruct (supports_problem c); [discriminate|]. destruct (forallb _ _); [|discriminate]. destruct t.
  - destruct (update_objective _ _ _); [|discriminate]. intros E; injection E as <-; repeat split; reflexivity.
  - intros E; injection E as <-; repeat split; reflexivity. Qed.
Lemma wf_step t c o s s' : wf s -> step t c o s = Some s' -> wf s'.
Proof.
  intros W. destruct o; cbn [step].
  - apply wf_set.
  - apply wf_update. assumption.
  - intros E. apply bounds_values in E as (K & SK & _). eapply wf_same; eassumption.
  - intros E. apply objective_values in E as (K & SK & _). eapply wf_same; eassumption.
  - intros E. injection E as <-. eapply wf_same; [| |exact W]; reflexivity.
  - intros E. injection E as <-. eapply wf_same; [| |exact W]; reflexivity. Qed.

(** an invariant of the generated programme and of every method holds in reachable states *)
Lemma run_invariant (P : state -> Prop) t c : (forall o s s', P s -> step t c o s = Some s' -> P s') ->
  forall ops s s', P s -> run t c ops (Some s) = Some s' -> P s'.
Proof.
  intros ST ops. induction ops as [|o ops IH]; intros s s' PS; cbn [run fold_left]; [intros E; injection E as <-; assumption|].
  destruct (step t c o s) as [s1|] eqn:E1.
  - intros E. eapply IH; [|exact E]. eapply ST; eassumption.
  - clear. intros E. exfalso. induction ops as [|o' ops IH']; cbn in E; [discriminate|auto]. Qed.
Definition blank (t : kind) (c : context) : state := {| known := []; semiknown := []; lower := match t with sdp => default_lower c | lp => [] end; upper := [];
               objective := []; processed := []; extra_equalities := []; extra_inequalities := [] |}.
Lemma run_none t c ops : run t c ops None = None.
Proof. induction ops; [reflexivity|assumption]. Qed.
Lemma reachable_invariant (P : state -> Prop) t c : P (blank t c) -> (forall o s s', P s -> step t c o s = Some s' -> P s') -> forall s, reachable t c s -> P s.
Proof.
  intros P0 ST s (ops & E). unfold generated in E. fold (blank t c) in E.
  destruct (run t c [SetObjective None true; SetValues [] false false] (Some (blank t c))) as [s1|] eqn:E1.
  - eapply run_invariant; [exact ST| |exact E]. eapply run_invariant; [exact ST|exact P0|exact E1].
  - rewrite run_none in E. discriminate. Qed.
Lemma reachable_wf t c s : reachable t c s -> wf s.
Proof.
  apply reachable_invariant; [|intros; eapply wf_step; eassumption]. constructor; cbn; try constructor. intros m []. Qed.
