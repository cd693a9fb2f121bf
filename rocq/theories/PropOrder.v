(** C56: the order in which values, bounds and the objective are set. *)
From Coq Require Import List Arith Bool QArith Qcanon Lia.
From Verif Require Import SearchModel SearchProofs ProgramModel ProgramSpec ProgramProofs ProgramProofs2 ProgramProofs3 ResetModel PropReset.
From Verif Require PropProgram.
Import ListNotations.
Close Scope Q_scope. Open Scope nat_scope. Open Scope list_scope.

(** ** What a history asks for, whatever its order *)
Definition is_setting (o : op) : Prop := match o with SetBounds _ _ | SetObjective _ _ => True | _ => False end.
(** The last of the requests of a kind. *)
Definition latest {A} (ask : op -> option A) (h : list op) : option A :=
  hd_error (flat_map (fun o => match ask o with Some x => [x] | None => [] end) (rev h)).
Definition asks_lower (o : op) : option (list (moment * Qc)) := match o with SetBounds b bt_lo => Some b | _ => None end.
Definition asks_upper (o : op) : option (list (moment * Qc)) := match o with SetBounds b bt_up => Some b | _ => None end.
Definition asks_objective (o : op) : option (option (list (moment * Qc)) * bool) := match o with SetObjective i mx => Some (i, mx) | _ => None end.
Definition same_requests (h h' : list op) : Prop :=
  latest asks_lower h = latest asks_lower h' /\ latest asks_upper h = latest asks_upper h' /\ latest asks_objective h = latest asks_objective h'.

Lemma latest_snoc {A} (ask : op -> option A) h o : latest ask (h ++ [o]) = match ask o with Some x => Some x | None => latest ask h end.
Proof. unfold latest. rewrite rev_app_distr. cbn [rev app flat_map]. destruct (ask o); reflexivity. Qed.

Section Order.
Variables (t : kind) (c : context).
Hypothesis SP : supports_problem c = false.
Hypothesis MO : t = sdp -> In One (moments c) /\ forall z, zero_moment c = Some z -> In z (moments c).

Definition hidden (k : mdict Qc) (m : moment) : bool := match t with sdp => mmem m (keys k) | lp => false end.
Definition or_none (b : option (list (moment * Qc))) : list (moment * Qc) := match b with Some b => b | None => [] end.
Definition lower_asked (h : list op) (m : moment) : option Qc :=
  match t with sdp => lower_request c (or_none (latest asks_lower h)) m | lp => requested (or_none (latest asks_lower h)) m end.
Definition objective_asked (h : list op) : mdict Qc :=
  match latest asks_objective h with
  | Some (Some items, mx) => with_constant t (map (fun p => (fst p, if mx then snd p else (- snd p)%Qc)) (sanitise_dict (fun m => m) items))
  | _ => zero_objective t
  end.
Record like (K : mdict Qc) (SK : mdict (Qc * moment)) (h : list op) (s : state) : Prop := {
  lk_known : known s = K; lk_semi : semiknown s = SK;
  lk_lower : forall m, get meq m (lower s) = if hidden K m then None else lower_asked h m;
  lk_upper : forall m, get meq m (upper s) = if hidden K m then None else requested (or_none (latest asks_upper h)) m;
  lk_objective : objective s = objective_asked h;
  lk_processed : match t with sdp => update_objective (objective s) K [] = Some (processed s) | lp => processed s = objective s end;
  lk_extra : extra_equalities s = [] /\ extra_inequalities s = []
}.
Lemma update_objective_no_semi o k sk p : update_objective o k sk = Some p -> update_objective o k [] = Some p.
Proof. unfold update_objective. destruct (existsb _ (keys sk)); [discriminate|]. intros E. exact E. Qed.
Lemma zero_processed (k : mdict Qc) : update_objective [(One, 0%Qc)] k [] = Some [(One, 0%Qc)].
Proof.
  unfold update_objective. set (todo := filter _ _).
  assert (T : todo = []).
  { destruct todo as [|m l] eqn:E; [reflexivity|]. exfalso. assert (I : In m todo) by (rewrite E; left; reflexivity). apply filter_In in I as [_ I]. cbn [get] in I. destruct (meq m One); discriminate I. }
  rewrite T. reflexivity.
Qed.
Lemma like_generated s : generated t c = Some s -> like (initial_values t c) [] [] s.
Proof.
  intros E. destruct (generated_is t c SP) as (lo & L & G). rewrite G in E. injection E as <-.
  constructor; cbn [known semiknown lower upper objective processed extra_equalities extra_inequalities]; try reflexivity.
  - intros m. unfold hidden, lower_asked. cbn [latest rev flat_map hd_error or_none]. destruct t.
    + rewrite (update_bounds_get _ _ _ _ L m), default_get. unfold lower_request. reflexivity.
    + rewrite L. reflexivity.
  - intros m. destruct (hidden _ m); reflexivity.
  - destruct t; [apply zero_processed|reflexivity].
  - split; reflexivity.
Qed.
Lemma like_setting K SK h o s s' : is_setting o -> like K SK h s -> step t c o s = Some s' -> like K SK (h ++ [o]) s'.
Proof.
  intros IS A E. destruct o as [? ? ?|? ? ?|b bt|items mx|?|?]; try contradiction; cbn [step] in E.
  - unfold set_bounds in E. destruct (sanitised_bounds b) as [d|] eqn:SB; [|discriminate E]. pose proof (sanitised_get b d SB) as SG. pose proof (sanitised_nodup b d SB) as SN.
    assert (LO : bt = bt_lo -> latest asks_lower (h ++ [SetBounds b bt]) = Some b) by (intros ->; rewrite latest_snoc; reflexivity).
    assert (LU : bt = bt_up -> latest asks_lower (h ++ [SetBounds b bt]) = latest asks_lower h) by (intros ->; rewrite latest_snoc; reflexivity).
    assert (UO : bt = bt_up -> latest asks_upper (h ++ [SetBounds b bt]) = Some b) by (intros ->; rewrite latest_snoc; reflexivity).
    assert (UU : bt = bt_lo -> latest asks_upper (h ++ [SetBounds b bt]) = latest asks_upper h) by (intros ->; rewrite latest_snoc; reflexivity).
    assert (OO : latest asks_objective (h ++ [SetBounds b bt]) = latest asks_objective h) by (rewrite latest_snoc; reflexivity).
    assert (NEW : (bt = bt_lo /\ exists l, s' = with_bounds l (upper s) s /\ forall m, get meq m l = if hidden K m then None else lower_asked (h ++ [SetBounds b bt]) m) \/
                  (bt = bt_up /\ exists u, s' = with_bounds (lower s) u s /\ forall m, get meq m u = if hidden K m then None else requested b m)).
    { unfold hidden, lower_asked. rewrite (lk_known _ _ _ _ A) in E. destruct t, bt.
      - right. split; [reflexivity|]. destruct (update_bounds up_ok K d) as [u|] eqn:U; [|discriminate E]. injection E as <-. exists u. split; [reflexivity|]. intros m. rewrite (update_bounds_get _ _ _ _ U m), SG. reflexivity.
      - left. split; [reflexivity|]. destruct (update_bounds lo_ok K (default_lower c)) as [l0|] eqn:L0; [|discriminate E]. destruct (update_bounds lo_ok K (update meq l0 d)) as [l|] eqn:L; [|discriminate E]. injection E as <-.
        exists l. split; [reflexivity|]. intros m. rewrite (update_bounds_get _ _ _ _ L m). destruct (mmem m (keys K)) eqn:M; [reflexivity|]. rewrite get_update by assumption. rewrite SG, (update_bounds_get _ _ _ _ L0 m), M, default_get, (LO eq_refl). reflexivity.
      - right. split; [reflexivity|]. injection E as <-. exists d. split; [reflexivity|]. intros m. apply SG.
      - left. split; [reflexivity|]. injection E as <-. exists d. split; [reflexivity|]. intros m. rewrite (LO eq_refl). apply SG. }
    destruct NEW as [(B & l & -> & NL)|(B & u & -> & NU)]; constructor; cbn [with_bounds known semiknown lower upper objective processed extra_equalities extra_inequalities]; try apply A.
    + exact NL.
    + intros m. rewrite (UU B). apply (lk_upper _ _ _ _ A).
    + unfold objective_asked. rewrite OO. apply A.
    + intros m. unfold lower_asked. rewrite (LU B). apply (lk_lower _ _ _ _ A).
    + intros m. rewrite (UO B). apply NU.
    + unfold objective_asked. rewrite OO. apply A.
  - assert (LL : latest asks_lower (h ++ [SetObjective items mx]) = latest asks_lower h) by (rewrite latest_snoc; reflexivity).
    assert (UU : latest asks_upper (h ++ [SetObjective items mx]) = latest asks_upper h) by (rewrite latest_snoc; reflexivity).
    assert (NEW : exists p, s' = with_objective (objective_asked (h ++ [SetObjective items mx])) p s /\ match t with sdp => update_objective (objective_asked (h ++ [SetObjective items mx])) K [] = Some p | lp => p = objective_asked (h ++ [SetObjective items mx]) end).
    { unfold objective_asked. rewrite latest_snoc. cbn [asks_objective]. unfold set_objective in E. rewrite SP in E. rewrite (lk_known _ _ _ _ A) in E.
      destruct items as [items|].
      - destruct (forallb _ _) in E; [|discriminate E]. destruct t.
        + destruct (update_objective _ _ _) as [p|] eqn:UO in E; [|discriminate E]. injection E as <-. exists p. split; [reflexivity|]. exact (update_objective_no_semi _ _ _ _ UO).
        + injection E as <-. eexists. split; reflexivity.
      - injection E as <-. exists (zero_objective t). destruct t; (split; [reflexivity|]); [apply zero_processed|reflexivity]. }
    destruct NEW as (p & -> & P). constructor; cbn [with_objective known semiknown lower upper objective processed extra_equalities extra_inequalities]; try apply A.
    + intros m. unfold lower_asked. rewrite LL. apply (lk_lower _ _ _ _ A).
    + intros m. rewrite UU. apply (lk_upper _ _ _ _ A).
    + reflexivity.
    + exact P.
Qed.
Lemma run_none ops : run t c ops None = None.
Proof. unfold run. induction ops as [|o ops IH]; [reflexivity|exact IH]. Qed.
Lemma like_settings K SK l : (forall o, In o l -> is_setting o) -> forall h s s', like K SK h s -> run t c l (Some s) = Some s' -> like K SK (h ++ l) s'.
Proof.
  induction l as [|o l IH]; intros IS h s s' A E; [cbn in E; injection E as <-; rewrite app_nil_r; exact A|].
  unfold run in E. cbn [fold_left] in E. destruct (step t c o s) as [s1|] eqn:E1; [|fold (run t c l None) in E; rewrite run_none in E; discriminate E].
  replace (h ++ o :: l) with ((h ++ [o]) ++ l) by (rewrite <- app_assoc; reflexivity).
  apply (IH (fun o' I => IS o' (or_intror I)) (h ++ [o]) s1 s'); [|exact E]. apply (like_setting K SK h o s s1); [apply IS; left; reflexivity|exact A|exact E1].
Qed.
Definition semis_left (r : mdict Qc * mdict (Qc * moment)) : mdict (Qc * moment) := pop_all (keys (fst r)) (snd r).
Lemma like_values h v lpi only s s' : like (initial_values t c) [] h s -> set_values t c v lpi only s = Some s' ->
  like (fst (result_values t c v lpi only)) (semis_left (result_values t c v lpi only)) (h ++ [SetValues v lpi only]) s'.
Proof.
  intros A E.
  assert (MORE : forall m, hidden (initial_values t c) m = true -> hidden (fst (result_values t c v lpi only)) m = true).
  { unfold hidden. destruct t eqn:T; [|discriminate]. intros m H. apply mmem_iff in H. apply mmem_iff.
    pose proof (has_step c SP (MO eq_refl) (SetValues v lpi only) s s') as HS. unfold has_initial in HS. rewrite (lk_known _ _ _ _ A) in HS. specialize (HS (fun m I => I) E m H).
    rewrite set_values_is in E. rewrite (cleanup_known c SP _ _ E) in HS. exact HS. }
  rewrite set_values_is in E. pose proof (cleanup_values _ _ _ _ E) as (K & SK & O & X1 & X2). unfold supports_step in K, SK. rewrite SP in K, SK.
  assert (LL : latest asks_lower (h ++ [SetValues v lpi only]) = latest asks_lower h) by (rewrite latest_snoc; reflexivity).
  assert (UU : latest asks_upper (h ++ [SetValues v lpi only]) = latest asks_upper h) by (rewrite latest_snoc; reflexivity).
  assert (OO : latest asks_objective (h ++ [SetValues v lpi only]) = latest asks_objective h) by (rewrite latest_snoc; reflexivity).
  cbn [with_values reset_values with_extra known semiknown objective extra_equalities extra_inequalities] in K, SK, O, X1, X2.
  set (R := result_values t c v lpi only) in *.
  assert (B : (forall m, get meq m (lower s') = if hidden (fst R) m then None else get meq m (lower s)) /\ (forall m, get meq m (upper s') = if hidden (fst R) m then None else get meq m (upper s)) /\
              match t with sdp => update_objective (objective s') (fst R) [] = Some (processed s') | lp => processed s' = objective s' end).
  { pose proof (lk_processed _ _ _ _ A) as PO. unfold hidden. clear K SK O X1 X2. destruct t; cbn [cleanup] in E; unfold cleanup_sdp, cleanup_lp, supports_step in E; rewrite SP in E.
    - destruct (update_bounds lo_ok _ _) as [lo|] eqn:L; [|discriminate E]. destruct (update_bounds up_ok _ _) as [up|] eqn:U; [|discriminate E]. destruct (update_objective _ _ _) as [p|] eqn:P; [|discriminate E].
      injection E as <-. cbn [reset_values with_extra with_values with_objective with_bounds known semiknown lower upper objective processed] in *.
      split; [intros m; exact (update_bounds_get _ _ _ _ L m)|]. split; [intros m; exact (update_bounds_get _ _ _ _ U m)|]. exact (update_objective_no_semi _ _ _ _ P).
    - injection E as <-. cbn [reset_values with_extra with_values with_objective with_bounds known semiknown lower upper objective processed] in *. split; [reflexivity|]. split; [reflexivity|exact PO]. }
  destruct B as (B1 & B2 & P). constructor.
  - exact K.
  - exact SK.
  - intros m. rewrite B1. unfold lower_asked. rewrite LL. destruct (hidden (fst R) m) eqn:M; [reflexivity|]. rewrite (lk_lower _ _ _ _ A). destruct (hidden (initial_values t c) m) eqn:M0; [rewrite (MORE m M0) in M; discriminate M|reflexivity].
  - intros m. rewrite B2, UU. destruct (hidden (fst R) m) eqn:M; [reflexivity|]. rewrite (lk_upper _ _ _ _ A). destruct (hidden (initial_values t c) m) eqn:M0; [rewrite (MORE m M0) in M; discriminate M|reflexivity].
  - rewrite O. unfold objective_asked. rewrite OO. apply (lk_objective _ _ _ _ A).
  - exact P.
  - split; [exact X1|exact X2].
Qed.
Lemma like_history before after v lpi only g s : (forall o, In o before -> is_setting o) -> (forall o, In o after -> is_setting o) -> generated t c = Some g ->
  run t c (before ++ SetValues v lpi only :: after) (Some g) = Some s ->
  like (fst (result_values t c v lpi only)) (semis_left (result_values t c v lpi only)) (before ++ SetValues v lpi only :: after) s.
Proof.
  intros B A G E. unfold run in E. rewrite fold_left_app in E. fold (run t c before (Some g)) in E. destruct (run t c before (Some g)) as [s1|] eqn:E1; [|fold (run t c (SetValues v lpi only :: after) None) in E; rewrite run_none in E; discriminate E].
  cbn [fold_left step] in E. destruct (set_values t c v lpi only s1) as [s2|] eqn:E2; [|fold (run t c after None) in E; rewrite run_none in E; discriminate E].
  pose proof (like_settings _ _ before B [] g s1 (like_generated g G) E1) as L1. cbn [app] in L1. pose proof (like_values _ _ _ _ _ _ L1 E2) as L2.
  pose proof (like_settings _ _ after A _ s2 s L2 E) as L3. rewrite <- app_assoc in L3. exact L3.
Qed.
End Order.

(** The same requests around one set_values, in any order, give the same programme, if they succeed. *)
Theorem C56_any_order t c before after before' after' v lpi only s s' : supports_problem c = false ->
  (t = sdp -> In One (moments c) /\ forall z, zero_moment c = Some z -> In z (moments c)) ->
  (forall o, In o (before ++ after ++ before' ++ after') -> is_setting o) ->
  same_requests (before ++ SetValues v lpi only :: after) (before' ++ SetValues v lpi only :: after') ->
  run t c (before ++ SetValues v lpi only :: after) (generated t c) = Some s ->
  run t c (before' ++ SetValues v lpi only :: after') (generated t c) = Some s' ->
  known s = known s' /\ semiknown s = semiknown s' /\ (forall m, get meq m (lower s) = get meq m (lower s')) /\ (forall m, get meq m (upper s) = get meq m (upper s')) /\
  objective s = objective s' /\ processed s = processed s' /\ extra_equalities s = extra_equalities s' /\ extra_inequalities s = extra_inequalities s'.
Proof.
  intros SP MO IS (QL & QU & QO) E E'. destruct (generated_is t c SP) as (lo & _ & G). rewrite G in E, E'.
  assert (L : like t c (fst (result_values t c v lpi only)) (semis_left (result_values t c v lpi only)) (before ++ SetValues v lpi only :: after) s).
  { eapply (like_history t c SP MO before after v lpi only _ s); [intros o I; apply IS; rewrite !in_app_iff; auto|intros o I; apply IS; rewrite !in_app_iff; auto|exact G|exact E]. }
  assert (L' : like t c (fst (result_values t c v lpi only)) (semis_left (result_values t c v lpi only)) (before' ++ SetValues v lpi only :: after') s').
  { eapply (like_history t c SP MO before' after' v lpi only _ s'); [intros o I; apply IS; rewrite !in_app_iff; auto|intros o I; apply IS; rewrite !in_app_iff; auto|exact G|exact E']. }
  assert (O : objective s = objective s') by (rewrite (lk_objective _ _ _ _ _ _ L), (lk_objective _ _ _ _ _ _ L'); unfold objective_asked; rewrite QO; reflexivity).
  split; [rewrite (lk_known _ _ _ _ _ _ L), (lk_known _ _ _ _ _ _ L'); reflexivity|]. split; [rewrite (lk_semi _ _ _ _ _ _ L), (lk_semi _ _ _ _ _ _ L'); reflexivity|].
  split; [intros m; rewrite (lk_lower _ _ _ _ _ _ L), (lk_lower _ _ _ _ _ _ L'); unfold lower_asked; rewrite QL; reflexivity|].
  split; [intros m; rewrite (lk_upper _ _ _ _ _ _ L), (lk_upper _ _ _ _ _ _ L'); rewrite QU; reflexivity|]. split; [exact O|].
  split; [pose proof (lk_processed _ _ _ _ _ _ L) as P; pose proof (lk_processed _ _ _ _ _ _ L') as P'; destruct t; [rewrite O, P' in P; injection P as ->; reflexivity|rewrite P, P'; exact O]|].
  destruct (lk_extra _ _ _ _ _ _ L) as [-> ->], (lk_extra _ _ _ _ _ _ L') as [-> ->]. split; reflexivity.
Qed.
Print Assumptions C56_any_order.

(** What the bounds are in the end: those requested last, except of known moments. *)
Theorem C56_bounds_in_the_end t c before after v lpi only s : supports_problem c = false ->
  (t = sdp -> In One (moments c) /\ forall z, zero_moment c = Some z -> In z (moments c)) -> (forall o, In o (before ++ after) -> is_setting o) ->
  run t c (before ++ SetValues v lpi only :: after) (generated t c) = Some s -> forall m, (t = sdp -> get meq m (known s) = None) ->
  (forall b, latest asks_lower (before ++ SetValues v lpi only :: after) = Some b -> get meq m (lower s) = match t with sdp => lower_request c b m | lp => requested b m end) /\
  (forall b, latest asks_upper (before ++ SetValues v lpi only :: after) = Some b -> get meq m (upper s) = requested b m).
Proof.
  intros SP MO IS E m NK. destruct (generated_is t c SP) as (lo & _ & G). rewrite G in E.
  assert (L : like t c (fst (result_values t c v lpi only)) (semis_left (result_values t c v lpi only)) (before ++ SetValues v lpi only :: after) s).
  { eapply (like_history t c SP MO before after v lpi only _ s); [intros o I; apply IS; rewrite !in_app_iff; auto|intros o I; apply IS; rewrite !in_app_iff; auto|exact G|exact E]. }
  assert (H : hidden t (fst (result_values t c v lpi only)) m = false).
  { unfold hidden. destruct t; [|reflexivity]. rewrite <- (lk_known _ _ _ _ _ _ L), mmem_keys, (NK eq_refl). reflexivity. }
  split; intros b Q; [rewrite (lk_lower _ _ _ _ _ _ L m), H; unfold lower_asked; rewrite Q; reflexivity|rewrite (lk_upper _ _ _ _ _ _ L m), H, Q; reflexivity].
Qed.

(** ** An example, and: whether the calls succeed does depend on their order *)
Definition half : Qc := Q2Qc (1 # 2).
Definition order_ctx : context := {|
  moments := [[]; [0]; [1]; [0; 1]]; is_knowable := fun _ => true; dagger := fun a => a; is_zero := fun _ => false; is_one := fun _ => false; hermitian_moments := [[0]; [1]];
  zero_moment := None; supports_problem := false; minimal_equalities := []; minimal_inequalities := [] |}.
Definition the_value : op := SetValues [([0], Some half)] false false.
Definition the_bound : op := SetBounds [([1], half)] bt_lo.
Definition the_objective : op := SetObjective (Some [([0], half); ([1], half)]) true.
Definition numbers (d : mdict Qc) : list (moment * Q) := map (fun p => (fst p, this (snd p))) d.
Definition quarter : Q := (1 # 4)%Q.
Definition half_q : Q := (1 # 2)%Q.
Example C56_case : forall h, In h [[the_value; the_bound; the_objective]; [the_bound; the_objective; the_value]; [the_objective; SetBounds [([0], 0%Qc)] bt_lo; the_bound; the_value]] ->
  option_map (fun s => (numbers (known s), numbers (lower s), map (fun m => option_map this (get meq m (processed s))) [[]; [0]; [1]])) (run sdp order_ctx h (generated sdp order_ctx)) =
  Some ([([], 1%Q); ([0], half_q)], [([1], half_q)], [Some quarter; None; Some half_q]).
Proof. intros h [<-|[<-|[<-|[]]]]; vm_compute; reflexivity. Qed.
(** A negative value of a Hermitian moment is accepted after, and refused before, the lower bound that allows it. *)
Definition negative_value : op := SetValues [([0], Some (- half)%Qc)] false false.
Definition lower_minus_one : op := SetBounds [([0], (- (1))%Qc)] bt_lo.
Theorem C56_acceptance_refuted : (exists s, run sdp order_ctx [lower_minus_one; negative_value] (generated sdp order_ctx) = Some s) /\
  run sdp order_ctx [negative_value; lower_minus_one] (generated sdp order_ctx) = None.
Proof.
  split; [|vm_compute; reflexivity]. destruct (run sdp order_ctx [lower_minus_one; negative_value] (generated sdp order_ctx)) as [s|] eqn:E; [exists s; reflexivity|].
  apply (f_equal (fun o => match o with Some _ => true | None => false end)) in E. vm_compute in E. discriminate E.
Qed.
