(** Proofs about the generated linear programme: it is generated, and behaviours satisfy it. *)
From Coq Require Import Permutation Sorted.
From Verif Require Import MargModel QcSum LPModel LPSpec CliqueSpec CliqueProofs LPProofs LPProofs2 LPProofs3 LPProofs4 LPProofs5.
From Verif Require ScenarioProofs OrbitProofs UniqueProofs ColumnProofs2 SymProofs.
Close Scope Q_scope. Close Scope Qc_scope. Open Scope nat_scope.

Section Programme.
Variables (n : nat) (groups : list (bool * list nat)%type).
Hypothesis Hcat : concat (map snd groups) = seq 0 n.
Hypothesis Hne : forall t, In t groups -> snd t <> [].
Variable compat : nat -> nat -> bool.
Hypothesis Hund : undirected (nr_groups groups) compat.
Variables (syms : list (list nat)) (symmetrize : bool).
Hypothesis Hsg : symmetry_group n groups compat syms.
Hypothesis Hsyms : syms <> [].
Set Default Proof Using "All".
Local Notation grp := (grp groups).
Local Notation flag := (flag groups).
Local Notation lst := (lst groups).
Local Notation nr := (nr_groups groups).
Local Notation alt := (alt n groups).
Local Notation crit := (crit groups).
Local Notation cleared := (cleared n groups).
Local Notation valid := (valid n groups compat).
Local Notation colof := (column_of syms symmetrize).
Local Notation reps := (representatives syms symmetrize).

Variables raw events : list bvec.
Hypothesis Eraw : raw_monomials n groups compat = Some raw.
Hypothesis Eevents : maximal_events n groups compat = Some events.

Lemma raw_facts : hd_error raw = Some (blank n) /\ NoDup raw /\ NoDup events /\
  (forall v, In v raw <-> valid v /\ crit false v = []) /\
  (forall v, In v events <-> exists c, c <> [] /\ is_maximal nr compat c /\ selected n groups grp c v).
Proof.
  destruct (events_exist n groups Hcat Hne compat Hund) as (r & e & Er & Ee & H1 & H2 & H3 & H4 & H5).
  rewrite Eraw in Er. rewrite Eevents in Ee. injection Er as <-. injection Ee as <-. split; [exact H1|]. split; [exact H2|]. split; [exact H3|]. split; [|exact H5].
  intros v. rewrite H4. apply (raw_selected n groups Hcat Hne compat Hund).
Qed.
Lemma raw_length v : In v raw -> length v = n.
Proof. intros H. apply raw_facts in H as [(H & _) _]. exact H. Qed.
Lemma events_valid v : In v events -> valid v.
Proof. intros H. apply raw_facts in H as (c & _ & [C _] & H). apply (selected_valid n groups Hcat Hne compat Hund grp c v); auto. Qed.
Lemma events_length v : In v events -> length v = n.
Proof. intros H. apply events_valid in H as (H & _). exact H. Qed.

Lemma column_ok v : In v raw -> exists c, colof raw v = Some c /\ c < length (reps raw) /\ related syms v (nth c (reps raw) []) /\ In (nth c (reps raw) []) raw.
Proof.
  intros H. destruct raw_facts as (_ & N & _). destruct Hsg. apply (column_exists n syms); auto. apply raw_length.
Qed.
Lemma reps_in l v : (l = raw \/ l = events) -> In v (reps l) -> In v l.
Proof.
  intros Hl H. destruct raw_facts as (_ & N & N' & _). destruct Hsg. apply (In_nth _ _ []) in H as (c & Hc & <-).
  destruct Hl as [-> | ->]; [apply (column_rep n syms) with (symmetrize := symmetrize); auto; apply raw_length|apply (column_rep n syms) with (symmetrize := symmetrize); auto; apply events_length].
Qed.
Lemma row_of_some (terms : list (bvec * bool)) : (forall t, In t terms -> In (fst t) raw) ->
  exists r, row_of syms symmetrize raw terms = Some r /\
    Forall2 (fun t q => colof raw (fst t) = Some (fst q) /\ snd q = sgn (snd t)) terms r.
Proof.
  intros H. unfold row_of. destruct (ColumnProofs2.map_opt_total (fun t : bvec * bool => option_map (fun c => (c, sgn (snd t))) (colof raw (fst t))) terms) as [r E].
  - intros t Ht. destruct (column_ok _ (H t Ht)) as (c & -> & _). eexists. reflexivity.
  - exists r. split; [exact E|]. apply ScenarioProofs.map_opt_some in E. eapply Forall2_weaken; [|exact E]. intros t q Q. cbn beta in Q.
    destruct (colof raw (fst t)) as [c|]; [|discriminate]. cbn in Q. injection Q as <-. auto.
Qed.
(** value of the row = signed sum, for any function that agrees with x on generated events *)
Lemma row_of_value (x : nat -> Qc) (X : bvec -> Qc) terms r : (forall t, In t terms -> In (fst t) raw) ->
  (forall v c, In v raw -> colof raw v = Some c -> x c = X v) ->
  row_of syms symmetrize raw terms = Some r -> row_value x r = tsum X terms.
Proof.
  intros H Hx E. destruct (row_of_some terms H) as (r' & E' & F). rewrite E in E'. injection E' as <-. unfold row_value, tsum.
  clear E. induction F as [|t q terms r [F1 F2] F IH]; [reflexivity|]. cbn [map]. rewrite !sumQ_cons, IH by (intros u Hu; apply H; right; exact Hu).
  rewrite (Hx _ _ (H t (or_introl eq_refl)) F1), F2. reflexivity.
Qed.

Lemma terms_raw b v u s : valid v -> (b = true -> crit false v = []) -> In (u, s) (nested (map alt (crit b v)) (cleared b v) false) -> In u raw.
Proof.
  intros V Hb Hu. apply (terms_valid n groups Hcat Hne compat Hund) in Hu as (U1 & U2 & U3 & _); [|exact V]. apply raw_facts. split; [exact U1|].
  destruct b; [|exact U2]. apply (crit_nil n groups Hcat Hne compat Hund). intros t Ht Hf. rewrite U3 by (try assumption; congruence).
  apply (proj1 (crit_nil n groups Hcat Hne compat Hund v false) (Hb eq_refl) t Ht Hf).
Qed.
(** C20: no lookup fails *)
Lemma inequality_row_ok v : valid v -> exists r, inequality_row n groups syms symmetrize raw v = Some r /\
  forall x X, (forall v c, In v raw -> colof raw v = Some c -> x c = X v) -> row_value x r = nsum X (map alt (crit false v)) (cleared false v).
Proof.
  intros V. pose proof V as (L & _). unfold inequality_row. destruct (vany (vand v (not_in_CG n groups))) eqn:E.
  - apply (vany_crit n groups Hcat Hne false v L) in E. 
    change (expand (not_in_CG n groups) (alternatives n (not_in_CG n groups) (CG_adjusting n groups)) v) with (expand (mask n groups false) (alternatives n (mask n groups false) (masked_groups n groups false)) v).
    rewrite (expand_terms n groups Hcat Hne false v L E).
    assert (T : forall t, In t (nested (map alt (crit false v)) (cleared false v) false) -> In (fst t) raw).
    { intros [u s] Hu. apply (terms_raw false v u s V); [discriminate|exact Hu]. }
    destruct (row_of_some _ T) as (r & Er & _). exists r. split; [exact Er|]. intros x X Hx. rewrite (row_of_value x X _ r T Hx Er). reflexivity.
  - assert (Hc : crit false v = []).
    { destruct (crit false v) eqn:K; [reflexivity|]. assert (crit false v <> []) by congruence. apply (vany_crit n groups Hcat Hne false v L) in H.
      change (mask n groups false) with (not_in_CG n groups) in H. congruence. }
    assert (R : In v raw) by (apply raw_facts; auto). destruct (column_ok v R) as (c & Ec & _). rewrite Ec. eexists. split; [reflexivity|]. intros x X Hx.
    rewrite Hc, (cleared_id n groups Hcat Hne compat Hund) by assumption. cbn [map]. rewrite nsum_nil. unfold row_value. cbn [map fst snd]. rewrite sumQ_cons, sumQ_nil.
    rewrite (Hx v c R Ec). ring.
Qed.
Lemma equality_row_ok v : In v raw -> crit true v <> [] -> exists r, equality_row n groups syms symmetrize raw v = Some r /\
  forall x X, (forall v c, In v raw -> colof raw v = Some c -> x c = X v) -> row_value x r = (nsum X (map alt (crit true v)) (cleared true v) - X v)%Qc.
Proof.
  intros Hv Hc. pose proof Hv as Hv'. apply raw_facts in Hv' as [V Hf]. pose proof V as (L & _). unfold equality_row.
  change (expand (trigger_equality n groups) (alternatives n (trigger_equality n groups) (CG_nonadjusting n groups)) v) with (expand (mask n groups true) (alternatives n (mask n groups true) (masked_groups n groups true)) v).
  rewrite (expand_terms n groups Hcat Hne true v L Hc).
  assert (T : forall t, In t (nested (map alt (crit true v)) (cleared true v) false ++ [(v, true)]) -> In (fst t) raw).
  { intros [u s] Hu. apply in_app_or in Hu as [Hu|[[= <- _]|[]]]; [apply (terms_raw true v u s V); auto|exact Hv]. }
  destruct (row_of_some _ T) as (r & Er & _). exists r. split; [exact Er|]. intros x X Hx. rewrite (row_of_value x X _ r T Hx Er).
  rewrite tsum_app. unfold nsum. unfold tsum at 2. cbn [map fst snd sgn]. rewrite sumQ_cons, sumQ_nil. ring.
Qed.
Lemma trigger_crit v : In v raw -> (vany (vand v (trigger_equality n groups)) = true <-> crit true v <> []).
Proof. intros H. apply (vany_crit n groups Hcat Hne true v (raw_length v H)). Qed.

Theorem generate_ok : exists prog, generate_lp n groups compat syms symmetrize = Some prog /\ lp_columns prog = reps raw /\
  Forall2 (fun v r => inequality_row n groups syms symmetrize raw v = Some r) (reps events) (lp_inequalities prog) /\
  Forall2 (fun v r => equality_row n groups syms symmetrize raw v = Some r)
     (filter (fun v => vany (vand v (trigger_equality n groups))) (reps raw)) (lp_equalities prog).
Proof.
  unfold generate_lp. rewrite Eraw, Eevents.
  assert (Ineq : exists l, minimal_inequalities n groups syms symmetrize raw events = Some l).
  { apply ColumnProofs2.map_opt_total. intros v Hv. apply reps_in in Hv; [|auto]. destruct (inequality_row_ok v (events_valid v Hv)) as (r & E & _). exists r. exact E. }
  destruct Ineq as [ineqs Ei].
  assert (Eqs : exists l, minimal_equalities n groups syms symmetrize raw = Some l /\
     Forall2 (fun v r => equality_row n groups syms symmetrize raw v = Some r) (filter (fun v => vany (vand v (trigger_equality n groups))) (reps raw)) l).
  { unfold minimal_equalities. destruct (vany (trigger_equality n groups)) eqn:E.
    - destruct (ColumnProofs2.map_opt_total (equality_row n groups syms symmetrize raw) (filter (fun v => vany (vand v (trigger_equality n groups))) (reps raw))) as [l El].
      + intros v Hv. apply filter_In in Hv as [Hv K]. apply reps_in in Hv; [|auto]. apply trigger_crit in K; [|exact Hv].
        destruct (equality_row_ok v Hv K) as (r & Er & _). exists r. exact Er.
      + exists l. split; [exact El|]. apply ScenarioProofs.map_opt_some, El.
    - exists []. split; [reflexivity|]. replace (filter _ _) with (@nil bvec); [constructor|]. symmetry.
      destruct (filter (fun v => vany (vand v (trigger_equality n groups))) (reps raw)) as [|v l] eqn:K; [reflexivity|].
      assert (H : In v (v :: l)) by (left; reflexivity). rewrite <- K in H. apply filter_In in H as [H1 H2]. apply reps_in in H1; [|auto].
      exfalso. apply vany_iff in H2 as (i & Hi).
      pose proof (mask_length n groups Hcat Hne true) as ML. change (mask n groups true) with (trigger_equality n groups) in ML.
      rewrite nth_vand in Hi by (rewrite ML; apply raw_length; exact H1). apply andb_prop in Hi as [_ Hi]. rewrite (proj1 (vany_false _) E i) in Hi. discriminate. }
  destruct Eqs as (eqs & Ee & Fe). rewrite Ee, Ei. eexists. split; [reflexivity|]. cbn. split; [reflexivity|]. split; [|exact Fe].
  apply ScenarioProofs.map_opt_some, Ei.
Qed.

(** * behaviours satisfy the programme *)
Section World.
Variable w : nat -> bool.
Definition chk v : Qc := if happens w v then 1%Qc else 0%Qc.
Lemma happens_iff v : happens w v = true <-> forall i, nth i v false = true -> w i = true.
Proof.
  unfold happens. rewrite forallb_forall. split.
  - intros H i Hi. specialize (H i). rewrite in_seq in H. rewrite Hi in H. cbn in H. apply H. pose proof (nth_true_lt _ _ Hi). lia.
  - intros H i _. destruct (nth i v false) eqn:E; [|reflexivity]. cbn. apply H, E.
Qed.
Lemma chk_add v t i : length v = n -> In i (grp t) -> chk (add n v i) = (chk v * (if w i then 1 else 0))%Qc.
Proof.
  intros L Hi. unfold chk. replace (happens w (add n v i)) with (happens w v && w i).
  - destruct (happens w v), (w i); cbn [andb]; ring.
  - apply eq_true_iff_eq. rewrite andb_true_iff, !happens_iff. split.
    + intros [H1 H2] j Hj. apply (nth_add_grp n groups Hcat Hne compat Hund v t) in Hj as [Hj| ->]; auto.
    + intros H. split; [intros j Hj|]; apply H; apply (nth_add_grp n groups Hcat Hne compat Hund v t); auto.
Qed.
Lemma one_outcome_last t : t < nr -> one_outcome (grp t) w ->
  (1 - sumQ (map (fun i => if w i then 1 else 0) (removelast (grp t))))%Qc = (if w (lst t) then 1 else 0)%Qc.
Proof.
  intros Ht (k & Hk & Wk & U).
  assert (T : sumQ (map (fun i => if w i then 1%Qc else 0%Qc) (grp t)) = 1%Qc).
  { rewrite (sumQ_single Nat.eq_dec (grp t) k _ (grp_NoDup n groups Hcat Hne t) Hk); [rewrite Wk; reflexivity|].
    intros j Hj N. destruct (w j) eqn:E; [|reflexivity]. exfalso. apply N, U; assumption. }
  rewrite (grp_split n groups Hcat Hne t Ht), map_app, sumQ_app in T. cbn [map] in T. rewrite sumQ_cons, sumQ_nil in T.
  revert T. generalize (sumQ (map (fun i => if w i then 1%Qc else 0%Qc) (removelast (grp t)))). generalize (if w (lst t) then 1%Qc else 0%Qc). intros a b T. rewrite <- T. ring.
Qed.
Lemma nsum_chk ls : (forall t, In t ls -> t < nr /\ one_outcome (grp t) w) -> forall acc, length acc = n ->
  nsum chk (map alt ls) acc = (chk acc * prodQ (map (fun t => if w (lst t) then 1 else 0) ls))%Qc.
Proof.
  induction ls as [|t ls IH]; intros H acc L; cbn [map].
  - rewrite nsum_nil, prodQ_nil. ring.
  - destruct (H t (or_introl eq_refl)) as [Ht O]. assert (H' : forall t, In t ls -> t < nr /\ one_outcome (grp t) w) by (intros u Hu; apply H; right; exact Hu).
    rewrite (nsum_alt n groups Hcat Hne compat Hund) by exact L. rewrite (IH H' acc L), prodQ_cons.
    set (p := prodQ (map (fun t0 => if w (lst t0) then 1%Qc else 0%Qc) ls)) in *.
    rewrite (sumQ_ext _ _ (fun i => (chk acc * p) * (if w i then 1 else 0))%Qc).
    + rewrite sumQ_scale, <- (one_outcome_last t Ht O). ring.
    + intros i Hi. apply (nonlast_in n groups Hcat Hne) in Hi. rewrite (IH H') by (apply (add_length n groups Hcat Hne compat Hund); exact L). rewrite (chk_add acc t i L Hi). ring.
Qed.
Lemma chk_split b v : length v = n -> chk v = (chk (cleared b v) * prodQ (map (fun t => if w (lst t) then 1 else 0) (crit b v)))%Qc.
Proof.
  intros L.
  assert (P : forall l, prodQ (map (fun t => if w (lst t) then 1 else 0)%Qc l) = if forallb (fun t => w (lst t)) l then 1%Qc else 0%Qc).
  { induction l as [|t l IH]; [reflexivity|]. cbn [map forallb]. rewrite prodQ_cons, IH. destruct (w (lst t)); cbn [andb]; ring. }
  rewrite P. unfold chk. replace (happens w v) with (happens w (cleared b v) && forallb (fun t => w (lst t)) (crit b v)).
  - destruct (happens w (cleared b v)), (forallb _ _); cbn [andb]; ring.
  - apply eq_true_iff_eq. rewrite andb_true_iff, !happens_iff, forallb_forall. split.
    + intros [H1 H2] i Hi. destruct (nth i (cleared b v) false) eqn:E; [apply H1, E|].
      assert (K : ~ ~ exists t, In t (ids groups b) /\ lst t = i).
      { intros K. assert (nth i (cleared b v) false = true) by (apply (nth_cleared n groups Hcat Hne); auto). congruence. }
      assert (D : {t | In t (ids groups b) /\ lst t = i} + {forall t, In t (ids groups b) -> lst t <> i}).
      { clear. induction (ids groups b) as [|t l [(u & Hu & E)|IH]].
        - right. intros t [].
        - left. exists u. split; [right; exact Hu|exact E].
        - destruct (Nat.eq_dec (lst t) i) as [E|E]; [left; exists t; split; [left; reflexivity|exact E]|right]. intros u [<-|Hu]; auto. }
      destruct D as [(t & Ht & <-)|D]; [|exfalso; apply K; intros (t & Ht & E2); apply (D t Ht E2)].
      apply H2. apply filter_In. auto.
    + intros H. split.
      * intros i Hi. apply H. apply (nth_cleared n groups Hcat Hne) in Hi; tauto.
      * intros t Ht. apply H. apply (crit_in n groups Hcat Hne) in Ht. tauto.
Qed.
Lemma nsum_event b v : length v = n -> (forall t, In t (crit b v) -> one_outcome (grp t) w) -> nsum chk (map alt (crit b v)) (cleared b v) = chk v.
Proof.
  intros L H. rewrite nsum_chk; [symmetry; apply chk_split, L| |apply cleared_length; assumption].
  intros t Ht. split; [|apply H, Ht]. apply (crit_in n groups Hcat Hne) in Ht. tauto.
Qed.
End World.

Lemma tsum_ext X Y terms : (forall t, In t terms -> X (fst t) = Y (fst t)) -> tsum X terms = tsum Y terms.
Proof. intros H. unfold tsum. apply sumQ_ext. intros t Ht. rewrite (H t Ht). reflexivity. Qed.
Lemma prob_chk ws v : prob ws v = sumQ (map (fun q => fst q * chk (snd q) v)%Qc ws).
Proof. unfold prob. apply sumQ_ext. intros q _. unfold chk. destruct (happens (snd q) v); ring. Qed.
Lemma valid_involves v u : valid v -> length u = n -> (forall t, touch groups u t -> touch groups v t) -> involves (map snd groups) (touched groups v) u.
Proof.
  intros V L T i Hi. destruct (grp_cover n groups Hcat Hne i) as (t & Ht & Hg); [rewrite <- L; apply nth_true_lt, Hi|].
  exists t. split; [apply (touched_in n groups Hcat Hne compat Hund), T; exists i; auto|]. rewrite <- (grp_nth n groups Hcat Hne). exact Hg.
Qed.
Theorem behaviour_expansion P b v : behaviour n (map snd groups) compat P -> valid v -> nsum P (map alt (crit b v)) (cleared b v) = P v.
Proof.
  intros B V. pose proof V as (L & _).
  destruct (B (touched groups v)) as (ws & D & O & HP).
  { rewrite map_length. apply (touched_clique n groups Hcat Hne compat Hund), V. }
  assert (Hv : P v = prob ws v) by (apply HP; [exact L|]; apply valid_involves; auto).
  unfold nsum. rewrite (tsum_ext P (prob ws)).
  - rewrite Hv, prob_chk. unfold tsum.
    rewrite (sumQ_ext _ _ (fun p => sumQ (map (fun q => sgn (snd p) * (fst q * chk (snd q) (fst p)))%Qc ws))).
    + rewrite sumQ_swap. apply sumQ_ext. intros q Hq. 
      rewrite (sumQ_ext _ _ (fun p => fst q * (sgn (snd p) * chk (snd q) (fst p)))%Qc) by (intros p _; ring).
      rewrite sumQ_scale. f_equal. fold (tsum (chk (snd q)) (nested (map alt (crit b v)) (cleared b v) false)). fold (nsum (chk (snd q)) (map alt (crit b v)) (cleared b v)).
      apply nsum_event; [exact L|]. intros t Ht. rewrite (grp_nth n groups Hcat Hne). apply O; [exact Hq|].
      apply (touched_in n groups Hcat Hne compat Hund). apply (crit_in n groups Hcat Hne) in Ht as (T1 & T2 & T3). exists (lst t). split; [apply (lst_in n groups Hcat Hne), T1|exact T3].
    + intros p _. rewrite prob_chk, <- sumQ_scale. reflexivity.
  - intros [u s] Hu. cbn [fst]. apply (terms_valid n groups Hcat Hne compat Hund) in Hu as ((U1 & _) & _ & _ & U4); [|exact V]. apply HP; [exact U1|]. apply valid_involves; auto.
Qed.
Lemma behaviour_blank P : behaviour n (map snd groups) compat P -> P (blank n) = 1%Qc.
Proof.
  intros B. destruct (B []) as (ws & [_ D] & _ & HP).
  { split; [constructor|]. split; [intros ? []|intros ? ? []]. }
  rewrite HP; [|apply blank_length|intros i Hi; rewrite nth_blank in Hi; discriminate]. rewrite <- D. unfold prob. apply sumQ_ext. intros q _.
  replace (happens (snd q) (blank n)) with true; [reflexivity|]. symmetry. apply happens_iff. intros i Hi. rewrite nth_blank in Hi. discriminate.
Qed.
Lemma behaviour_nonneg P v : behaviour n (map snd groups) compat P -> valid v -> (0 <= P v)%Qc.
Proof.
  intros B V. pose proof V as (L & _). destruct (B (touched groups v)) as (ws & [D _] & O & HP).
  { rewrite map_length. apply (touched_clique n groups Hcat Hne compat Hund), V. }
  rewrite HP; [|exact L|apply valid_involves; auto]. unfold prob. apply sumQ_nonneg. intros q Hq. destruct (happens (snd q) v); [apply D, Hq|apply Qcle_refl].
Qed.
Lemma column_value P v c : invariant n syms P -> In v raw -> colof raw v = Some c -> P (nth c (reps raw) []) = P v.
Proof.
  intros I Hv E. destruct (column_ok v Hv) as (c' & E' & _ & (g & Hg & E2) & _). rewrite E in E'. injection E' as <-. rewrite <- E2.
  apply (I g v Hg). apply raw_length, Hv.
Qed.
Theorem behaviour_feasible P prog : behaviour n (map snd groups) compat P -> invariant n syms P ->
  generate_lp n groups compat syms symmetrize = Some prog ->
  let x c := P (nth c (lp_columns prog) []) in
  x 0 = 1%Qc /\ (forall r, In r (lp_equalities prog) -> row_value x r = 0%Qc) /\
  Forall2 (fun v r => row_value x r = P v) (reps events) (lp_inequalities prog) /\
  (forall r, In r (lp_inequalities prog) -> (0 <= row_value x r)%Qc).
Proof.
  intros B I E x. destruct generate_ok as (prog' & E' & C & F1 & F2). rewrite E in E'. injection E' as <-.
  assert (Hx : forall v c, In v raw -> colof raw v = Some c -> x c = P v) by (intros v c Hv Hc; unfold x; rewrite C; apply column_value; assumption).
  assert (F3 : Forall2 (fun v r => row_value x r = P v) (reps events) (lp_inequalities prog)).
  { assert (K : forall v, In v (reps events) -> In v events) by (intros v; apply reps_in; auto). revert F1 K. generalize (reps events), (lp_inequalities prog). clear - Hx B Hcat Hne Hund Hsg Hsyms Eraw Eevents.
    induction 1 as [|v r l l' E F IH]; intros K; constructor; [|apply IH; intros u Hu; apply K; right; exact Hu].
    destruct (inequality_row_ok v) as (r' & E' & V); [apply events_valid, K; left; reflexivity|]. rewrite E in E'. injection E' as <-.
    rewrite (V x P Hx). apply behaviour_expansion; [exact B|]. apply events_valid, K. left. reflexivity. }
  split; [|split; [|split; [exact F3|]]].
  - destruct raw_facts as (Hh & N & _). unfold x. rewrite C.
    assert (K0 : raw <> [] /\ nth 0 raw [] = blank n). { clear - Hh. destruct raw; [discriminate|]. cbn in Hh. injection Hh as ->. split; [discriminate|reflexivity]. }
    destruct K0 as [K0 K1]. destruct Hsg. assert (K : nth 0 (reps raw) [] = nth 0 raw []) by (apply (column_first n syms); auto; apply raw_length).
    rewrite K, K1. apply behaviour_blank, B.
  - intros r Hr. apply (Forall2_in_r _ _ _ _ F2) in Hr as (v & Hv & Er). apply filter_In in Hv as [Hv K]. apply reps_in in Hv; [|auto].
    apply trigger_crit in K; [|exact Hv]. destruct (equality_row_ok v Hv K) as (r' & Er' & V). rewrite Er in Er'. injection Er' as <-.
    rewrite (V x P Hx), behaviour_expansion; [ring|exact B|]. apply raw_facts in Hv. tauto.
  - intros r Hr. apply (Forall2_in_r _ _ _ _ F3) in Hr as (v & Hv & ->). apply reps_in in Hv; [|auto]. apply behaviour_nonneg; [exact B|]. apply events_valid, Hv.
Qed.
End Programme.
