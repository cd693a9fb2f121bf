(** Proofs about the generated linear programme: the programme of a scenario is exact. *)
From Coq Require Import Permutation Sorted.
From Verif Require Import ScenarioSpec SymModel SymSpec MargModel QcSum LPModel LPSpec LPSpec2 CliqueSpec LPProofs LPProofs2 LPProofs3 LPProofs4 LPProofs5 LPProofs6 LPProofs7 LPProofs8.
From Verif Require ScenarioProofs SymProofs.
Close Scope Q_scope. Close Scope Qc_scope. Open Scope nat_scope.

Section Exact.
Variable sc : scenario.
Hypothesis W : wf_scenario sc.
Hypothesis Hout : forall o, In o (outcomes sc) -> 1 <= o.
Variable all_outcomes : bool.
Local Notation groups := (tagged_groups sc all_outcomes).
Local Notation n := (length (lexorder sc)).
Local Notation meas := (measures sc all_outcomes).
Local Notation grp := (grp groups).

Lemma meas_op t p c s : meas t p c s -> is_measurement sc (p, c, s).
Proof.
  intros (_ & Hp & Hc & Hs & _). apply (ScenarioProofs.inflation_indices_in sc p c W) in Hc as [C1 C2]. split; [exact Hp|]. split; [exact C1|]. split; [exact C2|].
  split; [exact Hs|]. apply (positive sc Hout p Hp).
Qed.
Lemma op_meas m : is_measurement sc m -> exists t, meas t (fst (fst m)) (snd (fst m)) (snd m).
Proof.
  intros (Hp & C1 & C2 & Hs & _). apply (measures_onto sc Hout); auto. apply (ScenarioProofs.inflation_indices_in sc _ _ W). auto.
Qed.
Lemma mkrow_inj p c s o p' c' s' o' : mkrow p c s o = mkrow p' c' s' o' -> p = p' /\ c = c' /\ s = s' /\ o = o'.
Proof.
  intros E. pose proof (f_equal row_party E) as E1. pose proof (f_equal row_copies E) as E2. pose proof (f_equal row_setting E) as E3. pose proof (f_equal row_outcome E) as E4.
  rewrite !ScenarioProofs.mkrow_party in E1. rewrite !ScenarioProofs.mkrow_copies in E2. rewrite !ScenarioProofs.mkrow_setting in E3. rewrite !ScenarioProofs.mkrow_outcome in E4. auto.
Qed.
Lemma meas_outcome t p c s i : meas t p c s -> (In i (grp t) <-> exists o, outcome_of sc (p, c, s) o i).
Proof.
  intros M. pose proof M as (_ & Hp & Hc & Hs & _ & R). rewrite (measures_grp sc all_outcomes t p c s M), in_seq. unfold outcome_of. cbn [fst snd]. split.
  - intros Hi. exists (i - hd 0 (grp t)). rewrite <- R by lia. f_equal. lia.
  - intros (o & Ho). assert (K : o < nth p (outcomes sc) 0).
    { destruct (ScenarioProofs.lexorder_nth sc i _ W Ho) as (p' & c' & s' & o' & E & V). apply mkrow_inj in E as (E1 & -> & -> & ->). assert (p = p') by lia. subst. apply V. }
    assert (i = hd 0 (grp t) + o); [|lia]. apply (proj1 (NoDup_nth_error (lexorder sc)) (ScenarioProofs.lexorder_NoDup sc W)); [apply nth_error_Some; congruence|]. rewrite Ho, R by exact K. reflexivity.
Qed.
Lemma outcome_fun m o i m' o' : outcome_of sc m o i -> outcome_of sc m' o' i -> m = m' /\ o = o'.
Proof.
  unfold outcome_of. intros H H'. rewrite H in H'. injection H' as H'. destruct m as [[p c] s], m' as [[p' c'] s']. cbn [fst snd] in *.
  destruct (mkrow_inj (p+1) c s o (p'+1) c' s' o') as (E1 & -> & -> & ->); [unfold mkrow; congruence|]. assert (p = p') by lia. subst. auto.
Qed.
Lemma outcome_inj m o i i' : outcome_of sc m o i -> outcome_of sc m o i' -> i = i'.
Proof.
  unfold outcome_of. intros H H'. apply (proj1 (NoDup_nth_error (lexorder sc)) (ScenarioProofs.lexorder_NoDup sc W)); [apply nth_error_Some; congruence|congruence].
Qed.
Lemma meas_inj t u p c s : meas t p c s -> meas u p c s -> t = u.
Proof.
  intros M M'. pose proof M as (Ht & _). assert (K : exists i, In i (grp t)).
  { assert (In (nth t groups (false, [])) groups) by (apply nth_In, Ht). pose proof (groups_ne sc Hout all_outcomes _ H) as N. unfold LPProofs2.grp. destruct (snd (nth t groups (false, []))) as [|i l]; [congruence|]. exists i. left. reflexivity. }
  destruct K as (i & Hi). apply (grp_unique n groups (groups_cat sc all_outcomes) (groups_ne sc Hout all_outcomes) t u i Hi). apply (meas_outcome u p c s i M'). apply (meas_outcome t p c s i M), Hi.
Qed.
(** the measurement of a group *)
Lemma meas_choice : exists mf : nat -> measurement, forall t, t < length groups -> meas t (fst (fst (mf t))) (snd (fst (mf t))) (snd (mf t)).
Proof.
  destruct (Forall2_choice (fun t (m : measurement) => meas t (fst (fst m)) (snd (fst m)) (snd m)) (seq 0 (length groups))) as [ms F].
  { intros t Ht. apply in_seq in Ht. destruct (measures_exists sc Hout all_outcomes t) as (p & c & s & M); [lia|]. exists (p, c, s). exact M. }
  exists (fun t => nth t ms (0, [], 0)). intros t Ht.
  assert (G : forall l a ms, Forall2 (fun t (m : measurement) => meas t (fst (fst m)) (snd (fst m)) (snd m)) (seq a l) ms -> forall t, t < l -> meas (a + t) (fst (fst (nth t ms (0, [], 0)))) (snd (fst (nth t ms (0, [], 0)))) (snd (nth t ms (0, [], 0)))).
  { induction l as [|l IH]; intros a ms' F' k Hk; [lia|]. cbn [seq] in F'. inversion F' as [|? m ? ms'' H1 H2]; subst. destruct k as [|k]; cbn [nth]; [rewrite Nat.add_0_r; exact H1|].
    rewrite Nat.add_succ_r. apply (IH (S a)); [exact H2|lia]. }
  apply (G _ _ _ F t Ht).
Qed.
Lemma meas_eq_dec (m m' : measurement) : {m = m'} + {m <> m'}.
Proof. decide equality; [apply Nat.eq_dec|]. decide equality; [apply (list_eq_dec Nat.eq_dec)|apply Nat.eq_dec]. Qed.

Section Choice.
Variable mf : nat -> measurement.
Hypothesis Hmf : forall t, t < length groups -> meas t (fst (fst (mf t))) (snd (fst (mf t))) (snd (mf t)).
Lemma mf_onto m : is_measurement sc m -> exists t, t < length groups /\ mf t = m.
Proof.
  intros H. destruct (op_meas m H) as (t & M). pose proof M as (Ht & _). exists t. split; [exact Ht|]. pose proof (Hmf t Ht) as M'.
  destruct (proj1 (meas_outcome t _ _ _ (hd 0 (grp t)) M)) as (o & Ho).
  { assert (In (nth t groups (false, [])) groups) by (apply nth_In, Ht). pose proof (groups_ne sc Hout all_outcomes _ H0) as N. unfold LPProofs2.grp. destruct (snd (nth t groups (false, []))) as [|i l]; [congruence|]. left. reflexivity. }
  assert (K : In (hd 0 (grp t)) (grp t)) by (apply (meas_outcome t _ _ _ _ M); exists o; exact Ho). apply (meas_outcome t _ _ _ _ M') in K as (o' & Ho').
  destruct (outcome_fun _ _ _ _ _ Ho' Ho) as [E _]. destruct (mf t) as [[p c] s], m as [[p' c'] s']. exact E.
Qed.
Lemma mf_outcome t i : t < length groups -> (In i (grp t) <-> exists o, outcome_of sc (mf t) o i).
Proof. intros Ht. rewrite (meas_outcome t _ _ _ i (Hmf t Ht)). destruct (mf t) as [[p c] s]. reflexivity. Qed.
Lemma mf_inj t u : t < length groups -> u < length groups -> mf t = mf u -> t = u.
Proof. intros Ht Hu E. apply (meas_inj t u (fst (fst (mf t))) (snd (fst (mf t))) (snd (mf t))); [apply Hmf, Ht|rewrite E; apply Hmf, Hu]. Qed.
Lemma mf_compat t u : t < length groups -> u < length groups ->
  (compatible sc t u = true <-> commute_rule sc (fst (fst (mf t))) (snd (fst (mf t))) (snd (mf t)) (fst (fst (mf u))) (snd (fst (mf u))) (snd (mf u))).
Proof. intros Ht Hu. apply (compat_rule sc W Hout all_outcomes); apply Hmf; assumption. Qed.
Lemma clique_joint c : is_clique (length groups) (compatible sc) c -> jointly_measurable sc (map mf c).
Proof.
  intros (_ & C2 & C3). split.
  - intros m Hm. apply in_map_iff in Hm as (t & <- & Ht). pose proof (meas_op _ _ _ _ (Hmf t (C2 t Ht))) as K. destruct (mf t) as [[p c'] s]. exact K.
  - intros m m' Hm Hm'. apply in_map_iff in Hm as (t & <- & Ht), Hm' as (u & <- & Hu). destruct (Nat.eq_dec t u) as [->|N]; [apply ScenarioProofs.commute_rule_refl|].
    apply mf_compat; auto.
Qed.
Definition groups_of (ms : list measurement) := filter (fun t => if in_dec meas_eq_dec (mf t) ms then true else false) (seq 0 (length groups)).
Lemma groups_of_in ms t : In t (groups_of ms) <-> t < length groups /\ In (mf t) ms.
Proof. unfold groups_of. rewrite filter_In, in_seq. destruct (in_dec meas_eq_dec (mf t) ms); intuition (try lia; try discriminate). Qed.
Lemma joint_clique ms : jointly_measurable sc ms -> is_clique (length groups) (compatible sc) (groups_of ms).
Proof.
  intros [J1 J2]. split; [|split].
  - unfold groups_of. generalize (ScenarioProofs.seq_SS 0 (length groups)). generalize (seq 0 (length groups)) as l. clear. induction 1 as [|a l H IH F]; [constructor|]. cbn [filter].
    destruct (in_dec meas_eq_dec (mf a) ms); [|exact IH]. constructor; [exact IH|]. rewrite Forall_forall in *. intros y Hy. apply filter_In in Hy as [Hy _]. apply F, Hy.
  - intros t Ht. apply groups_of_in in Ht. tauto.
  - intros t u Ht Hu _. apply groups_of_in in Ht as [Ht Ht'], Hu as [Hu Hu']. apply mf_compat; auto.
Qed.
Lemma nth_ortho t : nth t (ortho_idxs sc) [] = grp t.
Proof. rewrite <- (snd_groups sc all_outcomes). symmetry. apply (grp_nth n groups (groups_cat sc all_outcomes) (groups_ne sc Hout all_outcomes)). Qed.

Lemma behaviour_scenario P : behaviour n (map snd groups) (compatible sc) P <-> scenario_behaviour sc P.
Proof.
  rewrite snd_groups. assert (LG : length (ortho_idxs sc) = length groups) by (rewrite <- (snd_groups sc all_outcomes), map_length; reflexivity). split.
  - intros B ms J. destruct (B (groups_of ms)) as (ws & D & O & HP); [rewrite LG; apply joint_clique, J|]. exists ws. split; [exact D|]. split.
    + intros q m Hq Hm. destruct (mf_onto m) as (t & Ht & E); [apply J, Hm|]. destruct (O q t Hq) as (i & Hi & Qi & U); [apply groups_of_in; split; [exact Ht|congruence]|].
      rewrite nth_ortho in Hi, U. pose proof Hi as Hi'. apply mf_outcome in Hi' as (o & Ho); [|exact Ht]. rewrite E in Ho. exists o, i. split; [exact Ho|]. split; [exact Qi|].
      intros o' i' Ho' Qi'. assert (i' = i) by (apply U; [apply mf_outcome; [exact Ht|]; exists o'; congruence|exact Qi']). subst i'. apply (outcome_fun m o' i m o Ho' Ho).
    + intros v L Hv. apply HP; [exact L|]. intros i Hi. destruct (Hv i Hi) as (m & o & Hm & Ho). destruct (mf_onto m) as (t & Ht & E); [apply J, Hm|].
      exists t. split; [apply groups_of_in; split; [exact Ht|congruence]|]. rewrite nth_ortho. apply mf_outcome; [exact Ht|]. exists o. congruence.
  - intros B c C. rewrite LG in C. destruct (B (map mf c) (clique_joint c C)) as (ws & D & O & HP). pose proof C as (_ & C2 & _). exists ws. split; [exact D|]. split.
    + intros q t Hq Ht. destruct (O q (mf t) Hq (in_map _ _ _ Ht)) as (o & i & Ho & Qi & U). rewrite nth_ortho. exists i. split; [apply mf_outcome; eauto|]. split; [exact Qi|].
      intros j Hj Qj. apply mf_outcome in Hj as (o' & Ho'); [|auto]. assert (o' = o) by (apply (U o' j); assumption). subst. apply (outcome_inj (mf t) o); assumption.
    + intros v L Hv. apply HP; [exact L|]. intros i Hi. destruct (Hv i Hi) as (t & Ht & Hi'). rewrite nth_ortho in Hi'. apply mf_outcome in Hi' as (o & Ho); [|auto].
      exists (mf t), o. split; [apply in_map, Ht|exact Ho].
Qed.
Lemma complete_event_iff v : complete_event sc v <-> exists c, c <> [] /\ is_maximal (length groups) (compatible sc) c /\ selected n groups grp c v.
Proof.
  split.
  - intros (L & ms & Ne & J & Mx & A1 & A2 & A3). exists (groups_of ms). split; [|split; [split|]].
    + destruct ms as [|m ms]; [congruence|]. destruct (mf_onto m) as (t & Ht & E); [apply J; left; reflexivity|]. intros K. assert (H : In t (groups_of (m :: ms))) by (apply groups_of_in; split; [exact Ht|left; congruence]). rewrite K in H. destruct H.
    + apply joint_clique, J.
    + intros t Ht Nt. destruct (existsb (fun y => negb (compatible sc y t)) (groups_of ms)) eqn:E.
      * apply existsb_exists in E as (y & Hy & E). exists y. split; [exact Hy|]. apply negb_true_iff, E.
      * exfalso. apply Nt. apply groups_of_in. split; [exact Ht|]. pose proof (meas_op _ _ _ _ (Hmf t Ht)) as K. assert (K' : is_measurement sc (mf t)) by (destruct (mf t) as [[p c'] s]; exact K).
        apply Mx; [exact K'|].
        assert (Y : forall m, In m ms -> commute_rule sc (fst (fst m)) (snd (fst m)) (snd m) (fst (fst (mf t))) (snd (fst (mf t))) (snd (mf t))).
        { intros m Hm. destruct (mf_onto m) as (y & Hy & Ey); [apply J, Hm|]. rewrite <- Ey. apply mf_compat; [exact Hy|exact Ht|].
          destruct (compatible sc y t) eqn:Eyt; [reflexivity|]. exfalso. rewrite <- not_true_iff_false in E. apply E. apply existsb_exists. exists y. split; [apply groups_of_in; split; [exact Hy|congruence]|]. rewrite Eyt. reflexivity. }
        split; [intros m [<-|Hm]; [exact K'|apply J, Hm]|]. intros m m' [<-|Hm] [<-|Hm']; [apply ScenarioProofs.commute_rule_refl|apply ScenarioProofs.commute_rule_sym, Y, Hm'|apply Y, Hm|apply J; assumption].
    + split; [exact L|]. split; [|split].
      * intros i Hi. destruct (A2 i Hi) as (m & o & Hm & Ho). destruct (mf_onto m) as (t & Ht & E); [apply J, Hm|]. exists t. split; [apply groups_of_in; split; [exact Ht|congruence]|]. apply mf_outcome; [exact Ht|]. exists o. congruence.
      * intros t Ht. apply groups_of_in in Ht as [Ht Hm]. destruct (A1 _ Hm) as (o & i & Ho & Vi). exists i. split; [apply mf_outcome; eauto|exact Vi].
      * intros t i j Ht Hi Hj Vi Vj. apply groups_of_in in Ht as [Ht Hm]. apply mf_outcome in Hi as (o & Ho), Hj as (o' & Ho'); try exact Ht.
        assert (o = o') by (apply (A3 (mf t) o i o' j); assumption). subst. apply (outcome_inj (mf t) o'); assumption.
  - intros (c & Ne & [C Mx] & L & A1 & A2 & A3). pose proof C as (_ & C2 & _). split; [exact L|]. exists (map mf c). split; [destruct c; [congruence|discriminate]|]. split; [apply clique_joint, C|]. split; [|split; [|split]].
    + intros m Hm J. destruct (mf_onto m Hm) as (t & Ht & <-). apply in_map. destruct (in_dec Nat.eq_dec t c) as [H|H]; [exact H|]. exfalso. destruct (Mx t Ht H) as (y & Hy & E).
      assert (K : compatible sc y t = true); [|congruence]. apply mf_compat; [apply C2, Hy|exact Ht|]. apply J; [right; apply in_map, Hy|left; reflexivity].
    + intros m Hm. apply in_map_iff in Hm as (t & <- & Ht). destruct (A2 t Ht) as (i & Hi & Vi). apply mf_outcome in Hi as (o & Ho); [|auto]. exists o, i. auto.
    + intros i Hi. destruct (A1 i Hi) as (t & Ht & Hi'). apply mf_outcome in Hi' as (o & Ho); [|auto]. exists (mf t), o. split; [apply in_map, Ht|exact Ho].
    + intros m o i o' i' Hm Ho Ho' Vi Vi'. apply in_map_iff in Hm as (t & <- & Ht). assert (i = i') by (apply (A3 t); auto; apply mf_outcome; eauto). subst i'. apply (outcome_fun (mf t) o i (mf t) o' Ho Ho').
Qed.
End Choice.

Lemma invariant_scenario P : invariant n (discover_lexorder_symmetries sc) P <-> relabelling_invariant sc P.
Proof.
  split.
  - intros H sg g v R I L. apply H; [apply SymProofs.discover_exact; eauto|exact L].
  - intros H g v Hg L. apply SymProofs.discover_exact in Hg as (sg & R & I); [|exact W]. apply (H sg); assumption.
Qed.
Local Notation syms := (discover_lexorder_symmetries sc).
Local Notation symm := (existsb (fun l => negb (l - 1 =? 0)) (levels sc)).
Local Notation Hcat := (groups_cat sc all_outcomes).
Local Notation Hne := (groups_ne sc Hout all_outcomes).
Local Notation Hund := (compat_und sc all_outcomes).
Local Notation Hsg := (scenario_symmetries sc W Hout all_outcomes).
Local Notation Hsn := (scenario_syms_ne sc).

(** columns used in rows exist *)
Lemma row_of_range raw events terms r : raw_monomials n groups (compatible sc) = Some raw -> maximal_events n groups (compatible sc) = Some events ->
  row_of syms symm raw terms = Some r -> forall q, In q r -> fst q < length (representatives syms symm raw).
Proof.
  intros Er Ee E q Hq. unfold row_of in E. apply ScenarioProofs.map_opt_some in E. apply (Forall2_in_r _ _ _ _ E) in Hq as (t & _ & Hq).
  destruct (column_of syms symm raw (fst t)) as [c|] eqn:Ec; [|discriminate]. cbn in Hq. injection Hq as <-. cbn [fst].
  destruct (raw_facts n groups Hcat Hne (compatible sc) Hund syms symm Hsg Hsn raw events Er Ee) as (_ & N & _).
  pose proof (column_in syms raw N symm _ _ Ec) as Hin. destruct (column_ok n groups Hcat Hne (compatible sc) Hund syms symm Hsg Hsn raw events Er Ee _ Hin) as (c' & Ec' & Hc & _). rewrite Ec in Ec'. injection Ec' as <-. exact Hc.
Qed.
Theorem programme_rows_range prog : scenario_lp sc all_outcomes = Some prog ->
  forall r q, In r (lp_equalities prog) \/ In r (lp_inequalities prog) -> In q r -> fst q < length (lp_columns prog).
Proof.
  intros E r q Hr Hq. unfold scenario_lp in E.
  destruct (events_exist n groups Hcat Hne (compatible sc) Hund) as (raw & events & Er & Ee & _).
  destruct (generate_ok n groups Hcat Hne (compatible sc) Hund syms symm Hsg Hsn raw events Er Ee) as (prog' & E' & C & F1 & F2). rewrite E in E'. injection E' as <-. rewrite C.
  destruct Hr as [Hr|Hr].
  - apply (Forall2_in_r _ _ _ _ F2) in Hr as (v & _ & Hr). unfold equality_row in Hr. destruct (expand _ _ _) as [terms|]; [|discriminate]. apply (row_of_range raw events _ r Er Ee Hr q Hq).
  - apply (Forall2_in_r _ _ _ _ F1) in Hr as (v & _ & Hr). unfold inequality_row in Hr. destruct (vany _).
    + destruct (expand _ _ _) as [terms|]; [|discriminate]. apply (row_of_range raw events _ r Er Ee Hr q Hq).
    + apply (row_of_range raw events [(v, false)] r Er Ee); [|exact Hq]. unfold row_of. cbn [map_opt fst snd]. destruct (column_of syms symm raw v); [|discriminate]. exact Hr.
Qed.
Lemma row_value_ext x y r : (forall q, In q r -> x (fst q) = y (fst q)) -> row_value x r = row_value y r.
Proof. intros H. unfold row_value. apply sumQ_ext. intros q Hq. rewrite H by exact Hq. reflexivity. Qed.

Theorem programme_exact : exists prog, scenario_lp sc all_outcomes = Some prog /\ forall x,
  (x 0 = 1%Qc /\ (forall r, In r (lp_equalities prog) -> row_value x r = 0%Qc) /\ (forall r, In r (lp_inequalities prog) -> (0 <= row_value x r)%Qc)) <->
  exists P, scenario_behaviour sc P /\ relabelling_invariant sc P /\ forall c, c < length (lp_columns prog) -> x c = P (nth c (lp_columns prog) []).
Proof.
  destruct (events_exist n groups Hcat Hne (compatible sc) Hund) as (raw & events & Er & Ee & _).
  destruct meas_choice as (mf & Hmf).
  destruct (generate_ok n groups Hcat Hne (compatible sc) Hund syms symm Hsg Hsn raw events Er Ee) as (prog & E & C & F1 & F2).
  exists prog. split; [exact E|]. intros x. split.
  - intros (X0 & Xe & Xi). 
    set (P := PX n groups Hcat Hne (compatible sc) Hund syms symm Hsg Hsn raw events Er Ee (scenario_no_symmetry sc) x prog E X0 Xe Xi).
    exists P. split; [apply (behaviour_scenario mf Hmf); apply solution_behaviour|]. split; [apply invariant_scenario; apply solution_invariant|]. intros c Hc. apply solution_columns, Hc.
  - intros (P & B & I & Hx). apply (behaviour_scenario mf Hmf) in B. apply invariant_scenario in I.
    destruct (behaviour_feasible n groups Hcat Hne (compatible sc) Hund syms symm Hsg Hsn raw events Er Ee P prog B I E) as (Y0 & Ye & _ & Yi).
    pose proof (programme_rows_range prog E) as Rng.
    split; [|split].
    + rewrite Hx; [exact Y0|]. rewrite C.
      destruct (raw_facts n groups Hcat Hne (compatible sc) Hund syms symm Hsg Hsn raw events Er Ee) as (H0 & _).
      destruct raw as [|r0 raw']; [discriminate|]. destruct (column_ok n groups Hcat Hne (compatible sc) Hund syms symm Hsg Hsn _ events Er Ee r0) as (c & _ & Hc & _); [left; reflexivity|]. lia.
    + intros r Hr. rewrite <- (Ye r Hr). apply row_value_ext. intros q Hq. apply Hx. eapply Rng; eauto.
    + intros r Hr. rewrite (row_value_ext x (fun c => P (nth c (lp_columns prog) []))); [apply Yi, Hr|]. intros q Hq. apply Hx. eapply Rng; eauto.
Qed.
(** each inequality row is the probability of a complete event, and every complete event
    has one *)
Theorem inequality_meaning prog : scenario_lp sc all_outcomes = Some prog ->
  (forall r, In r (lp_inequalities prog) -> exists v, complete_event sc v /\ forall P x, scenario_behaviour sc P -> relabelling_invariant sc P ->
     (forall c, c < length (lp_columns prog) -> x c = P (nth c (lp_columns prog) [])) -> row_value x r = P v) /\
  (forall v, complete_event sc v -> exists r, In r (lp_inequalities prog) /\ forall P x, scenario_behaviour sc P -> relabelling_invariant sc P ->
     (forall c, c < length (lp_columns prog) -> x c = P (nth c (lp_columns prog) [])) -> row_value x r = P v).
Proof.
  intros E. unfold scenario_lp in E. destruct (events_exist n groups Hcat Hne (compatible sc) Hund) as (raw & events & Er & Ee & _).
  destruct meas_choice as (mf & Hmf). pose proof (programme_rows_range prog E) as Rng.
  destruct (raw_facts n groups Hcat Hne (compatible sc) Hund syms symm Hsg Hsn raw events Er Ee) as (_ & _ & N & _ & Hev).
  assert (V : forall P x v r, scenario_behaviour sc P -> relabelling_invariant sc P -> (forall c, c < length (lp_columns prog) -> x c = P (nth c (lp_columns prog) [])) ->
     In v events -> inequality_row n groups syms symm raw v = Some r -> In r (lp_inequalities prog) -> row_value x r = P v).
  { intros P x v r B I Hx Hv Hr Hin. apply (behaviour_scenario mf Hmf) in B. apply invariant_scenario in I. pose proof (events_valid n groups Hcat Hne (compatible sc) Hund syms symm Hsg Hsn raw events Er Ee v Hv) as Vv.
    destruct (inequality_row_ok n groups Hcat Hne (compatible sc) Hund syms symm Hsg Hsn raw events Er Ee v Vv) as (r' & E' & V). rewrite Hr in E'. injection E' as <-.
    rewrite (V x P).
    - apply (behaviour_expansion n groups Hcat Hne (compatible sc) Hund syms symm Hsg Hsn raw events Er Ee); [exact B|exact Vv].
    - intros u c Hu Hc. destruct (column_ok n groups Hcat Hne (compatible sc) Hund syms symm Hsg Hsn raw events Er Ee u Hu) as (c' & Ec & Lc & (g & Hg & Eg) & _). rewrite Hc in Ec. injection Ec as <-.
      destruct (generate_ok n groups Hcat Hne (compatible sc) Hund syms symm Hsg Hsn raw events Er Ee) as (prog' & E' & C & _). rewrite E in E'. injection E' as <-.
      rewrite Hx by (rewrite C; exact Lc). rewrite C, <- Eg. apply I; [exact Hg|]. apply (raw_length n groups Hcat Hne (compatible sc) Hund syms symm Hsg Hsn raw events Er Ee u Hu). }
  destruct (generate_ok n groups Hcat Hne (compatible sc) Hund syms symm Hsg Hsn raw events Er Ee) as (prog' & E' & C & F1 & _). rewrite E in E'. injection E' as <-.
  split.
  - intros r Hr. pose proof Hr as Hin. apply (Forall2_in_r _ _ _ _ F1) in Hr as (v & Hv & Hr). 
    assert (Hv' : In v events) by (apply (reps_in n groups Hcat Hne (compatible sc) Hund syms symm Hsg Hsn raw events Er Ee events v); auto).
    exists v. split; [apply (complete_event_iff mf Hmf); apply Hev, Hv'|]. intros P x B I Hx. apply (V P x v r); assumption.
  - intros v Hv. apply (complete_event_iff mf Hmf), Hev in Hv.
    assert (Lev : forall v, In v events -> length v = n) by (intros u Hu; apply (events_length n groups Hcat Hne (compatible sc) Hund syms symm Hsg Hsn raw events Er Ee u Hu)).
    assert (Hc : exists c, c < length (representatives syms symm events) /\ related syms v (nth c (representatives syms symm events) []) /\ In (nth c (representatives syms symm events) []) events).
    { pose proof Hsg as G. destruct G. destruct (column_exists n syms sg_head Hsn sg_range sg_comp sg_inv events Lev N symm v Hv) as (c & _ & Hc). exists c. exact Hc. }
    destruct Hc as (c & Hc & (g & Hg & Eg) & Hr). destruct (Forall2_in_l _ _ _ (nth c (representatives syms symm events) []) F1) as (row & Hrow & Erow); [apply nth_In, Hc|].
    exists row. split; [exact Hrow|]. intros P x B I Hx. rewrite (V P x _ row B I Hx Hr Erow Hrow). rewrite <- Eg. apply invariant_scenario in I. apply I; [exact Hg|apply Lev, Hv].
Qed.
End Exact.
