(** The generated programme is well formed. *)
From Coq Require Import List Arith Bool QArith Qcanon Lia Permutation Sorted Wf_nat.
From Verif Require Import CanonModel ScenarioModel ScenarioSpec SymModel SymSpec KnowModel KnowSpec FactorModel FactorSpec MargModel QcSum LPModel LPSpec LPSpec2 CliqueSpec InflatedSpec LPSolveModel LPSolveSpec LPSolveProofs LPProofs LPProofs2 LPProofs3 LPProofs6 LPProofs8 LPProofs10.
From Verif Require ScenarioProofs SymProofs.
Import ListNotations.
Close Scope Q_scope. Close Scope Qc_scope. Open Scope nat_scope.

Lemma insert_in_order v c : StronglySorted lt c -> ~ In v c -> exists l r, c = l ++ r /\ StronglySorted lt (l ++ v :: r).
Proof.
  induction 1 as [|a c Hs IH Ha]; intros N.
  - exists [], []. split; [reflexivity|]. repeat constructor.
  - destruct (Nat.lt_ge_cases v a) as [L|L].
    + exists [], (a :: c). split; [reflexivity|]. cbn [app]. constructor; [constructor; assumption|]. constructor; [exact L|]. eapply Forall_impl; [|exact Ha]. cbn. intros b. lia.
    + destruct IH as (l & r & -> & S'); [intros K; apply N; right; exact K|]. exists (a :: l), r. split; [reflexivity|]. cbn [app]. constructor; [exact S'|].
      assert (a <> v) by (intros ->; apply N; left; reflexivity). rewrite Forall_app in *. destruct Ha as [H1 H2]. split; [exact H1|]. constructor; [lia|exact H2].
Qed.
Lemma extend_clique nr compat c : undirected nr compat -> is_clique nr compat c -> exists c', is_maximal nr compat c' /\ incl c c'.
Proof.
  intros Hund C. remember (nr - length c) as k eqn:Ek. revert c C Ek. induction k as [k IH] using (well_founded_induction lt_wf). intros c C Ek.
  assert (D : {v | v < nr /\ ~ In v c /\ forall y, In y c -> compat y v = true} + {forall v, v < nr -> ~ In v c -> exists y, In y c /\ compat y v = false}).
  { assert (G : forall m, m <= nr -> {v | v < m /\ ~ In v c /\ forall y, In y c -> compat y v = true} + {forall v, v < m -> ~ In v c -> exists y, In y c /\ compat y v = false}).
    { induction m as [|m IHm]; intros Hm; [right; intros v Hv; lia|]. destruct IHm as [(v & H1 & H2)|H]; [lia|left; exists v; split; [lia|exact H2]|].
      destruct (in_dec Nat.eq_dec m c) as [K|K]; [right; intros v Hv Nv; apply H; [|exact Nv]; destruct (Nat.eq_dec v m); [subst; contradiction|lia]|].
      destruct (forallb (fun y => compat y m) c) eqn:E.
      - left. exists m. split; [lia|]. split; [exact K|]. apply forallb_forall, E.
      - right. intros v Hv Nv. destruct (Nat.eq_dec v m) as [->|]; [|apply H; [lia|exact Nv]]. clear - E. induction c as [|y c IH]; [discriminate|]. cbn in E. destruct (compat y m) eqn:Ey.
        + destruct (IH E) as (z & Hz & Ez). exists z. split; [right; exact Hz|exact Ez].
        + exists y. split; [left; reflexivity|exact Ey]. }
    apply G. lia. }
  destruct D as [(v & V1 & V2 & V3)|D]; [|exists c; split; [split; assumption|apply incl_refl]].
  destruct C as (C1 & C2 & C3). destruct (insert_in_order v c C1 V2) as (l & r & E & S').
  assert (C' : is_clique nr compat (l ++ v :: r)).
  { split; [exact S'|]. assert (M : forall y, In y (l ++ v :: r) <-> y = v \/ In y c). { intros y. subst c. rewrite !in_app_iff. cbn. intuition. }
    split; [intros y Hy; apply M in Hy as [->|Hy]; auto|]. intros y z Hy Hz Nyz. apply M in Hy, Hz. destruct Hy as [->|Hy], Hz as [->|Hz]; [congruence| |apply V3; exact Hy|apply C3; assumption].
    rewrite Hund; [apply V3, Hz|exact V1|apply C2, Hz]. }
  destruct (IH (nr - length (l ++ v :: r))) with (c := l ++ v :: r) as (c' & M & I); [|exact C'|reflexivity|].
  - subst c. rewrite app_length in *. cbn [length] in *. 
    assert (length l + S (length r) <= nr).
    { assert (length (l ++ v :: r) <= length (seq 0 nr)); [|rewrite app_length, seq_length in H; exact H]. apply NoDup_incl_length.
      - apply (ScenarioProofs.SS_NoDup lt); [intros y; lia|exact S'].
      - intros y Hy. apply in_seq. destruct C' as (_ & C' & _). specialize (C' y Hy). lia. }
    lia.
  - exists c'. split; [exact M|]. intros y Hy. apply I. subst c. rewrite in_app_iff in *. cbn. tauto.
Qed.
Lemma nested_some alts : (forall r, In r alts -> r <> []) -> forall acc s, nested alts acc s <> [].
Proof.
  induction alts as [|r alts IH]; intros H acc s; cbn [nested]; [discriminate|]. pose proof (H r (or_introl eq_refl)) as NE. destruct r as [|row r]; [congruence|]. cbn [flat_map]. intros E. apply app_eq_nil in E as [E _]. revert E. apply IH. intros r' Hr'. apply H. right. exact Hr'.
Qed.
Lemma row_of_nonempty syms symm raw terms r : row_of syms symm raw terms = Some r -> terms <> [] -> r <> [].
Proof. intros E NE Z. unfold row_of in E. apply ScenarioProofs.map_opt_some in E. rewrite Z in E. inversion E. congruence. Qed.

Section Rows.
Variables (sc : scenario) (W : wf_scenario sc) (Hout : forall o, In o (outcomes sc) -> 1 <= o) (ao : bool).
Notation n := (length (lexorder sc)).
Notation syms := (discover_lexorder_symmetries sc).
Notation groups := (tagged_groups sc ao).
Variables (prog : programme) (E : scenario_lp sc ao = Some prog).
Lemma rows_some : forall r, In r (lp_equalities prog) \/ In r (lp_inequalities prog) -> r <> [].
Proof.
  pose proof (groups_cat sc ao) as Hcat. pose proof (groups_ne sc Hout ao) as Hne. pose proof (compat_und sc ao) as Hund.
  pose proof (scenario_symmetries sc W Hout ao) as Hsg. pose proof (scenario_syms_ne sc) as Hsn. intros r Hr.
  destruct (events_exist n groups Hcat Hne (compatible sc) Hund) as (raw & events & Er & Ee & _).
  set (symm := existsb (fun l => negb (l - 1 =? 0)) (levels sc)).
  destruct (generate_ok n groups Hcat Hne (compatible sc) Hund syms symm Hsg Hsn raw events Er Ee) as (prog' & E' & C & F1 & F2). unfold scenario_lp in E. fold symm in E. rewrite E in E'. injection E' as <-.
  destruct Hr as [Hr|Hr].
  - destruct (Forall2_in_r _ _ _ _ F2 Hr) as (v & _ & Hr2). clear Hr. rename Hr2 into Hr. unfold equality_row in Hr. destruct (expand _ _ _) as [terms|]; [|discriminate]. eapply row_of_nonempty; [exact Hr|]. destruct terms; discriminate.
  - destruct (Forall2_in_r _ _ _ _ F1 Hr) as (v & Hv & Hr2). clear Hr. rename Hr2 into Hr. apply (reps_in n groups Hcat Hne (compatible sc) Hund syms symm Hsg Hsn raw events Er Ee) in Hv; [|auto].
    pose proof (events_length n groups Hcat Hne (compatible sc) Hund syms symm Hsg Hsn raw events Er Ee v Hv) as L. unfold inequality_row in Hr. destruct (vany _) eqn:V.
    + apply (vany_crit n groups Hcat Hne false v L) in V.
      change (expand (not_in_CG n groups) (alternatives n (not_in_CG n groups) (CG_adjusting n groups)) v) with (expand (mask n groups false) (alternatives n (mask n groups false) (masked_groups n groups false)) v) in Hr.
      rewrite (expand_terms n groups Hcat Hne false v L V) in Hr. eapply row_of_nonempty; [exact Hr|]. apply nested_some. intros a Ha. apply in_map_iff in Ha as (t & <- & _). discriminate.
    + destruct (column_of syms symm raw v); [|discriminate]. cbn [option_map] in Hr. intros Z. rewrite Z in Hr. discriminate.
Qed.
Lemma complete_event_exists : 0 < n -> exists v, complete_event sc v.
Proof.
  intros Hn. pose proof (groups_cat sc ao) as Hcat. pose proof (groups_ne sc Hout ao) as Hne. pose proof (compat_und sc ao) as Hund. destruct (meas_choice sc Hout ao) as (mf & Hmf).
  assert (G : 0 < length groups) by (destruct groups; [cbn in Hcat; destruct n; [lia|discriminate]|cbn; lia]).
  destruct (extend_clique (length groups) (compatible sc) [0] Hund) as (c & M & I).
  { split; [repeat constructor|]. split; [intros x [<-|[]]; exact G|]. intros x y [<-|[]] [<-|[]]. congruence. }
  assert (CL : forall t, In t c -> t < length groups) by apply M.
  assert (GH : forall t, In t c -> In (hd 0 (grp groups t)) (grp groups t)).
  { intros t Ht. pose proof (grp_ne n groups Hcat Hne t (CL t Ht)). destruct (grp groups t); [congruence|left; reflexivity]. }
  set (v := map (fun i => existsb (fun t => i =? hd 0 (grp groups t)) c) (seq 0 n)).
  assert (NV : forall i, nth i v false = true <-> i < n /\ exists t, In t c /\ i = hd 0 (grp groups t)).
  { intros i. destruct (Nat.lt_ge_cases i n) as [K|K].
    - unfold v. rewrite (nth_indep _ false (existsb (fun t => 0 =? hd 0 (grp groups t)) c)) by (rewrite map_length, seq_length; exact K). rewrite (map_nth (fun i => existsb (fun t => i =? hd 0 (grp groups t)) c)), seq_nth by exact K. cbn [Nat.add].
      rewrite existsb_exists. split; [intros (t & Ht & Et); split; [exact K|]; exists t; split; [exact Ht|apply Nat.eqb_eq, Et]|intros (_ & t & Ht & Et); exists t; split; [exact Ht|apply Nat.eqb_eq, Et]].
    - rewrite nth_overflow by (unfold v; rewrite map_length, seq_length; exact K). split; [discriminate|lia]. }
  exists v. apply (complete_event_iff sc W Hout ao mf Hmf). exists c. split; [intros ->; destruct (I 0 (or_introl eq_refl))|]. split; [exact M|].
  split; [unfold v; rewrite map_length, seq_length; reflexivity|]. split; [|split].
  - intros i Hi. apply NV in Hi as (_ & t & Ht & ->). exists t. auto.
  - intros t Ht. exists (hd 0 (grp groups t)). split; [apply GH, Ht|]. apply NV. split; [apply (grp_range n groups Hcat Hne t), GH, Ht|eauto].
  - intros t i j Ht Hi Hj Vi Vj. apply NV in Vi as (_ & ti & Hti & Ei). apply NV in Vj as (_ & tj & Htj & Ej). subst i j.
    rewrite (grp_unique n groups Hcat Hne ti t _ (GH ti Hti) Hi), (grp_unique n groups Hcat Hne tj t _ (GH tj Htj) Hj). reflexivity.
Qed.
Lemma inequality_some : 0 < n -> lp_inequalities prog <> [].
Proof. intros Hn Z. destruct (complete_event_exists Hn) as (v & Hv). destruct (proj2 (inequality_meaning sc W Hout ao prog E) v Hv) as (r & Hr & _). rewrite Z in Hr. destruct Hr. Qed.
End Rows.
