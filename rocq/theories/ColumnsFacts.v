(** The columns of the linear programme of a scenario. *)
From Coq Require Import List Arith Bool Lia Permutation.
From Verif Require Import ScenarioModel ScenarioSpec SymModel SymSpec MargModel LPModel LPSpec LPSpec2 CliqueSpec LPProofs LPProofs2 LPProofs3 LPProofs4 LPProofs5 LPProofs6 LPProofs8 LPProofs10 InflatedSpec.
From Verif Require ScenarioProofs SymProofs.
Import ListNotations.
Close Scope Q_scope. Close Scope Qc_scope. Open Scope nat_scope.

Section Columns.
Variables (sc : scenario) (W : wf_scenario sc) (Hout : forall o, In o (outcomes sc) -> 1 <= o) (all_outcomes : bool).
Notation n := (length (lexorder sc)).
Notation syms := (discover_lexorder_symmetries sc).
Notation groups := (tagged_groups sc all_outcomes).
Variables (prog : programme) (E : scenario_lp sc all_outcomes = Some prog).

Record columns_facts : Prop := {
  cf_length : forall v, In v (lp_columns prog) -> length v = n;
  cf_first : exists l, lp_columns prog = blank n :: l;
  cf_measurable : forall v, In v (lp_columns prog) -> measurable_event sc v;
  (* events contained in the event of a column have a column, up to relabelling *)
  cf_closed : forall v u, In v (lp_columns prog) -> length u = n -> (forall i, nth i u false = true -> nth i v false = true) -> exists w, In w (lp_columns prog) /\ related syms u w;
  cf_distinct : forall i j, i < length (lp_columns prog) -> j < length (lp_columns prog) -> related syms (nth i (lp_columns prog) []) (nth j (lp_columns prog) []) -> i = j }.
Theorem columns_ok : columns_facts.
Proof.
  pose proof (groups_cat sc all_outcomes) as Hcat. pose proof (groups_ne sc Hout all_outcomes) as Hne. pose proof (compat_und sc all_outcomes) as Hund.
  pose proof (scenario_symmetries sc W Hout all_outcomes) as Hsg. pose proof (scenario_syms_ne sc) as Hsn.
  destruct (events_exist n groups Hcat Hne (compatible sc) Hund) as (raw & events & Er & Ee & Hh & Nr & _ & Hraw & _).
  set (symm := existsb (fun l => negb (l - 1 =? 0)) (levels sc)).
  destruct (generate_ok n groups Hcat Hne (compatible sc) Hund syms symm Hsg Hsn raw events Er Ee) as (prog' & E' & C & _).
  unfold scenario_lp in E. fold symm in E. rewrite E in E'. injection E' as <-.
  assert (RL : forall v, In v raw -> length v = n) by (intros v; apply (raw_length n groups Hcat Hne (compatible sc) Hund syms symm Hsg Hsn raw events Er Ee)).
  assert (RI : forall v, In v (lp_columns prog) -> In v raw) by (intros v Hv; rewrite C in Hv; apply (reps_in n groups Hcat Hne (compatible sc) Hund syms symm Hsg Hsn raw events Er Ee raw v (or_introl eq_refl) Hv)).
  destruct (meas_choice sc Hout all_outcomes) as (mf & Hmf). destruct Hsg.
  split.
  - intros v Hv. apply RL, RI, Hv.
  - assert (K0 : raw <> [] /\ nth 0 raw [] = blank n) by (clear - Hh; destruct raw; [discriminate|]; cbn in Hh; injection Hh as ->; split; [discriminate|reflexivity]).
    destruct K0 as [K0 K1]. destruct (column_first n syms sg_head Hsn sg_range sg_comp sg_inv raw RL Nr symm K0) as [_ K]. rewrite <- C in K. rewrite K1 in K.
    assert (L : lp_columns prog <> []).
    { rewrite C. destruct raw as [|r0 raw']; [congruence|]. destruct (column_ok n groups Hcat Hne (compatible sc) Hund syms symm ltac:(constructor; assumption) Hsn _ events Er Ee r0 (or_introl eq_refl)) as (c & _ & Hc & _).
      intros Z. rewrite Z in Hc. cbn in Hc. lia. }
    destruct (lp_columns prog) as [|v l]; [congruence|]. cbn in K. exists l. congruence.
  - intros v Hv. apply RI, Hraw in Hv as (c & CL & (_ & S1 & _)). exists (map mf c). split; [apply (clique_joint sc W Hout all_outcomes mf Hmf), CL|].
    intros i Hi. destruct (S1 i Hi) as (t & Ht & Hl). assert (Ht' : t < length groups) by apply CL, Ht.
    apply (lim_in n groups Hcat Hne) in Hl. apply (mf_outcome sc W all_outcomes mf Hmf t i Ht') in Hl as (o & Ho). exists (mf t), o. split; [apply in_map, Ht|exact Ho].
  - intros v u Hv Lu Sub. assert (Hu : In u raw).
    { apply (raw_facts n groups Hcat Hne (compatible sc) Hund syms symm ltac:(constructor; assumption) Hsn raw events Er Ee). apply RI in Hv.
      apply (raw_facts n groups Hcat Hne (compatible sc) Hund syms symm ltac:(constructor; assumption) Hsn raw events Er Ee) in Hv as [V Cr].
      split.
      - apply (valid_sub n groups Hcat Hne (compatible sc) Hund v u V Lu).
        + destruct V as (_ & A & _). intros t i j Hi Hj Vi Vj. apply (A t i j); auto.
        + intros t (i & Hi & Vi). exists i. auto.
      - apply (crit_nil n groups Hcat Hne (compatible sc) Hund). intros t Ht Hf. destruct (nth (lst groups t) u false) eqn:K; [|reflexivity]. apply Sub in K.
        rewrite (proj1 (crit_nil n groups Hcat Hne (compatible sc) Hund v false) Cr t Ht Hf) in K. discriminate. }
    destruct (column_ok n groups Hcat Hne (compatible sc) Hund syms symm ltac:(constructor; assumption) Hsn raw events Er Ee u Hu) as (c & _ & Hc & R & _).
    rewrite <- C in Hc, R. exists (nth c (lp_columns prog) []). split; [apply nth_In, Hc|exact R].
  - intros i j Hi Hj R.
    assert (SY : symm = false -> syms = [seq 0 n]) by apply (scenario_no_symmetry sc).
    rewrite C in Hi, Hj, R.
    destruct (column_rep n syms sg_head Hsn sg_range sg_comp sg_inv raw RL Nr symm i Hi) as [Ci Ii]. destruct (column_rep n syms sg_head Hsn sg_range sg_comp sg_inv raw RL Nr symm j Hj) as [Cj Ij].
    assert (Q := proj2 (column_same n syms sg_head Hsn sg_range sg_comp sg_inv raw RL Nr symm SY _ _ Ii Ij) R). congruence.
Qed.
End Columns.
