(** Semidefinite programmes about supports: the state after set_distribution. *)
From Coq Require Import List Arith Bool QArith Qcanon Lia Permutation Sorted.
From Verif Require Import CanonModel ScenarioModel ScenarioSpec MargModel QcSum QcArith CausalSpec SearchModel ProgramModel ProgramSpec ProgramProofs ProgramProofs2 ProgramProofs3 QMomentProofs8 SupportProofs.
From Verif Require SearchProofs ProgramLPProofs PropProgram.
Import ListNotations.
Close Scope Q_scope. Close Scope Qc_scope. Open Scope nat_scope.

Definition empty_state : state := {| known := []; semiknown := []; lower := []; upper := []; objective := []; processed := []; extra_equalities := []; extra_inequalities := [] |}.
Lemma update_bounds_empty ok d : update_bounds ok d [] = Some [].
Proof. unfold update_bounds. induction d as [|p d IH]; [reflexivity|exact IH]. Qed.
Lemma substituted_empty k : substituted [] k = [].
Proof. unfold substituted. assert (E : todo [] k = []) by (unfold todo; induction (keys k) as [|m l IH]; [reflexivity|cbn [filter get is_some]; rewrite andb_false_r; exact IH]). rewrite E. reflexivity. Qed.
Lemma update_objective_empty k sk : update_objective [] k sk = Some [].
Proof. rewrite update_objective_is, substituted_empty. replace (existsb _ _) with false; [reflexivity|]. symmetry. induction (keys sk) as [|m l IH]; [reflexivity|exact IH]. Qed.
Section Supports.
Variables (c : context) (SP : supports_problem c = true).
Lemma supports_sdp values lpi only s s' : NoDup (keys (lower s)) -> upper s = [] -> set_values sdp c values lpi only s = Some s' -> exists sp, set_values sdp (plain c) values lpi only empty_state = Some sp /\
  (forall m v, In (m, v) (known s') -> In (m, v) (known sp) /\ isclose0 v = true) /\
  (forall m b, In (m, b) (lower s') -> (b = 1%Qc /\ exists v, In (m, v) (known sp) /\ isclose0 v = false) \/ In (m, b) (lower s)) /\
  upper s' = [] /\ semiknown s' = [] /\ ProgramModel.objective s' = ProgramModel.objective s.
Proof.
  intros ND U0 E. pose proof (wf_set sdp c values lpi only s s' E) as Wf. rewrite set_values_is in E |- *. set (d := fst (result_values sdp c values lpi only)) in *. set (sk := snd (result_values sdp c values lpi only)) in *.
  change (result_values sdp (plain c) values lpi only) with (result_values sdp c values lpi only). fold d sk.
  cbn [cleanup]. unfold cleanup_sdp at 1. unfold supports_step at 1. cbn [plain supports_problem]. unfold supports_step. cbn [plain supports_problem reset_values empty_state with_extra with_values with_bounds known semiknown lower upper ProgramModel.objective].
  rewrite !update_bounds_empty, update_objective_empty. eexists. split; [reflexivity|]. cbn [with_values with_objective with_bounds known].
  pose proof E as E'. apply cleanup_values in E' as (K & SK & O & _). cbn [cleanup] in E. unfold cleanup_sdp in E.
  unfold supports_step in K, SK. rewrite SP in K, SK. cbn [with_values with_bounds known semiknown] in K, SK.
  assert (NZ : forall m v, In (m, v) (filter (fun p => negb (isclose0 (snd p))) d) <-> In (m, v) d /\ isclose0 v = false) by (intros m v; rewrite filter_In; cbn [snd]; rewrite negb_true_iff; reflexivity).
  unfold supports_step in E. rewrite SP in E. cbn [with_values with_bounds reset_values with_extra known semiknown lower upper ProgramModel.objective] in E. rewrite U0, update_bounds_empty in E.
  destruct (update_bounds lo_ok _ _) as [lo|] eqn:EL; [|discriminate]. destruct (update_objective _ _ _) as [p|]; [|discriminate].
  assert (EE : lower s' = lo /\ upper s' = []) by (injection E as <-; split; reflexivity). destruct EE as [E1 E2]. clear E.
  split; [|split; [|split; [exact E2|split; [|exact O]]]].
  - intros m v Hm. apply (in_get meq m v (known s') (wf_known _ Wf)) in Hm. rewrite K, get_pop_all in Hm. destruct (mmem m _) eqn:M; [discriminate|]. apply (get_some_in meq) in Hm. split; [exact Hm|].
    destruct (isclose0 v) eqn:C0; [reflexivity|]. exfalso. assert (I : In m (keys (filter (fun p => negb (isclose0 (snd p))) d))) by (apply in_map_iff; exists (m, v); split; [reflexivity|apply NZ; auto]). apply mmem_iff in I. congruence.
  - intros m b Hb. rewrite E1 in Hb. apply (update_bounds_in _ _ _ _ EL) in Hb. apply keys_set_one in Hb; [|exact ND]. destruct Hb as [[-> Hb]|Hb]; [left; split; [reflexivity|]|right; exact Hb]. apply in_map_iff in Hb as ((m' & v) & <- & Hb). apply NZ in Hb. exists v. exact Hb.
  - rewrite SK. generalize (keys (pop_all (keys (filter (fun p => negb (isclose0 (snd p))) d)) d)). intros l. clear. induction l; [reflexivity|assumption].
Qed.
(** the state after construction *)
Lemma default_nodup : NoDup (keys (default_lower c)).
Proof. unfold default_lower. generalize (hermitian_moments c). assert (Q : NoDup (keys ([] : mdict Qc))) by constructor. revert Q. generalize ([] : mdict Qc). intros d Q l. revert d Q. induction l as [|m0 l IH]; intros d Q; [exact Q|]. cbn [fold_left]. apply IH, nodup_set, Q. Qed.
Lemma default_lower_in m v : In (m, v) (default_lower c) -> v = 0%Qc /\ In m (hermitian_moments c).
Proof.
  pose proof default_nodup as ND.
  intros H. apply (in_get meq _ _ _ ND) in H. rewrite default_get in H. destruct (mmem m (hermitian_moments c)) eqn:Q; [|discriminate]. split; [congruence|]. apply mmem_iff, Q.
Qed.
Lemma generated_supports_sdp s0 : generated sdp c = Some s0 -> reachable sdp c s0 /\ upper s0 = [] /\ ProgramModel.objective s0 = [(One, 0%Qc)] /\
  forall m b, In (m, b) (lower s0) -> (b = 0%Qc /\ In m (hermitian_moments c)) \/ (m = One /\ b = 1%Qc).
Proof.
  intros E. assert (R : reachable sdp c s0) by (exists []; exact E). split; [exact R|]. unfold generated in E. cbn [run fold_left step set_objective] in E.
  match type of E with set_values sdp c [] false false ?st = _ => set (st0 := st) in E end.
  assert (NDL : NoDup (keys (lower st0))) by exact default_nodup.
  destruct (supports_sdp [] false false st0 s0 NDL eq_refl E) as (sp & ESP & _ & L & U & _ & O). split; [exact U|]. split; [exact O|].
  intros m b Hb. destruct (L m b Hb) as [[-> (v & Hv & NZ)]|H]; [right|left; apply default_lower_in, H]. split; [|reflexivity].
  destruct (PropProgram.C22_without_values sdp (plain c) false false empty_state sp eq_refl ESP) as [_ KB]. pose proof (wf_set sdp (plain c) [] false false _ _ ESP) as Wf. apply (in_get meq m v _ (wf_known _ Wf)) in Hv. rewrite KB in Hv.
  unfold base in Hv. cbn [given find rev] in Hv. destruct (meq m One) as [|]; [assumption|]. destruct (zero_moment (plain c)); [|discriminate]. destruct (meq m _); [|discriminate]. assert (v = 0%Qc) as -> by congruence. discriminate.
Qed.
End Supports.
