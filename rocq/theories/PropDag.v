(** Property theorems C42 (the scenario built from a DAG).  Statements use DagModel (the code) and
    DagSpec. *)
From Coq Require Import List Arith Bool Ascii String Lia Permutation Sorted.
From Verif Require Import ScenarioModel ScenarioSpec NameSpec ColsModel DagModel DagSpec.
From Verif Require DagProofs DagProofs2 ScenarioProofs ColsProofs3.
Import ListNotations.
Open Scope string_scope. Open Scope nat_scope. Open Scope list_scope.

(** The constructor accepts exactly the arguments listed in the specification. *)
Theorem C42_accepts : forall a, is_dict a -> a_dag a <> [] ->
  ((exists pr, build_problem a = Some pr) <-> accepted a).
Proof.
  intros a DI NE. split; [|exact (DagProofs2.accepted_stages a DI NE)].
  intros (pr & E). apply DagProofs2.build_stages in E as (names & cl & adj & srcs & st & lv & ST). exact (DagProofs2.stages_accepted a DI NE _ _ _ _ _ _ _ ST).
Qed.
Print Assumptions C42_accepts.

(** The scenario is the one described by the graph: the parties are the nodes with a parent that are
    no intermediate latents, the sources the other nodes of the dictionary that are no latents,
    observed parents, parties reached by a source and pairs of parties joined by it are as in the
    graph. *)
Theorem C42_describes : forall a pr, is_dict a -> a_dag a <> [] -> build_problem a = Some pr ->
  describes a (p_names pr) (p_sources pr) (p_scenario pr).
Proof.
  intros a pr DI NE E. apply DagProofs2.build_stages in E as (names & cl & adj & srcs & st & lv & ST). exact (DagProofs2.stages_describe a DI NE _ _ _ _ _ _ _ ST).
Qed.
Print Assumptions C42_describes.

(** Parties are in the order given, if it lists the parties, and in alphabetical order otherwise;
    sources in the order of insertion. *)
Theorem C42_order : forall a pr, is_dict a -> a_dag a <> [] -> build_problem a = Some pr ->
  ((forall s, In s (a_order a) <-> is_party a s) -> p_names pr = a_order a) /\
  (~ (forall s, In s (a_order a) <-> is_party a s) -> StronglySorted (fun s t => String.compare s t = Lt) (p_names pr)) /\
  in_dict_order a (p_sources pr).
Proof.
  intros a pr DI NE E. apply DagProofs2.build_stages in E as (names & cl & adj & srcs & st & lv & ST).
  assert (Q := DagProofs2.st_result _ _ _ _ _ _ _ _ ST). subst pr. cbn [p_names p_sources]. assert (NO := DagProofs2.st_outcomes _ _ _ _ _ _ _ _ ST).
  destruct (proj1 (DagProofs.names_spec a NE names) (DagProofs2.st_names _ _ _ _ _ _ _ _ ST)) as (L & [(N & OK & ->)|(N & ->)]).
  - split; [reflexivity|]. split; [intros C; contradiction|]. unfold in_dict_order, actual_sources. rewrite (DagProofs.full_dag_eq a NE). eexists. reflexivity.
  - split; [|split].
    + intros H. destruct N as [N|N]; [|contradiction]. exfalso. destruct (implicit_names a) as [|s l] eqn:EI; [cbn in L; destruct (a_outcomes a); [contradiction|discriminate]|].
      assert (is_party a s) as P by (apply DagProofs.in_implicit; rewrite EI; left; reflexivity). apply H in P. rewrite N in P. destruct P.
    + intros _. apply DagProofs.sorted_names, DagProofs.implicit_NoDup.
    + unfold in_dict_order, actual_sources. rewrite (DagProofs.full_dag_eq a NE). eexists. reflexivity.
Qed.
Print Assumptions C42_order.

(** Sources have no parents. *)
Theorem C42_sources_have_no_parents : forall a u v, is_source a u -> ~ edge a v u.
Proof. intros a u v (_ & NP & NL) E. apply NP. split; [exists v; exact E|exact NL]. Qed.

(** With positive inflation levels the scenario is one of those that the other properties speak of,
    and with admissible names the names are those of C38. *)
Theorem C42_well_formed : forall a pr, is_dict a -> a_dag a <> [] -> build_problem a = Some pr ->
  (match a_levels a with LInt _ => True | LList l => forall m, In m l -> 1 <= m end) ->
  wf_scenario (p_scenario pr) /\
  ((forall s, In s (p_names pr) -> every name_char s = true) -> good_names (p_scenario pr) (p_names pr)).
Proof.
  intros a pr DI NE E HL. assert (E' := E). apply DagProofs2.build_stages in E' as (names & cl & adj & srcs & st & lv & ST).
  assert (D := C42_describes a pr DI NE E). assert (Q := DagProofs2.st_result _ _ _ _ _ _ _ _ ST). subst pr. cbn [p_names p_sources p_scenario] in *.
  assert (Ln := DagProofs2.names_different a NE _ _ _ _ _ _ _ ST). destruct Ln as [ND Ln].
  split.
  - constructor; cbn [outcomes private_settings parents sources levels]; unfold nr_parties, nr_sources; cbn [outcomes sources].
    + assert (S1 := d_settings _ _ _ _ D). cbn [private_settings] in S1. rewrite S1. assert (S2 := DagProofs2.st_settings _ _ _ _ _ _ _ _ ST). unfold settings_of in S2.
      destruct (a_settings a) as [|x l]; [apply map_length|]. destruct (Nat.eqb_spec (List.length (x :: l)) (List.length (a_outcomes a))); [assumption|discriminate].
    + unfold parents_of. rewrite map_length, seq_length. reflexivity.
    + intros ps q Hps Hq. apply in_map_iff in Hps as (j & <- & _). apply filter_In in Hq as [Hq _]. apply in_seq in Hq. lia.
    + assert (S1 := d_levels _ _ _ _ D). cbn [levels] in S1. destruct (d_sources _ _ _ _ D) as (_ & _ & S3). unfold nr_sources in S3. cbn [sources] in S3. rewrite S1.
      assert (S2 := DagProofs2.st_levels _ _ _ _ _ _ _ _ ST). unfold levels_of in S2. destruct (a_levels a) as [[|m]|[|x l]]; try (rewrite map_length; exact S3).
      destruct (Nat.eqb_spec (List.length (x :: l)) (List.length srcs)); [assumption|discriminate].
    + assert (S1 := d_levels _ _ _ _ D). cbn [levels] in S1. rewrite S1. intros m Hm. destruct (a_levels a) as [[|k]|[|x l]]; try (apply in_map_iff in Hm as (? & <- & _); lia). apply HL, Hm.
    + intros p Hp. assert (R := DagProofs2.st_reached _ _ _ _ _ _ _ _ ST). cbv zeta in R. rewrite forallb_forall in R. specialize (R p). unfold nr_parties in R at 1. cbn [outcomes] in R. specialize (R ltac:(apply in_seq; lia)).
      apply (DagProofs2.hyper_reaches srcs) in R; [exact R|reflexivity].
  - intros HN. constructor; cbn [parents].
    + exact Ln.
    + exact ND.
    + exact HN.
    + intros ps Hps. unfold parents_of in Hps. apply in_map_iff in Hps as (j & <- & _). apply NoDup_filter, seq_NoDup.
Qed.
Print Assumptions C42_well_formed.

(** Without a DAG the problem is that of one source h_global that reaches all parties, in the order
    given or with the default names. *)
Theorem C42_default_dag : forall a names, a_dag a = [] -> names_of_args a = Some names -> NoDup names ->
  (forall s, In s names -> ~ is_latent a s) ->
  build_problem a = build_problem {| a_dag := [("h_global", names)]; a_outcomes := a_outcomes a; a_settings := a_settings a; a_levels := a_levels a;
    a_classical := a_classical a; a_nonclassical_latents := a_nonclassical_latents a; a_classical_latents := a_classical_latents a; a_order := names |}.
Proof.
  intros a names ED EN ND HL. match goal with |- _ = build_problem ?x => set (a' := x) end.
  assert (Ln : List.length names = List.length (a_outcomes a)).
  { unfold names_of_args in EN. rewrite ED in EN. destruct (a_order a) as [|o1 o].
    - destruct (_ <=? _); [|discriminate]. assert (names = map letter (seq 0 (List.length (a_outcomes a)))) by congruence. subst. rewrite map_length, seq_length. reflexivity.
    - destruct (Nat.eqb_spec (List.length (o1 :: o)) (List.length (a_outcomes a))); [assert (names = o1 :: o) by congruence; subst; assumption|].
      destruct (_ <=? _); [|discriminate]. assert (names = map letter (seq 0 (List.length (a_outcomes a)))) by congruence. subst. rewrite map_length, seq_length. reflexivity. }
  assert (EP : forall s, is_party a' s <-> In s names).
  { intros s. split.
    - intros ((u & c & [H|[]] & Hs) & _). assert (c = names) by congruence. subst. exact Hs.
    - intros Hs. split; [exists "h_global", names; split; [left; reflexivity|exact Hs]|]. exact (HL s Hs). }
  assert (NO : a_outcomes a = [] \/ names_of_args a' = Some names).
  { destruct (list_eq_dec Nat.eq_dec (a_outcomes a) []) as [EO|EO]; [left; exact EO|right]. apply DagProofs.names_spec; [discriminate|]. split.
    - change (a_outcomes a') with (a_outcomes a). rewrite <- Ln. symmetry. apply (DagProofs.ok_length a' names); [intros s; symmetry; apply EP|exact ND].
    - left. split; [change (a_order a') with names; intros C; apply EO; rewrite C in Ln; destruct (a_outcomes a); [reflexivity|discriminate Ln]|]. split; [intros s; symmetry; apply EP|reflexivity]. }
  unfold build_problem. change (a_outcomes a') with (a_outcomes a). destruct NO as [->|EN']; [reflexivity|]. rewrite EN, EN'. destruct a as [dag ? ? ? ? ? ? ?]. cbn [a_dag] in ED. subst dag. reflexivity.
Qed.
Print Assumptions C42_default_dag.

(** ** The hypotheses are met *)
(** a quantum source s1 to A and B, a classical source s2 to B and C and, through the non-classical
    latent L of a quantum source s3, to A and C; A is an observed parent of B *)
Definition ex_args : problem_args := {|
  a_dag := [("s1", ["B"; "A"]); ("A", ["B"]); ("s2", ["C"; "B"]); ("s3", ["L"]); ("L", ["C"; "A"])];
  a_outcomes := [2; 2; 3]; a_settings := [2; 1; 1]; a_levels := LList [2; 1; 2]; a_classical := CList ["s2"];
  a_nonclassical_latents := ["L"]; a_classical_latents := []; a_order := ["A"; "B"; "C"] |}.
Example C42_nonvacuous : is_dict ex_args /\ a_dag ex_args <> [] /\
  build_problem ex_args = Some {| p_names := ["A"; "B"; "C"]; p_sources := ["s1"; "s2"; "s3"]; p_scenario := {|
    outcomes := [2; 2; 3]; private_settings := [2; 1; 1]; parents := [[]; [0]; []];
    sources := [ {| s_classical := false; s_children := [1; 0]; s_latents := [] |};
                 {| s_classical := true; s_children := [2; 1]; s_latents := [] |};
                 {| s_classical := false; s_children := []; s_latents := [ {| l_nonclassical := true; l_desc := [2; 0] |} ] |} ];
    levels := [2; 1; 2] |} |} /\
  accepted ex_args.
Proof.
  assert (D : is_dict ex_args) by (unfold is_dict; cbn; repeat constructor; cbn; intuition discriminate).
  assert (E : exists pr, build_problem ex_args = Some pr) by (eexists; vm_compute; reflexivity).
  split; [exact D|]. split; [discriminate|]. split; [vm_compute; reflexivity|]. apply (C42_accepts ex_args D); [discriminate|exact E].
Qed.
Example C42_default_nonvacuous : exists pr, build_problem {| a_dag := []; a_outcomes := [2; 2]; a_settings := []; a_levels := LInt 0; a_classical := CNone;
   a_nonclassical_latents := []; a_classical_latents := []; a_order := [] |} = Some pr /\ p_names pr = ["A"; "B"] /\ p_sources pr = ["h_global"] /\ levels (p_scenario pr) = [1].
Proof. eexists. split; [vm_compute; reflexivity|]. repeat split. Qed.

(** ** What is not checked *)
(** Cycles of observed nodes are accepted, *)
Theorem C42_acyclic_refuted :
  let a := {| a_dag := [("s", ["A"; "B"]); ("A", ["B"; "A"]); ("B", ["A"])]; a_outcomes := [2; 2]; a_settings := []; a_levels := LInt 0; a_classical := CNone;
              a_nonclassical_latents := []; a_classical_latents := []; a_order := [] |} in
  is_dict a /\ exists pr, build_problem a = Some pr /\ parents (p_scenario pr) = [[0; 1]; [0]].
Proof. cbv zeta. split; [unfold is_dict; cbn; repeat constructor; cbn; intuition discriminate|]. eexists. split; [vm_compute; reflexivity|reflexivity]. Qed.
(** a classical intermediate latent without parents is ignored although it is a common cause of A
    and B: the scenario is the one without it, *)
Theorem C42_latent_without_parents_refuted :
  let a d := {| a_dag := d; a_outcomes := [2; 2]; a_settings := []; a_levels := LInt 0; a_classical := CNone;
                a_nonclassical_latents := []; a_classical_latents := ["L"]; a_order := [] |} in
  build_problem (a [("s1", ["A"]); ("s2", ["B"]); ("L", ["A"; "B"])]) = build_problem (a [("s1", ["A"]); ("s2", ["B"])]) /\
  exists pr, build_problem (a [("s1", ["A"]); ("s2", ["B"])]) = Some pr.
Proof. cbv zeta. split; [vm_compute; reflexivity|]. eexists. vm_compute. reflexivity. Qed.
(** and so is an inflation level 0 in a list. *)
Theorem C42_level_zero_refuted :
  let a := {| a_dag := [("s", ["A"; "B"])]; a_outcomes := [2; 2]; a_settings := []; a_levels := LList [0]; a_classical := CNone;
              a_nonclassical_latents := []; a_classical_latents := []; a_order := [] |} in
  exists pr, build_problem a = Some pr /\ levels (p_scenario pr) = [0] /\ ~ wf_scenario (p_scenario pr).
Proof.
  cbv zeta. eexists. split; [vm_compute; reflexivity|]. split; [reflexivity|]. intros W. assert (H := wf_levels_pos _ W 0). cbn in H. specialize (H (or_introl eq_refl)). lia.
Qed.
