(** The scenario built is the one described by the graph. *)
From Coq Require Import List Arith Bool Ascii String Lia Permutation Sorted.
From Verif Require Import ScenarioModel ScenarioSpec ScenarioProofs ColsModel ColsProofs3 DagModel DagSpec DagProofs.
Import ListNotations.
Open Scope string_scope. Open Scope nat_scope. Open Scope list_scope.

Section Build.
Variable a : problem_args.
Hypothesis DI : is_dict a.
Hypothesis NE : a_dag a <> [].
Notation n := (List.length (a_outcomes a)).

Record stages (pr : problem) (names : list string) (cl : string -> bool) (adj : list (nat * nat)) (srcs : list source) (settings lv : list nat) : Prop := {
  st_outcomes : a_outcomes a <> [];
  st_settings : settings_of a = Some settings;
  st_latents : existsb (fun l => inb l (a_nonclassical_latents a)) (a_classical_latents a) = false;
  st_names : names_of_args a = Some names;
  st_flags : classical_flags a names = Some cl;
  st_latent_ok : forallb (latent_ok a names cl) (a_nonclassical_latents a) = true;
  st_adj : adjacency a names = Some adj;
  st_srcs : map_opt (source_of a names cl) (actual_sources a names) = Some srcs;
  st_levels : levels_of a (List.length srcs) = Some lv;
  st_reached : let sc := {| outcomes := a_outcomes a; private_settings := settings; parents := parents_of n adj; sources := srcs; levels := lv |} in
     forallb (fun p => existsb (fun k => hypergraph sc k p) (seq 0 (nr_sources sc))) (seq 0 (nr_parties sc)) = true;
  st_result : pr = {| p_names := names; p_sources := actual_sources a names;
     p_scenario := {| outcomes := a_outcomes a; private_settings := settings; parents := parents_of n adj; sources := srcs; levels := lv |} |} }.
Lemma build_stages pr : build_problem a = Some pr <-> exists names cl adj srcs settings lv, stages pr names cl adj srcs settings lv.
Proof.
  unfold build_problem. split.
  - intros H.
    assert (NO : a_outcomes a <> []) by (destruct (a_outcomes a); [discriminate H|discriminate]).
    destruct (a_outcomes a) as [|o os] eqn:EO; [contradiction|]. rewrite <- EO in *. clear o os EO.
    destruct (settings_of a) as [st|] eqn:E1; [|discriminate]. destruct (existsb _ (a_classical_latents a)) eqn:E2; [discriminate|].
    destruct (names_of_args a) as [names|] eqn:E3; [|discriminate]. destruct (classical_flags a names) as [cl|] eqn:E4; [|discriminate].
    destruct (forallb (latent_ok a names cl) (a_nonclassical_latents a)) eqn:E5; [|discriminate]. cbn [negb] in H.
    destruct (adjacency a names) as [adj|] eqn:E6; [|discriminate]. destruct (map_opt (source_of a names cl) (actual_sources a names)) as [srcs|] eqn:E7; [|discriminate].
    destruct (levels_of a (List.length srcs)) as [lv|] eqn:E8; [|discriminate].
    match type of H with (if ?b then _ else _) = _ => destruct b eqn:E9; [|discriminate] end.
    exists names, cl, adj, srcs, st, lv. constructor; try assumption. congruence.
  - intros (names & cl & adj & srcs & st & lv & [NO E1 E2 E3 E4 E5 E6 E7 E8 E9 E10]). destruct (a_outcomes a) as [|o os] eqn:EO; [contradiction|]. rewrite <- EO in *. clear o os EO.
    rewrite E1, E2, E3, E4, E5. cbn [negb]. rewrite E6, E7, E8. cbv zeta in E9. rewrite E9. congruence.
Qed.

Lemma hyper_reaches srcs sc p : sources sc = srcs -> (existsb (fun k => hypergraph sc k p) (seq 0 (nr_sources sc)) = true <-> exists s, In s srcs /\ reaches s p).
Proof.
  intros <-. rewrite existsb_exists. split.
  - intros (k & Hk & E). apply in_seq in Hk. destruct (nth_error (sources sc) k) as [s|] eqn:Es; [|apply nth_error_None in Es; unfold nr_sources in Hk; lia].
    exists s. split; [eapply nth_error_In; exact Es|]. apply (hypergraph_reaches sc k p s Es). exact E.
  - intros (s & Hs & R). apply In_nth_error in Hs as (k & Hk). exists k. split; [apply in_seq; split; [lia|]; apply nth_error_Some; congruence|]. apply (hypergraph_reaches sc k p s Hk). exact R.
Qed.

Section Stages.
Variables (pr : problem) (names : list string) (cl : string -> bool) (adj : list (nat * nat)) (srcs : list source) (settings lv : list nat).
Hypothesis ST : stages pr names cl adj srcs settings lv.
Lemma names_are_ok : names_ok a names /\ List.length (implicit_names a) = n.
Proof. destruct (proj1 (names_spec a NE names) (st_names _ _ _ _ _ _ _ ST)) as (L & [(_ & OK & ->)|(_ & ->)]); (split; [|exact L]); [exact OK|apply sorted_ok]. Qed.
Lemma names_different : NoDup names /\ List.length names = n.
Proof.
  destruct names_are_ok as [OK L]. apply (every_index_NoDup a names OK L). intros p Hp.
  assert (R := st_reached _ _ _ _ _ _ _ ST). cbv zeta in R. rewrite forallb_forall in R. specialize (R p). unfold nr_parties in R at 1. cbn [outcomes] in R. specialize (R ltac:(apply in_seq; lia)).
  apply (hyper_reaches srcs) in R; [|reflexivity]. destruct R as (s & Hs & R).
  assert (F := st_srcs _ _ _ _ _ _ _ ST). apply map_opt_some in F. clear - F Hs R. induction F as [|u s' l r E _ IH]; [destruct Hs|]. destruct Hs as [->|Hs]; [|exact (IH Hs)].
  exact (source_index a names cl u s p E R).
Qed.
Let OK := proj1 names_are_ok.
Let ND := proj1 names_different.
Let Ln := proj2 names_different.
Lemma cl_spec u : cl u = true <-> is_classical a u.
Proof. apply (flags_some a NE names OK cl (st_flags _ _ _ _ _ _ _ ST)). Qed.
Lemma srcs_nth k u s : nth_error (actual_sources a names) k = Some u -> nth_error srcs k = Some s -> source_is a names cl u s.
Proof.
  intros Hu Hs. apply (source_some a DI NE names OK ND Ln). assert (F := st_srcs _ _ _ _ _ _ _ ST). apply map_opt_some in F. clear - F Hu Hs. revert k Hu Hs.
  induction F as [|u' s' l r E _ IH]; intros [|k] Hu Hs; cbn in *; try discriminate; [congruence|exact (IH k Hu Hs)].
Qed.
Lemma srcs_length : List.length srcs = List.length (actual_sources a names).
Proof. assert (F := st_srcs _ _ _ _ _ _ _ ST). apply map_opt_some in F. symmetry. exact (ScenarioProofs.Forall2_len _ _ _ F). Qed.
Lemma srcs_in u : is_source a u -> exists s, In s srcs /\ source_is a names cl u s.
Proof.
  intros H. apply (sources_spec a NE names OK) in H. apply In_nth_error in H as (k & Hk). destruct (nth_error srcs k) as [s|] eqn:Es.
  - exists s. split; [eapply nth_error_In; exact Es|exact (srcs_nth k u s Hk Es)].
  - apply nth_error_None in Es. rewrite srcs_length in Es. assert (k < List.length (actual_sources a names)) by (apply nth_error_Some; congruence). lia.
Qed.
Lemma srcs_from s : In s srcs -> exists u, is_source a u /\ source_is a names cl u s.
Proof.
  intros H. apply In_nth_error in H as (k & Hk). destruct (nth_error (actual_sources a names) k) as [u|] eqn:Eu.
  - exists u. split; [apply (sources_spec a NE names OK); eapply nth_error_In; exact Eu|exact (srcs_nth k u s Eu Hk)].
  - apply nth_error_None in Eu. rewrite <- srcs_length in Eu. assert (k < List.length srcs) by (apply nth_error_Some; congruence). lia.
Qed.
Lemma name_unique p v v' : nth_error names p = Some v -> nth_error names p = Some v' -> v = v'.
Proof. congruence. Qed.
Lemma reaches_edge u s p v : source_is a names cl u s -> nth_error names p = Some v ->
  (reaches s p <-> edge a u v \/ exists l, is_latent a l /\ edge a u l /\ edge a l v).
Proof.
  intros [S1 S2 S3 S4 S5] Hp. unfold reaches. rewrite S3. split.
  - intros [(v' & Hv' & E)|(l' & Hl' & Hd)]; [left; assert (v' = v) by congruence; subst v'; exact E|]. right. destruct (S4 l' Hl') as (l & L1 & L2 & _ & L4). destruct (proj1 (L4 _) Hd) as (v' & Hv' & E).
    assert (v' = v) by congruence. subst v'. exists l. auto.
  - intros [E|(l & L1 & L2 & L3)]; [left; exists v; auto|]. right. destruct (S5 l L1 L2) as (l' & H1 & _ & H3). exists l'. split; [exact H1|]. apply H3. exists v. auto.
Qed.
Lemma joins_edge u s p v q w : source_is a names cl u s -> nth_error names p = Some v -> nth_error names q = Some w ->
  (joins s p q <-> (p = q /\ edge a u v) \/ exists l, is_latent a l /\ edge a u l /\ edge a l v /\ edge a l w).
Proof.
  intros [S1 S2 S3 S4 S5] Hp Hq. unfold joins. rewrite S3. split.
  - intros [(-> & v' & Hv' & E)|(l' & Hl' & Hd & Hd2)]; [left; assert (v' = v) by congruence; subst v'; auto|]. right. destruct (S4 l' Hl') as (l & L1 & L2 & _ & L4). destruct (proj1 (L4 _) Hd) as (v' & Hv' & E). destruct (proj1 (L4 _) Hd2) as (w' & Hw' & E2).
    assert (v' = v) by congruence. assert (w' = w) by congruence. subst v' w'. exists l. auto.
  - intros [[-> E]|(l & L1 & L2 & L3 & L4)]; [left; split; [reflexivity|]; exists v; auto|]. right. destruct (S5 l L1 L2) as (l' & H1 & _ & H3). exists l'. split; [exact H1|]. split; apply H3; [exists v|exists w]; auto.
Qed.
Lemma joins_quantum_edge u s p v q w : source_is a names cl u s -> nth_error names p = Some v -> nth_error names q = Some w ->
  (joins_quantum s p q <-> ~ is_classical a u /\ ((p = q /\ edge a u v) \/ exists l, In l (a_nonclassical_latents a) /\ edge a u l /\ edge a l v /\ edge a l w)).
Proof.
  intros [S1 S2 S3 S4 S5] Hp Hq. unfold joins_quantum. rewrite S1, S3. assert (C : cl u = false <-> ~ is_classical a u) by (rewrite <- cl_spec; destruct (cl u); split; congruence). rewrite C. apply and_iff_compat_l. split.
  - intros [(-> & v' & Hv' & E)|(l' & Hl' & NC & Hd & Hd2)]; [left; assert (v' = v) by congruence; subst v'; auto|]. right. destruct (S4 l' Hl') as (l & L1 & L2 & L3 & L4). destruct (proj1 (L4 _) Hd) as (v' & Hv' & E). destruct (proj1 (L4 _) Hd2) as (w' & Hw' & E2).
    assert (v' = v) by congruence. assert (w' = w) by congruence. subst v' w'. exists l. split; [apply inb_In; congruence|auto].
  - intros [[-> E]|(l & L1 & L2 & L3 & L4)]; [left; split; [reflexivity|]; exists v; auto|]. right. destruct (S5 l (or_intror L1) L2) as (l' & H1 & H2 & H3). exists l'. split; [exact H1|]. split; [rewrite H2; apply inb_In, L1|]. split; apply H3; [exists v|exists w]; auto.
Qed.
Lemma repeat_map {A B} (x : A) (l : list B) : repeat x (List.length l) = map (fun _ => x) l.
Proof. induction l as [|y l IH]; [reflexivity|]. cbn. rewrite IH. reflexivity. Qed.

Lemma stages_describe : describes a (p_names pr) (p_sources pr) (p_scenario pr).
Proof.
  rewrite (st_result _ _ _ _ _ _ _ ST). cbn [p_names p_sources p_scenario]. constructor; cbn [outcomes private_settings parents sources levels].
  - reflexivity.
  - assert (E := st_settings _ _ _ _ _ _ _ ST). unfold settings_of in E. destruct (a_settings a) as [|x l]; [rewrite <- repeat_map; congruence|]. destruct (_ =? _); [congruence|discriminate].
  - split; [exact ND|]. split; [exact OK|exact Ln].
  - split; [apply (sources_NoDup a DI NE)|]. split; [apply (sources_spec a NE names OK)|]. unfold nr_sources. cbn [sources]. symmetry. exact srcs_length.
  - assert (E := st_levels _ _ _ _ _ _ _ ST). unfold levels_of in E. rewrite srcs_length in E. destruct (a_levels a) as [[|m]|[|x l]].
    + rewrite <- repeat_map. congruence.
    + rewrite <- repeat_map. congruence.
    + rewrite <- repeat_map. congruence.
    + destruct (_ =? _); [congruence|discriminate].
  - intros p v Hp. assert (p < n) by (rewrite <- Ln; apply nth_error_Some; congruence). rewrite (parents_nth a adj p) by assumption. split; [apply NoDup_filter, seq_NoDup|]. split.
    + intros q. rewrite filter_In, has_edge_spec. destruct (adjacency_some a NE names OK ND Ln adj (st_adj _ _ _ _ _ _ _ ST)) as [_ A]. rewrite A. split.
      * intros (_ & u & v' & Hq & Hv & E). assert (v' = v) by congruence. subst v'. exists u. auto.
      * intros (u & Hq & E). split; [apply in_seq; assert (q < n) by (rewrite <- Ln; apply nth_error_Some; congruence); lia|]. exists u, v. auto.
    + apply (sorted_nth a names Ln), (filter_seq_sorted a names Ln).
  - intros k u s Hu Hs. assert (SI := srcs_nth k u s Hu Hs). split; [rewrite (si_classical _ _ _ _ _ SI); apply cl_spec|]. intros p v Hp. split; [apply reaches_edge; assumption|]. intros q w Hq. split; [apply joins_edge; assumption|apply joins_quantum_edge; assumption].
Qed.
Lemma stages_accepted : accepted a.
Proof.
  constructor.
  - exact (st_outcomes _ _ _ _ _ _ _ ST).
  - assert (E := st_settings _ _ _ _ _ _ _ ST). unfold settings_of in E. destruct (a_settings a) as [|x l]; [left; reflexivity|right]. destruct (Nat.eqb_spec (List.length (x :: l)) n); [assumption|discriminate].
  - intros l [H1 H2]. assert (E := st_latents _ _ _ _ _ _ _ ST). assert (existsb (fun l => inb l (a_nonclassical_latents a)) (a_classical_latents a) = true); [|congruence]. apply existsb_exists. exists l. split; [exact H1|apply inb_In, H2].
  - intros H. destruct (proj1 (names_spec a NE names) (st_names _ _ _ _ _ _ _ ST)) as (_ & [(_ & _ & E)|([E|E] & _)]); [rewrite <- E; exact ND|rewrite E; constructor|contradiction].
  - exists names. split; [exact ND|]. split; [exact OK|exact Ln].
  - apply (flags_some a NE names OK cl (st_flags _ _ _ _ _ _ _ ST)).
  - intros l Hl. apply (latent_ok_spec a NE names OK cl l cl_spec). assert (E := st_latent_ok _ _ _ _ _ _ _ ST). rewrite forallb_forall in E. apply E, Hl.
  - apply (adjacency_some a NE names OK ND Ln adj (st_adj _ _ _ _ _ _ _ ST)).
  - intros u l Hu E L. destruct (srcs_in u Hu) as (s & _ & SI). apply (si_latents_ok _ _ _ _ _ SI l E L).
  - intros v Hv. apply OK in Hv. apply In_nth_error in Hv as (p & Hp). assert (R := st_reached _ _ _ _ _ _ _ ST). cbv zeta in R. rewrite forallb_forall in R. specialize (R p). unfold nr_parties in R at 1. cbn [outcomes] in R.
    specialize (R ltac:(apply in_seq; assert (p < n) by (rewrite <- Ln; apply nth_error_Some; congruence); lia)). apply (hyper_reaches srcs) in R; [|reflexivity]. destruct R as (s & Hs & R).
    destruct (srcs_from s Hs) as (u & Hu & SI). exists u. split; [exact Hu|]. apply (reaches_edge u s p v SI Hp), R.
  - assert (E := st_levels _ _ _ _ _ _ _ ST). unfold levels_of in E. rewrite srcs_length in E. destruct (a_levels a) as [m|[|x l]]; [exact I|exact I|]. destruct (Nat.eqb_spec (List.length (x :: l)) (List.length (actual_sources a names))) as [El|]; [|discriminate].
    exists (actual_sources a names). split; [apply (sources_NoDup a DI NE)|]. split; [apply (sources_spec a NE names OK)|exact El].
Qed.
End Stages.

Lemma accepted_stages : accepted a -> exists pr, build_problem a = Some pr.
Proof.
  intros [C1 C2 C3 C4 C5 C6 C7 C8 C9 C10 C11].
  assert (E1 : exists st, settings_of a = Some st).
  { unfold settings_of. destruct (a_settings a) as [|x l]; [eexists; reflexivity|]. destruct C2 as [C2|C2]; [discriminate|]. rewrite C2, Nat.eqb_refl. eexists. reflexivity. }
  destruct E1 as (st & E1).
  assert (E2 : existsb (fun l => inb l (a_nonclassical_latents a)) (a_classical_latents a) = false).
  { apply not_true_is_false. intros E. apply existsb_exists in E as (l & H1 & H2). apply inb_In in H2. exact (C3 l (conj H1 H2)). }
  assert (EL : List.length (implicit_names a) = n).
  { destruct C5 as (l & N & H & <-). symmetry. exact (ok_length a l H N). }
  assert (E3 : exists names, names_of_args a = Some names).
  { destruct (a_order a) as [|o1 o] eqn:Eo.
    - exists (py_sorted String.ltb (implicit_names a)). apply (names_spec a NE). split; [exact EL|]. right. rewrite Eo. split; [left; reflexivity|reflexivity].
    - destruct (subset (implicit_names a) (a_order a) && subset (a_order a) (implicit_names a)) eqn:E.
      + apply order_check in E. exists (a_order a). apply (names_spec a NE). split; [exact EL|]. left. split; [rewrite Eo; discriminate|]. split; [exact E|reflexivity].
      + exists (py_sorted String.ltb (implicit_names a)). apply (names_spec a NE). split; [exact EL|]. right. split; [|reflexivity]. right. intros H. apply order_check in H. congruence. }
  destruct E3 as (names & E3).
  assert (Q : names_ok a names /\ NoDup names /\ List.length names = n).
  { destruct (proj1 (names_spec a NE names) E3) as (_ & [(_ & OK & ->)|(_ & ->)]).
    - assert (N := C4 OK). split; [exact OK|]. split; [exact N|]. rewrite <- EL. exact (ok_length a _ OK N).
    - split; [apply sorted_ok|]. split; [apply sorted_NoDup|]. rewrite <- EL. apply (ok_length a); [apply sorted_ok|apply sorted_NoDup]. }
  destruct Q as (OK & ND & Ln).
  destruct (flags_total a NE names OK C6) as (cl & E4). destruct (flags_some a NE names OK cl E4) as [HC _].
  assert (E5 : forallb (latent_ok a names cl) (a_nonclassical_latents a) = true).
  { apply forallb_forall. intros l Hl. apply (latent_ok_spec a NE names OK cl l HC), C7, Hl. }
  destruct (adjacency_total a NE names OK ND Ln C8) as (adj & E6).
  destruct (ColumnProofs2.map_opt_total (source_of a names cl) (actual_sources a names)) as (srcs & E7).
  { intros u Hu. apply (sources_spec a NE names OK) in Hu. apply (source_total a DI NE names OK ND Ln cl u Hu). intros l E L. exact (C9 u l Hu E L). }
  assert (F := E7). apply map_opt_some in F. assert (Lsrc := ScenarioProofs.Forall2_len _ _ _ F).
  assert (E8 : exists lv, levels_of a (List.length srcs) = Some lv).
  { unfold levels_of. destruct (a_levels a) as [[|m]|[|x l]]; try (eexists; reflexivity). destruct C11 as (us & N & H & El). assert (El' : List.length (x :: l) = List.length srcs).
    { rewrite El, <- Lsrc. apply Permutation_length, NoDup_Permutation; [exact N|apply (sources_NoDup a DI NE)|]. intros u. rewrite (H u), (sources_spec a NE names OK). reflexivity. }
    rewrite El', Nat.eqb_refl. eexists. reflexivity. }
  destruct E8 as (lv & E8).
  eexists. apply build_stages. exists names, cl, adj, srcs, st, lv. constructor; try eassumption; [|reflexivity]. cbv zeta.
  apply forallb_forall. intros p Hp. apply in_seq in Hp. unfold nr_parties in Hp. cbn [outcomes] in Hp. apply (hyper_reaches srcs); [reflexivity|].
  destruct (nth_error names p) as [v|] eqn:Ev; [|apply nth_error_None in Ev; lia].
  destruct (C10 v) as (u & Hu & R); [apply OK; eapply nth_error_In; exact Ev|].
  apply (sources_spec a NE names OK) in Hu. assert (exists s, In s srcs /\ source_of a names cl u = Some s) as (s & Hs & Es).
  { clear - F Hu. induction F as [|u' s' l r E _ IH]; [destruct Hu|]. destruct Hu as [->|Hu]; [exists s'; split; [left; reflexivity|exact E]|]. destruct (IH Hu) as (s & H1 & H2). exists s. split; [right; exact H1|exact H2]. }
  exists s. split; [exact Hs|]. assert (SI := source_some a DI NE names OK ND Ln cl u s Es). destruct SI as [S1 S2 S3 S4 S5]. destruct R as [R|(l & L1 & L2 & L3)].
  - left. apply S3. exists v. auto.
  - right. destruct (S5 l L1 L2) as (l' & H1 & _ & H3). exists l'. split; [exact H1|]. apply H3. exists v. auto.
Qed.
End Build.
