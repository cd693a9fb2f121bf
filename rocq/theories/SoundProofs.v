(** The moments of an inflation satisfy the generated constraints and the values set from the
    distribution. *)
From Coq Require Import List Arith Bool QArith Qcanon Lia Permutation Sorted.
From Verif Require Import CanonModel ScenarioModel ScenarioSpec SymModel SymSpec KnowModel KnowSpec FactorModel FactorSpec MargModel QcSum LPModel LPSpec LPSpec2 InflatedSpec ProgramModel ProgramSpec ProgramProofs ProgramProofs2 ProgramProofs3 LPSolveModel LPSolveSpec LPSolveProofs ProgramLP ProgramLPProofs LPMomentModel LPMomentProofs LPMomentProofs2 ColumnsFacts.
From Verif Require UniqueProofs ScenarioProofs SymProofs FactorProofs LPProofs LPProofs4 LPProofs8 LPProofs9 LPProofs10 KnowProofs MargProofs MargProofs2 PropMarg PropProgram.
Import ListNotations.
Close Scope Q_scope. Close Scope Qc_scope. Open Scope nat_scope.

(** ** The sums of the marginals *)
Section Knowable.
Variables (sc : scenario) (W : wf_scenario sc) (ops : list nat).
Hypothesis HV : forall k, In k ops -> k < length (lexorder sc).
Notation mon := (map (fun k => nth k (lexorder sc) []) ops).
Definition agreeing : list (list nat) := filter (fun a => forallb (fun r => nth (row_party r - 1) a 0 =? row_outcome r) mon) (ScenarioModel.ndindex (outcomes sc)).
Definition setting_at (p : nat) : nat :=
  match find (fun r => row_party r =? p + 1) mon with
  | Some r => match assoc (effective_to_parent sc p) (row_setting r) with Some (y :: _) => y | _ => 0 end
  | None => 0 end.
Definition settings_of : list nat := map setting_at (seq 0 (nr_parties sc)).
Lemma mon_row r : In r mon -> exists p c s o, r = mkrow (p + 1) c s o.
Proof.
  intros H. apply in_map_iff in H as (k & <- & Hk). assert (I : In (nth k (lexorder sc) []) (lexorder sc)) by (apply nth_In, HV, Hk).
  apply ScenarioProofs.lexorder_in in I as (p & c & s & o & -> & _); [|exact W]. eauto.
Qed.
Lemma agreeing_nodup : NoDup agreeing.
Proof. apply NoDup_filter, ScenarioProofs.ndindex_NoDup. Qed.
Lemma agreeing_in a : In a agreeing <-> Forall2 lt a (outcomes sc) /\ forall p c s o, In (mkrow (p + 1) c s o) mon -> nth p a 0 = o.
Proof.
  unfold agreeing. rewrite filter_In, ScenarioProofs.ndindex_in, forallb_forall. split; intros [H1 H2]; (split; [exact H1|]).
  - intros p c s o I. specialize (H2 _ I). rewrite ScenarioProofs.mkrow_party, ScenarioProofs.mkrow_outcome in H2. apply Nat.eqb_eq in H2. replace (p + 1 - 1) with p in H2 by lia. exact H2.
  - intros r I. destruct (mon_row r I) as (p & c & s & o & ->). rewrite ScenarioProofs.mkrow_party, ScenarioProofs.mkrow_outcome. apply Nat.eqb_eq. replace (p + 1 - 1) with p by lia. eapply H2, I.
Qed.
Lemma settings_ok : one_operator_per_party mon -> length settings_of = nr_parties sc /\
  forall p, p < nr_parties sc ->
    (forall c s o y os, In (mkrow (p + 1) c s o) mon -> assoc (effective_to_parent sc p) s = Some (y :: os) -> nth p settings_of 0 = y) /\
    ((forall c s o, ~ In (mkrow (p + 1) c s o) mon) -> nth p settings_of 0 = 0).
Proof.
  intros OP. unfold settings_of. split; [rewrite map_length, seq_length; reflexivity|]. intros p Hp.
  rewrite (nth_indep _ 0 (setting_at 0)) by (rewrite map_length, seq_length; exact Hp). rewrite (map_nth setting_at), seq_nth by exact Hp. cbn [Nat.add]. unfold setting_at. split.
  - intros c s o y os I E. destruct (find _ mon) as [r|] eqn:F.
    + apply find_some in F as [Ir Er]. apply Nat.eqb_eq in Er. destruct (mon_row r Ir) as (p' & c' & s' & o' & ->). rewrite ScenarioProofs.mkrow_party in Er. assert (p' = p) by lia. subst p'.
      apply In_nth_error in I as (i & Ei). apply In_nth_error in Ir as (j & Ej). assert (i = j) by (eapply OP; eassumption). subst j. rewrite Ei in Ej. assert (Ej' : mkrow (p + 1) c s o = mkrow (p + 1) c' s' o') by congruence. clear Ej. rename Ej' into Ej. apply ScenarioProofs.mkrow_inj in Ej as (_ & _ & <- & _).
      rewrite ScenarioProofs.mkrow_setting, E. reflexivity.
    + exfalso. apply (find_none _ _ F) in I. rewrite ScenarioProofs.mkrow_party, Nat.eqb_refl in I. discriminate.
  - intros N. destruct (find _ mon) as [r|] eqn:F; [|reflexivity]. exfalso. apply find_some in F as [Ir Er]. apply Nat.eqb_eq in Er. destruct (mon_row r Ir) as (p' & c' & s' & o' & ->).
    rewrite ScenarioProofs.mkrow_party in Er. rewrite Er in Ir. eapply N, Ir.
Qed.
End Knowable.

(** ** The generated relaxation *)
Section Generated.
Variables (sc : scenario) (W : wf_scenario sc) (Hout : forall o, In o (outcomes sc) -> 1 <= o).
Notation n := (length (lexorder sc)).
Definition few_copies : Prop := distinct_copies sc (seq 0 n) <= 255.
Hypothesis FC : few_copies.
Lemma always_small v : length v = n -> small sc v.
Proof.
  intros L. unfold small. etransitivity; [|exact FC]. unfold distinct_copies. apply NoDup_incl_length; [apply NoDup_nodup|]. intros c H. apply nodup_In in H. apply nodup_In. apply in_map_iff in H as (k & <- & Hk).
  apply (in_map (fun k => row_copies (nth k (lexorder sc) []))). apply in_seq. apply (flat_range sc v k L) in Hk. lia.
Qed.
Definition lists_of (prog : programme) : list (list atom) := map (fun v => map (rep sc) (factors sc (flatnonzero v))) (lp_columns prog).
Definition named_rows (cols : list moment) (l : list (list (nat * Qc))) : list (mdict Qc) := map (map (fun q => (nth (fst q) cols [], snd q))) l.
Lemma nodup_full (l : list moment) : length (nodup meq l) = length l -> NoDup l.
Proof.
  induction l as [|m l IH]; intros E2; [constructor|]. cbn [nodup] in E2. destruct (in_dec meq m l) as [H|H].
  - exfalso. assert (K : length (nodup meq l) <= length l); [|cbn [length] in E2; lia]. apply NoDup_incl_length; [apply NoDup_nodup|]. intros x Hx. apply nodup_In in Hx. exact Hx.
  - constructor; [exact H|]. apply IH. cbn [length] in E2. lia.
Qed.
Lemma generate_is ao sup r : generate sc ao sup = Some r -> exists prog, scenario_lp sc ao = Some prog /\
  let atoms := atomic_factors (lists_of prog) in let cols := map (moment_of atoms) (lists_of prog) in
  hd [0] cols = One /\ NoDup cols /\ r_atoms r = atoms /\ columns (r_programme r) = cols /\
  minimal_sparse_equalities (r_programme r) = rows_matrix (length cols) (lp_equalities prog) /\
  minimal_sparse_inequalities (r_programme r) = rows_matrix (length cols) (lp_inequalities prog) /\
  moments (r_context r) = cols /\ dagger (r_context r) = (fun a => a) /\ is_zero (r_context r) = (fun _ => false) /\ is_one (r_context r) = (fun _ => false) /\
  is_knowable (r_context r) = (fun a => match atom_is_knowable sc (nth a atoms []) with Some b => b | None => false end) /\ supports_problem (r_context r) = sup.
Proof.
  unfold generate. destruct (scenario_lp sc ao) as [prog|] eqn:E; [|discriminate]. pose proof (columns_ok sc W Hout ao prog E) as CF.
  destruct (all_atoms_rep sc W Hout (lp_columns prog) []) as (c' & EA & _).
  { intros k m []. }
  { intros v Hv. assert (L := cf_length _ _ CF v Hv). split; [exact L|apply always_small, L]. }
  rewrite EA. fold (lists_of prog). set (atoms := atomic_factors (lists_of prog)). set (cols := map (moment_of atoms) (lists_of prog)).
  destruct (meq (hd [0] cols) One) as [E1|]; [|discriminate]. cbn [andb]. destruct (length (nodup meq cols) =? length cols) eqn:E2; [|discriminate]. intros H. injection H as <-.
  exists prog. split; [reflexivity|]. split; [exact E1|]. split; [apply Nat.eqb_eq in E2|cbn; repeat split; reflexivity].
  apply nodup_full. exact E2.
Qed.

(** *** Atoms *)
Variables (prog : programme) (ao : bool) (EP : scenario_lp sc ao = Some prog).
Notation lists := (lists_of prog).
Notation atoms := (atomic_factors (lists_of prog)).
Notation cols := (map (moment_of atoms) lists).
Lemma sig_insert_perm a l : Permutation (sig_insert a l) (a :: l).
Proof. induction l as [|b l IH]; cbn [sig_insert]; [reflexivity|]. destruct (sig_leb a b); [reflexivity|]. rewrite IH. apply perm_swap. Qed.
Lemma sig_sort_perm l : Permutation (sig_sort l) l.
Proof. unfold sig_sort. induction l as [|a l IH]; cbn [fold_right]; [constructor|]. rewrite sig_insert_perm. constructor. exact IH. Qed.
Lemma atoms_in a : In a atoms <-> exists l, In l lists /\ In a l.
Proof.
  unfold atomic_factors. split.
  - intros H. apply (Permutation_in _ (sig_sort_perm _)) in H. apply nodup_In, in_concat in H. exact H.
  - intros H. apply (Permutation_in _ (Permutation_sym (sig_sort_perm _))). apply nodup_In, in_concat. exact H.
Qed.
Lemma atoms_nodup : NoDup atoms.
Proof. unfold atomic_factors. eapply Permutation_NoDup; [apply Permutation_sym, sig_sort_perm|]. apply NoDup_nodup. Qed.
Lemma number_ok a : In a atoms -> number atoms a < length atoms /\ nth (number atoms a) atoms [] = a.
Proof. intros H. apply (UniqueProofs.index_of_in row_eqb FactorProofs.row_eqb_true). exact H. Qed.
Lemma number_nth i : i < length atoms -> number atoms (nth i atoms []) = i.
Proof. intros H. apply (UniqueProofs.index_of_nth row_eqb FactorProofs.row_eqb_true); [apply atoms_nodup|exact H]. Qed.
(** an atom is the representative of a factor of a column *)
Lemma atom_is a : In a atoms -> exists v f, In v (lp_columns prog) /\ In f (factors sc (flatnonzero v)) /\ a = rep sc f.
Proof. intros H. apply atoms_in in H as (l & Hl & Ha). apply in_map_iff in Hl as (v & <- & Hv). apply in_map_iff in Ha as (f & <- & Hf). eauto. Qed.
Lemma atom_facts a : In a atoms -> a <> [] /\ StronglySorted lt a /\ forall k, In k a -> k < n.
Proof.
  intros H. destruct (atom_is a H) as (v & f & Hv & Hf & ->). pose proof (columns_ok sc W Hout ao prog EP) as CF. assert (L := cf_length _ _ CF v Hv).
  destruct (factors_ok sc W v L (always_small v L)) as [_ F]. split; [|split; [apply rep_sorted|intros k; apply (rep_range sc W Hout)]].
  apply (rep_nonempty sc W Hout); [apply (ff_nonempty _ _ _ F), Hf|]. intros i Hi. apply (flat_range sc v i L). apply (ff_in _ _ _ F). eauto.
Qed.

(** ** The moments given by probabilities *)
Section Point.
Variables (P : list bool -> Qc) (B : scenario_behaviour sc P) (I : relabelling_invariant sc P).
Hypothesis (IND : forall v w, length v = n -> length w = n -> measurable_event sc (either v w) -> separate sc v w -> P (either v w) = (P v * P w)%Qc).
Definition atom_probability (a : nat) : Qc := P (event_of sc (nth a atoms [])).
Notation y := (moment_at atom_probability).
Lemma column_moment v : In v (lp_columns prog) -> y (moment_of atoms (map (rep sc) (factors sc (flatnonzero v)))) = P v.
Proof.
  intros Hv. pose proof (columns_ok sc W Hout ao prog EP) as CF. assert (L := cf_length _ _ CF v Hv). rewrite (column_prob sc W Hout P B I IND v L (always_small v L) (cf_measurable _ _ CF v Hv)).
  unfold moment_of. rewrite (moment_at_perm _ _ _ (sort_atoms_perm _)). unfold moment_at. change product with prodQ. rewrite !map_map. f_equal. apply map_ext_in. intros f Hf. unfold atom_probability.
  destruct (number_ok (rep sc f)) as [_ ->]; [|reflexivity]. apply atoms_in. exists (map (rep sc) (factors sc (flatnonzero v))). split; [|apply in_map, Hf].
  apply (in_map (fun v => map (rep sc) (factors sc (flatnonzero v)))), Hv.
Qed.
Lemma column_value j : j < length cols -> y (nth j cols []) = P (nth j (lp_columns prog) []).
Proof.
  intros Hj. unfold lists_of in Hj |- *. rewrite map_map in *. rewrite map_length in Hj. 
  rewrite (nth_indep _ [] ((fun v => moment_of atoms (map (rep sc) (factors sc (flatnonzero v)))) [])) by (rewrite map_length; exact Hj).
  rewrite (map_nth (fun v => moment_of atoms (map (rep sc) (factors sc (flatnonzero v))))). apply column_moment, nth_In, Hj.
Qed.
Lemma entry_rows m l i x : i < length l -> entry_sum (rows_matrix m l) i x = row_value x (nth i l []).
Proof.
  intros Hi. assert (E := f_equal (fun l => nth i l 0%Qc) (rows_act m l x)). cbn beta in E. rewrite nth_act in E by exact Hi. rewrite E.
  rewrite (nth_indep _ 0%Qc (row_value x [])) by (rewrite map_length; exact Hi). apply (map_nth (row_value x)).
Qed.
Lemma minimal_constraints : (forall r, In r (lp_equalities prog) -> row_value (fun j => y (nth j cols [])) r = 0%Qc) /\
  (forall r, In r (lp_inequalities prog) -> (0 <= row_value (fun j => y (nth j cols [])) r)%Qc).
Proof.
  destruct (LPProofs10.programme_exact sc W Hout ao) as (prog' & E & X). assert (prog' = prog) by congruence. subst prog'.
  apply (X (fun j => y (nth j cols []))). exists P. split; [exact B|]. split; [exact I|]. intros c Hc. apply column_value. unfold lists_of. rewrite !map_length. exact Hc.
Qed.
Lemma moment_nonneg m : In m cols -> (0 <= y m)%Qc.
Proof.
  intros H. apply (In_nth _ _ []) in H as (j & Hj & <-). pose proof (columns_ok sc W Hout ao prog EP) as CF. rewrite column_value by exact Hj.
  assert (K : In (nth j (lp_columns prog) []) (lp_columns prog)) by (apply nth_In; unfold lists_of in Hj; rewrite !map_length in Hj; exact Hj).
  apply (prob_nonneg sc P B); [apply (cf_length _ _ CF), K|apply (cf_measurable _ _ CF), K].
Qed.
End Point.
End Generated.
