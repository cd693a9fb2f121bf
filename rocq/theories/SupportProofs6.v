(** The arguments that a problem about supports passes to the solver interface, and their solutions. *)
From Coq Require Import Permutation QArith Qcanon List Arith Bool Lia Sorted String Ascii.
From Verif Require Import CanonModel CanonSpec MomentModel MomentSpec OrbitModel ScenarioModel ScenarioSpec SymModel SymSpec KnowModel KnowSpec FactorModel FactorSpec
  MargModel QcSum QcArith ColumnModel ColumnSpec MemoModel MemoSpec NormModel NormSpec NameModel NameSpec ProgramModel ProgramSpec ProgramProofs ProgramProofs2 ProgramProofs3 LPMomentModel QuantumSpec QuantumProofs QInflationSpec SDPMomentModel SDPRunSpec SoundProofs QMomentProofs QMomentProofs2 QMomentProofs3 QMomentProofs4 QMomentProofs5 QMomentProofs6 QMomentProofs7 QMomentLengths QMomentProofs8 QMomentProofs9 QMomentProofs10 QMomentProofs14 SupportSpec SupportSDPSpec SupportProofs SupportProofs3 SupportProofs4 SupportProofs5.
From Verif Require CanonProofs ScenarioProofs ColumnProofs2 PropProgram ProgramLPProofs SDPSolveModel SDPSolveSpec PSD SoundProofs6 Duality SupportProofs2 SearchProofs.
Import ListNotations.
Close Scope Q_scope. Close Scope Qc_scope. Open Scope string_scope. Open Scope nat_scope. Open Scope list_scope.

Lemma assoc_found {A} (l : list (nat * A)) k v : assoc l k = Some v -> In (k, v) l.
Proof. induction l as [|[k' v'] l IH]; [discriminate|]. cbn [assoc]. destruct (Nat.eqb_spec k' k) as [->|]; [intros E; left; congruence|right; apply IH; assumption]. Qed.
Section Generated.
Variables (sc : scenario) (W : wf_scenario sc) (FC : few_copies sc) (Hout : forall o, In o (outcomes sc) -> 1 <= o) (Hset : forall x, In x (private_settings sc) -> 1 <= x).
Notation n := (List.length (lexorder sc)).
Variables (cols : list word) (GC : good_columns (sdp_notcomm sc) (sdp_orthomat sc) (S n) cols).
Notation N := (List.length cols).
Variables (hc : list bool) (nm : moment -> SDPSolveModel.name) (arr : ndarray) (lpi shared feas : bool) (r : SDPMomentModel.relaxation) (s : state) (a : SDPSolveModel.sdp_args).
Variable RUN : sdp_supports_run sc hc cols nm arr lpi shared feas r s a.
Notation c := (SDPMomentModel.r_context r).
Notation M := (r_matrix r).
Notation comp := (r_moments r).
Let GE : SDPMomentModel.generate sc hc true cols = Some r := sp_generate _ _ _ _ _ _ _ _ _ _ _ RUN.
Notation mp := (moments_proper sc W FC cols GC hc r GE).

Lemma is_supports : supports_problem c = true.
Proof. destruct (generate_is sc cols hc true r GE) as (_ & _ & _ & _ & _ & _ & _ & _ & _ & _ & _ & _ & _ & _ & _ & _ & _ & _ & _ & E & _). exact E. Qed.
Lemma one_proper : proper_moment r One.
Proof. exists []. split; [intros x []|reflexivity]. Qed.
Lemma state_facts : exists values sp, distribution_values sc r arr = Some values /\ set_values sdp (plain c) values lpi shared empty_state = Some sp /\ reachable sdp c s /\
  (forall m v, In (m, v) (known s) -> In (m, v) (known sp) /\ isclose0 v = true) /\
  (forall m b, In (m, b) (lower s) -> (b = 1%Qc /\ (m = One \/ exists v, In (m, v) (known sp) /\ isclose0 v = false)) \/ (b = 0%Qc /\ In m (hermitian_moments c))) /\
  upper s = [] /\ semiknown s = [] /\ (forall m, In m (keys (known s)) -> In m (moments c)).
Proof.
  assert (RUN' := RUN). destruct RUN' as [_ _ (s0 & E0 & E1) EA]. destruct (generated_supports_sdp c is_supports s0 E0) as (R0 & U0 & O0 & L0).
  unfold SDPMomentModel.set_distribution in E1. destruct (distribution_values sc r arr) as [values|] eqn:EV; [|discriminate].
  assert (ND : NoDup (keys (lower s0))) by (apply (ProgramLPProofs.reachable_bounds_nodup sdp c s0 R0)).
  destruct (supports_sdp c is_supports values lpi shared s0 s ND U0 E1) as (sp & ESP & K & L & U & SK & O). exists values, sp. split; [reflexivity|]. split; [exact ESP|].
  split; [apply (reachable_run c s0 [SetValues values lpi shared] s R0 E1)|]. split; [exact K|]. split; [|split; [exact U|split; [exact SK|]]].
  - intros m b Hb. destruct (L m b Hb) as [[-> Q]|Q]; [left; auto|]. destruct (L0 m b Q) as [[-> H]|[-> ->]]; [right; auto|left; auto].
  - intros m Hm. unfold solver_args, prepare_sdp in EA. destruct (forallb _ _) eqn:F; [|discriminate]. rewrite forallb_forall in F. apply mmem_iff, F, Hm.
Qed.
Notation lower_row := (fun p : moment * Qc => (nm (fst p), 1%Qc) :: (if isclose0 (snd p) then [] else [(constant_term, (- snd p)%Qc)])).
Lemma args_are : a = {| SDPSolveModel.mat_dim := N;
            SDPSolveModel.mask_matrices := map (fun q => (nm (snd q), fun i j => if M i j =? fst q then 1%Qc else 0%Qc)) comp ++ [(constant_term, fun _ _ => 0%Qc)];
            SDPSolveModel.objective := named_dict nm (processed s);
            SDPSolveModel.known_vars := named_dict nm (known s) ++ [(constant_term, 1%Qc)];
            SDPSolveModel.semiknown_vars := [];
            SDPSolveModel.inequalities := map lower_row (lower s);
            SDPSolveModel.equalities := map (fun d => named_row nm (named d)) (minimal_equalities c);
            SDPSolveModel.default_non_negative := false;
            SDPSolveModel.feas_as_optim := feas && negb (1 <? List.length (processed s));
            SDPSolveModel.process_constraints := true |}.
Proof.
  destruct state_facts as (values & sp & _ & _ & _ & _ & _ & U & SK & _). assert (RUN' := RUN). destruct RUN' as [_ _ _ EA]. unfold solver_args, prepare_sdp in EA. destruct (forallb _ _); [|discriminate]. rewrite (columns_are sc cols hc r GE) in EA. cbn [a_objective a_known a_semiknown a_inequalities a_equalities] in EA.
  rewrite (no_inequalities sc cols hc r GE), U, SK in EA. cbn [map app] in EA. rewrite app_nil_r, !map_map in EA.
  match type of EA with Some ?b = Some a => assert (X : a = b) by congruence; rewrite X end. f_equal.
  apply map_ext_in. intros [m v] Hm. unfold named_row. cbn [fst snd map]. destruct (isclose0 v); reflexivity.
Qed.
Lemma nm_inj m m' : proper_moment r m -> proper_moment r m' -> nm m = nm m' -> m = m'.
Proof. apply (gm_different _ _ (sp_names _ _ _ _ _ _ _ _ _ _ _ RUN)). Qed.
Lemma not_constant m : proper_moment r m -> nm m <> constant_term.
Proof. intros P E. assert (Q := gm_plain _ _ (sp_names _ _ _ _ _ _ _ _ _ _ _ RUN) m P). rewrite E in Q. destruct Q as [Q _]. apply Q. reflexivity. Qed.
Lemma known_proper m : In m (keys (known s)) -> proper_moment r m.
Proof. intros H. destruct state_facts as (_ & _ & _ & _ & _ & _ & _ & _ & _ & KM). apply mp, KM, H. Qed.
Lemma processed_proper m : In m (keys (processed s)) -> proper_moment r m.
Proof. intros H. destruct state_facts as (_ & _ & _ & _ & R & _). destruct (processed_keys c s m R H) as [->|Q]; [apply one_proper|apply mp, Q]. Qed.
Lemma hermitian_known m : In m (hermitian_moments c) -> In m (moments c).
Proof.
  destruct (generate_is sc cols hc true r GE) as (_ & _ & _ & _ & _ & _ & _ & _ & _ & _ & _ & _ & _ & _ & _ & _ & _ & EH & _). rewrite EH. destruct (operators_commute sc); [auto|]. intros H. apply filter_In in H. apply H.
Qed.
Section Table.
Variables (x : ndarray) (Sh : nd_shape arr = outcomes sc ++ private_settings sc) (Sh' : nd_shape x = outcomes sc ++ private_settings sc) (SS : same_support sc arr x).
Lemma lower_proper m : In m (keys (lower s)) -> proper_moment r m.
Proof.
  intros H. apply in_map_iff in H as ([m' b] & E & H). cbn [fst] in E. subst m'. destruct state_facts as (values & sp & EV & ESP & _ & _ & L & _). destruct (L m b H) as [[_ [->|(v & Hv & _)]]|[_ Q]]; [apply one_proper| |apply mp, hermitian_known, Q].
  destruct (values_other sc W FC Hset cols GC hc r GE arr x SS Sh Sh') as (values' & EV').
  exact (known_proper_plain sc W FC cols GC hc r GE lpi shared empty_state sp m v values values' (values_pair sc W FC Hset cols GC hc r GE arr x SS Sh Sh' values values' EV EV') ESP Hv).
Qed.
Lemma nodup_names (l : list moment) : NoDup l -> (forall z, In z l -> proper_moment r z) -> NoDup (map nm l).
Proof. intros ND H. apply nodup_named; [exact ND|]. intros u z Hx Hz. apply nm_inj; auto. Qed.
Lemma no_constant (l : list moment) : (forall z, In z l -> proper_moment r z) -> ~ In constant_term (map nm l).
Proof. intros H Q. apply in_map_iff in Q as (z & E & Hx). apply (not_constant z (H z Hx) E). Qed.
Lemma keys_masks : keys (SDPSolveModel.mask_matrices a) = map nm (moments c) ++ [constant_term].
Proof. rewrite args_are. cbn [SDPSolveModel.mask_matrices]. unfold keys. rewrite map_app, map_map. cbn [map fst]. rewrite (moments_are sc cols hc true r GE), map_map. reflexivity. Qed.
Lemma keys_known : keys (SDPSolveModel.known_vars a) = map nm (keys (known s)) ++ [constant_term].
Proof. rewrite args_are. cbn [SDPSolveModel.known_vars]. unfold keys. rewrite map_app. fold (keys (named_dict nm (known s))). rewrite keys_named. reflexivity. Qed.
Lemma no_targets : SDPSolveSpec.targets a = [].
Proof. unfold SDPSolveSpec.targets. rewrite args_are. reflexivity. Qed.
Theorem supports_wf : SDPSolveSpec.wf_args a.
Proof.
  destruct state_facts as (values & sp & EV & ESP & R & K & L & U & SK & KM). destruct (PropProgram.C22_never_both sdp c s R) as (N1 & N2 & N3). destruct (reachable_tidy c s R) as ((T1 & T2) & T3).
  unfold SDPSolveSpec.wf_args. rewrite keys_masks, keys_known, no_targets.
  split. { apply nodup_snoc; [apply nodup_names; [apply (moments_nodup sc cols hc true r GE)|apply mp]|apply no_constant, mp]. }
  split. { rewrite args_are. cbn [SDPSolveModel.objective]. rewrite keys_named. apply nodup_names; [exact T2|apply processed_proper]. }
  split. { apply nodup_snoc; [apply nodup_names; [exact N1|apply known_proper]|apply no_constant, known_proper]. }
  split. { rewrite args_are. constructor. }
  split. { rewrite args_are. cbn [SDPSolveModel.equalities]. intros d Hd. apply in_map_iff in Hd as (e & <- & He). rewrite keys_named_row. destruct (equality_shape sc W FC Hout cols GC hc r GE e He) as [A B]. apply nodup_names; [exact A|]. intros m Hm. apply mp, B, Hm. }
  split. { rewrite args_are. cbn [SDPSolveModel.inequalities]. intros d Hd. apply in_map_iff in Hd as ([m b] & <- & He). cbn [fst snd]. assert (NC : nm m <> constant_term) by (apply not_constant, lower_proper; apply in_map_iff; exists (m, b); auto).
    destruct (isclose0 b); unfold keys; cbn [map fst]; [repeat constructor; intros []|]. constructor; [intros [Q|[]]; apply NC; symmetry; exact Q|repeat constructor; intros []]. }
  split. { rewrite args_are. cbn [SDPSolveModel.mask_matrices SDPSolveModel.mat_dim]. intros k m Hk i j Hi Hj. apply in_app_or in Hk as [Hk|[Hk|[]]].
    - apply in_map_iff in Hk as (q & E & Hq). assert (E2 : m = fun i j => if M i j =? fst q then 1%Qc else 0%Qc) by congruence. rewrite E2, (matrix_symmetric sc W FC cols GC hc true r GE i j Hi Hj). reflexivity.
    - assert (E2 : m = fun _ _ => 0%Qc) by congruence. rewrite E2. reflexivity. }
  split. { rewrite args_are. cbn [SDPSolveModel.mask_matrices]. intros Q. destruct (map _ comp); discriminate Q. }
  split. { rewrite args_are. cbn [SDPSolveModel.semiknown_vars]. intros k []. }
  split. { intros k Hk. destruct Hk. }
  rewrite args_are. discriminate.
Qed.
Theorem supports_lambda : SDPSolveSpec.lambda_free a.
Proof.
  destruct (fresh_starts (S (List.length (SDPSolveModel.variables_of a))) (SDPSolveModel.variables_of a) "ambda") as (t & E). change (SDPSolveModel.lambda_name a = String "l" t) in E.
  assert (X : forall m, proper_moment r m -> nm m <> String "l" t). { intros m P Q. assert (G := gm_plain _ _ (sp_names _ _ _ _ _ _ _ _ _ _ _ RUN) m P). rewrite Q in G. destruct G as [_ G]. apply G. reflexivity. }
  unfold SDPSolveSpec.lambda_free. rewrite E, keys_known, no_targets. split; [|split].
  - intros Q. apply in_app_or in Q as [Q|[Q|[]]]; [|discriminate Q]. apply in_map_iff in Q as (m & Q & Hm). apply (X m (known_proper m Hm) Q).
  - rewrite args_are. intros [].
  - intros [].
Qed.
Lemma supports_masks : SDPSolveModel.has_masks a = true.
Proof. unfold SDPSolveModel.has_masks. rewrite args_are. cbn [SDPSolveModel.mask_matrices]. destruct (map _ comp); reflexivity. Qed.

(** ** The point *)
Section Point.
Variables (y : moment -> Qc) (G : good_point r N y) (Y1 : y One = 1%Qc).
Variable MT : forall values sp, distribution_values sc r arr = Some values -> set_values sdp (plain c) values lpi shared empty_state = Some sp -> SupportProofs2.matches y sp.
Variable Z : forall m v, In (m, v) (known s) -> v = 0%Qc.
Definition candidates : list moment := moments c ++ keys (processed s) ++ keys (lower s) ++ [One].
Lemma candidates_proper m : In m candidates -> proper_moment r m.
Proof.
  unfold candidates. rewrite !in_app_iff. intros [H|[H|[H|[<-|[]]]]]; [apply mp, H|apply processed_proper, H|apply lower_proper, H|apply one_proper].
Qed.
Section Scaled.
Variable w : moment -> Qc.
Definition support_point (k : SDPSolveModel.name) : Qc :=
  if String.eqb k constant_term then 1%Qc else match find (fun m => String.eqb (nm m) k) candidates with Some m => w m | None => 0%Qc end.
Lemma point_at m : In m candidates -> support_point (nm m) = w m.
Proof.
  intros H. assert (P := candidates_proper m H). unfold support_point.
  destruct (String.eqb_spec (nm m) constant_term) as [E|_]; [elim (not_constant m P E)|].
  destruct (find _ candidates) as [m'|] eqn:Fd.
  - apply find_some in Fd as [H' E]. apply String.eqb_eq in E. rewrite (nm_inj m' m (candidates_proper m' H') P E). reflexivity.
  - assert (X := find_none _ _ Fd m H). cbv beta in X. rewrite String.eqb_refl in X. discriminate.
Qed.
Lemma point_constant : support_point constant_term = 1%Qc.
Proof. unfold support_point. rewrite String.eqb_refl. reflexivity. Qed.
Lemma one_term (l : list (nat * moment)) i : NoDup (map fst l) -> sumQ (map (fun q => (support_point (nm (snd q)) * (if i =? fst q then 1%Qc else 0%Qc))%Qc) l) = match assoc l i with Some m => support_point (nm m) | None => 0%Qc end.
Proof.
  induction l as [|[k m'] l IH]; intros ND; [reflexivity|]. cbn [map fst snd assoc]. rewrite sumQ_cons. cbn [map fst] in ND. inversion ND as [|? ? NI ND']; subst. rewrite (IH ND').
  rewrite (Nat.eqb_sym k i). destruct (Nat.eqb_spec i k) as [->|]; [|ring]. destruct (assoc l k) as [m2|] eqn:E; [|ring]. elim NI. apply assoc_found in E. apply in_map_iff. exists (k, m2). auto.
Qed.
Lemma matrix_is i j : SDPSolveSpec.moment_matrix a support_point i j = value_at r w (M i j).
Proof.
  unfold SDPSolveSpec.moment_matrix. rewrite args_are. cbn [SDPSolveModel.mask_matrices]. rewrite map_app, sumQ_app, map_map. cbn [map].
  match goal with |- (?p + ?q)%Qc = _ => transitivity (p + 0)%Qc; [f_equal; rewrite sumQ_cons, sumQ_nil; ring|] end.
  match goal with |- (?p + _)%Qc = _ => change p with (sumQ (map (fun q => (support_point (nm (snd q)) * (if M i j =? fst q then 1%Qc else 0%Qc))%Qc) comp)) end.
  rewrite (one_term comp (M i j) (keys_nodup sc W FC cols GC hc true r GE)). unfold value_at. destruct (assoc comp (M i j)) as [m|] eqn:E; [|ring]. rewrite point_at; [ring|].
  unfold candidates. apply in_or_app. left. rewrite (moments_are sc cols hc true r GE). apply in_map_iff. exists (M i j, m). split; [reflexivity|apply comp_in, E].
Qed.
Lemma row_named d : (forall m, In m (keys d) -> In m candidates) -> SDPSolveSpec.expr support_point (named_row nm (named d)) = expr_at w d.
Proof.
  intros H. unfold SDPSolveSpec.expr, named_row, named, expr_at. rewrite !map_map. f_equal. apply map_ext_in. intros [m v] Hm. cbn [fst snd]. rewrite point_at; [reflexivity|]. apply H. apply in_map_iff. exists (m, v). auto.
Qed.
End Scaled.
Theorem support_feasible : exists z, SDPSolveSpec.feasible a z.
Proof.
  destruct state_facts as (values & sp & EV & ESP & R & K & L & U & SK & KM). assert (MA := MT values sp EV ESP).
  destruct (enlarge (fun p : moment * Qc => y (fst p)) (filter (fun p => negb (isclose0 (snd p))) (known sp))) as (t & T1 & TP).
  { intros [m v] H. apply filter_In in H as [H C0]. cbn [fst snd] in *. apply negb_true_iff in C0. apply (MA m v H), C0. }
  assert (T0 : (0 <= t)%Qc) by (apply (Qcle_trans _ 1); [discriminate|exact T1]).
  set (w := fun m => (t * y m)%Qc). destruct (good_multiple r N t y T0 G) as [GE1 GH GP]. fold w in GE1, GH, GP. exists (support_point w).
  assert (IC : forall m, In m (moments c) -> In m candidates) by (intros m H; unfold candidates; apply in_or_app; left; exact H).
  split.
  - unfold SDPSolveSpec.linear_part. split; [|split; [|split; [|split]]].
    + rewrite args_are. cbn [SDPSolveModel.known_vars]. intros k v H. apply in_app_or in H as [H|[H|[]]].
      * apply in_map_iff in H as ([m v'] & E & H). cbn [fst snd] in E. assert (k = nm m) as -> by congruence. assert (v' = v) by congruence. subst v'. rewrite point_at; [|apply IC, KM; apply in_map_iff; exists (m, v); auto].
        assert (v = 0%Qc) as -> by (apply (Z m v H)). destruct (K m 0%Qc H) as [Hk _]. unfold w. rewrite (proj1 (MA m 0%Qc Hk) eq_refl). ring.
      * assert (k = constant_term) as -> by congruence. assert (v = 1%Qc) as -> by congruence. apply point_constant.
    + rewrite args_are. intros k q k2 [].
    + rewrite args_are. cbn [SDPSolveModel.equalities]. intros d H. apply in_map_iff in H as (e & <- & He). destruct (equality_shape sc W FC Hout cols GC hc r GE e He) as [A B]. rewrite row_named; [apply GE1, He|]. intros m Hm. apply IC, B, Hm.
    + rewrite args_are. cbn [SDPSolveModel.inequalities]. intros d H. apply in_map_iff in H as ([m b] & <- & Hb). cbn [fst snd]. assert (Im : In m candidates) by (unfold candidates; rewrite !in_app_iff; right; right; left; apply in_map_iff; exists (m, b); auto).
      unfold SDPSolveSpec.expr. destruct (L m b Hb) as [[-> H]|[-> H]].
      * change (isclose0 1%Qc) with false. cbn [map]. rewrite !sumQ_cons, sumQ_nil, (point_at w m Im), point_constant. replace (1 * w m + (- (1) * 1 + 0))%Qc with (w m - 1)%Qc by ring. apply -> Qcle_minus_iff.
        unfold w. destruct H as [->|(v & Hv & C0)]; [rewrite Y1; replace (t * 1)%Qc with t by ring; exact T1|]. apply (TP (m, v)). apply filter_In. split; [exact Hv|]. cbn [snd]. rewrite C0. reflexivity.
      * change (isclose0 0%Qc) with true. cbn [map]. rewrite sumQ_cons, sumQ_nil, (point_at w m Im). replace (1 * w m + 0)%Qc with (w m) by ring. apply GH, H.
    + rewrite args_are. discriminate.
  - assert (EN : SDPSolveModel.mat_dim a = N) by (rewrite args_are; reflexivity). rewrite EN. apply (PSD.psd_ext N (fun i j => value_at r w (M i j))); [intros i j _ _; symmetry; apply matrix_is|exact GP].
Qed.
End Point.
End Table.
End Generated.
