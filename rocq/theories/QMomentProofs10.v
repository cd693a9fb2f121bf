(** The arguments that are passed to the solver interface are sensible. *)
From Coq Require Import Permutation QArith Qcanon List Arith Bool Lia Sorted String Ascii.
From Verif Require Import CanonModel CanonSpec MomentModel MomentSpec OrbitModel ScenarioModel ScenarioSpec SymModel SymSpec KnowModel KnowSpec FactorModel FactorSpec
  MargModel QcSum QcArith ColumnModel ColumnSpec MemoModel MemoSpec NormModel NormSpec NameModel NameSpec ProgramModel ProgramSpec ProgramProofs ProgramProofs2 ProgramProofs3 LPMomentModel QuantumSpec QuantumProofs QInflationSpec SDPMomentModel SDPRunSpec SoundProofs QMomentProofs QMomentProofs2 QMomentProofs3 QMomentProofs4 QMomentProofs5 QMomentProofs6 QMomentProofs7 QMomentProofs8 QMomentProofs9.
From Verif Require CanonProofs ScenarioProofs ColumnProofs2 NormProofs2 NormProofs3 PropProgram ProgramLPProofs SDPSolveModel SDPSolveSpec PropSDP.
Import ListNotations.
Close Scope Q_scope. Close Scope Qc_scope. Open Scope string_scope. Open Scope nat_scope. Open Scope list_scope.

Lemma nodup_named {A} (f : A -> SDPSolveModel.name) (l : list A) : NoDup l -> (forall a b, In a l -> In b l -> f a = f b -> a = b) -> NoDup (map f l).
Proof.
  induction 1 as [|a l NI ND IH]; intros J; [constructor|]. cbn [map]. constructor; [|apply IH; intros x z Hx Hz; apply J; right; assumption].
  intros Q. apply in_map_iff in Q as (b & E & Hb). apply NI. rewrite (J a b (or_introl eq_refl) (or_intror Hb) (eq_sym E)). exact Hb.
Qed.
Lemma nodup_snoc {A} (l : list A) a : NoDup l -> ~ In a l -> NoDup (l ++ [a]).
Proof.
  intros N H. induction N as [|b l NI ND IH]; [repeat constructor; intros []|]. cbn [app]. constructor; [|apply IH; intros Q; apply H; right; exact Q]. rewrite in_app_iff. intros [Q|[->|[]]]; [apply NI, Q|apply H; left; reflexivity].
Qed.
Lemma fresh_starts fuel vars : forall t, exists t', SDPSolveModel.fresh fuel vars (String "l" t) = String "l" t'.
Proof. induction fuel as [|fuel IH]; intros t; cbn [SDPSolveModel.fresh]; [exists t; reflexivity|]. destruct (SDPSolveModel.mem _ vars); [apply (IH (t ++ "_")%string)|exists t; reflexivity]. Qed.
Lemma keys_named {V} nm (d : mdict V) : keys (named_dict nm d) = map nm (keys d).
Proof. unfold named_dict, keys. rewrite !map_map. reflexivity. Qed.
Lemma keys_named_row nm d : keys (named_row nm (named d)) = map nm (keys d).
Proof. unfold named_row, named, keys. rewrite !map_map. reflexivity. Qed.

(** ** States *)
Lemma keeps_step c o s s' : keeps_values o -> step sdp c o s = Some s' -> known s' = known s /\ semiknown s' = semiknown s.
Proof.
  intros K E. destruct o as [values lpi only|values lpi only|b bt|items mx|l|l]; cbn [step] in E; try destruct K.
  - apply objective_values in E as (A & B & _). auto.
  - injection E as <-. auto.
  - injection E as <-. auto.
Qed.
Lemma keeps_run c ops : Forall keeps_values ops -> forall s s', run sdp c ops (Some s) = Some s' -> known s' = known s /\ semiknown s' = semiknown s.
Proof.
  induction 1 as [|o ops K _ IH]; intros s s' E; unfold run in *; cbn [fold_left] in E; [assert (s' = s) by congruence; subst; auto|].
  destruct (step sdp c o s) as [s1|] eqn:E1; [|assert (X := run_none sdp c ops); unfold run in X; rewrite X in E; discriminate].
  destruct (keeps_step c o s s1 K E1) as [A B]. destruct (IH s1 s' E) as [A' B']. split; congruence.
Qed.
Lemma keeps_keeps ops : Forall keeps_values ops -> Forall keeps_bounds ops.
Proof. intros F. eapply Forall_impl; [|exact F]. intros o. destruct o; cbn; auto. Qed.
Lemma reachable_run c s ops s' : reachable sdp c s -> run sdp c ops (Some s) = Some s' -> reachable sdp c s'.
Proof. intros (l & E) E'. exists (l ++ ops). unfold run in *. rewrite fold_left_app, E. exact E'. Qed.
Lemma processed_keys c s m : reachable sdp c s -> In m (keys (processed s)) -> m = One \/ In m (moments c).
Proof.
  intros R I. destruct (meq m One) as [|NE]; [left; assumption|]. apply (in_keys_get meq) in I as (v & G). rewrite (ow_clean _ _ (reachable_objective sdp c s R) eq_refl m NE) in G. destruct (mmem m (keys (known s))); [discriminate|].
  apply (proj2 (reachable_tidy c s R)). apply (in_keys_get meq). eauto.
Qed.

Section Generated.
Variables (sc : scenario) (W : wf_scenario sc) (FC : few_copies sc) (Hout : forall o, In o (outcomes sc) -> 1 <= o).
Notation n := (List.length (lexorder sc)).
Notation nc := (sdp_notcomm sc).
Notation ortho := (sdp_orthomat sc).
Notation oc := (operators_commute sc).
Variables (cols : list word) (GC : good_columns nc ortho (S n) cols).
Notation N := (List.length cols).
Context {sup : bool}.
Variables (hc : list bool) (r : SDPMomentModel.relaxation) (GE : SDPMomentModel.generate sc hc sup cols = Some r).
Notation atoms := (SDPMomentModel.r_atoms r).
Notation c := (SDPMomentModel.r_context r).
Notation M := (r_matrix r).
Notation comp := (r_moments r).

Lemma equality_shape d : In d (minimal_equalities c) -> NoDup (keys d) /\ (forall m, In m (keys d) -> In m (moments c)).
Proof.
  destruct (parts sc W FC cols GC hc sup r GE) as (ob & co & lists & eqs & EM & _ & _ & _ & _ & EE & EQ). rewrite EQ. intros Hd. unfold equalities_of in EE. destruct (negb (is_network sc) || sup).
  2:{ assert (X : eqs = []) by congruence. rewrite X in Hd. destruct Hd. }
  destruct (discover_normalization_eqns sc hc cols) as [ces|] eqn:ED; [|discriminate]. apply ScenarioProofs.map_opt_some in EE.
  assert (X : exists e, In e (construct_normalization_eqs N M ces) /\ equality_of comp e = Some d).
  { clear - EE Hd. induction EE as [|e d' l l' H _ IH]; [destruct Hd|]. destruct Hd as [->|Hd]; [exists e; split; [left; reflexivity|exact H]|]. destruct (IH Hd) as (e' & H' & E'). exists e'. split; [right; exact H'|exact E']. }
  destruct X as ([k l] & He & Ed). unfold equality_of in Ed. cbn [fst snd] in Ed. destruct (Nat.ltb_spec (List.length l) 2) as [|L2]; [discriminate|].
  destruct (assoc comp k) as [mk|] eqn:Ek; [|discriminate]. destruct (map_opt (assoc comp) l) as [ml|] eqn:El; [|discriminate].
  assert (ND : NoDup (k :: l)).
  { destruct (NormProofs2.construct_spec N M ces) as (_ & CS & _). destruct (CS k l He) as (e & i & He' & Hi & NZ & Ek' & El').
    destruct (NormProofs3.summands_distinct sc W Hout oc hc cols M ob co ces e i (comm_flag sc W) GC EM ED He' Hi NZ) as [ND NI].
    assert (PM : Permutation (map (M i) (snd e)) l) by (rewrite El'; apply CanonProofs.np_sort_perm). constructor; [|eapply Permutation_NoDup; eassumption].
    intros Hk. apply NI; [rewrite <- (map_length (M i)), (Permutation_length PM); exact L2|]. rewrite <- Ek'. eapply Permutation_in; [apply Permutation_sym, PM|exact Hk]. }
  apply ScenarioProofs.map_opt_some in El.
  assert (NDm : NoDup (mk :: ml)).
  { assert (F2 : Forall2 (fun a b => assoc comp a = Some b) (k :: l) (mk :: ml)) by (constructor; assumption). revert ND F2. generalize (k :: l), (mk :: ml). clear - W FC GC GE. intros l l' ND F. revert ND.
    induction F as [|a b l l' H F IH]; intros ND; constructor; inversion ND as [|? ? NI ND']; subst; [|apply IH, ND'].
    intros Hb. assert (X : exists a', In a' l /\ assoc comp a' = Some b). { clear - F Hb. induction F as [|a b' l l' H _ IH]; [destruct Hb|]. destruct Hb as [->|Hb]; [exists a; split; [left; reflexivity|exact H]|]. destruct (IH Hb) as (a' & A & B). exists a'. split; [right; exact A|exact B]. }
    destruct X as (a' & Ha' & E'). apply NI. rewrite (comp_injective sc cols hc sup r GE a a' b); [exact Ha'|apply comp_in, H|apply comp_in, E']. }
  assert (Ed' : d = (mk, 1%Qc) :: map (fun m => (m, (- (1))%Qc)) ml).
  { rewrite NormProofs3.update_fresh in Ed; [cbn [app] in Ed; congruence|]. cbn [keys map app fst]. unfold keys. rewrite map_map. cbn [fst]. rewrite map_id. exact NDm. }
  rewrite Ed'. split; [unfold keys; cbn [map fst]; rewrite map_map; cbn [fst]; rewrite map_id; exact NDm|].
  intros m Hm. unfold keys in Hm. cbn [map fst] in Hm. rewrite map_map in Hm. cbn [fst] in Hm. rewrite map_id in Hm. rewrite (moments_are sc cols hc sup r GE). apply in_map_iff. destruct Hm as [<-|Hm]; [exists (k, mk); split; [reflexivity|apply comp_in, Ek]|].
  clear - El Hm. induction El as [|a b l l' H _ IH]; [destruct Hm|]. destruct Hm as [->|Hm]; [exists (a, m); split; [reflexivity|apply comp_in, H]|apply IH, Hm].
Qed.

Lemma no_inequalities : minimal_inequalities c = [].
Proof. unfold SDPMomentModel.generate in GE. destruct (symmetrized_moment_matrix _ _ _ _ _) as [[[M' ob] co]|]; [|discriminate]. destruct (map_opt _ co) as [lists|]; [|discriminate]. cbv zeta in GE.
  destruct (negb _ && _); [|discriminate]. destruct (equalities_of _ _ _ _ _ _) as [eqs|]; [|discriminate]. injection GE as <-. reflexivity. Qed.
Lemma columns_are : r_columns r = cols.
Proof. unfold SDPMomentModel.generate in GE. destruct (symmetrized_moment_matrix _ _ _ _ _) as [[[M' ob] co]|]; [|discriminate]. destruct (map_opt _ co) as [lists|]; [|discriminate]. cbv zeta in GE.
  destruct (negb _ && _); [|discriminate]. destruct (equalities_of _ _ _ _ _ _) as [eqs|]; [|discriminate]. injection GE as <-. reflexivity. Qed.
End Generated.
Section Plain.
Variables (sc : scenario) (W : wf_scenario sc) (FC : few_copies sc) (Hout : forall o, In o (outcomes sc) -> 1 <= o).
Notation n := (List.length (lexorder sc)).
Notation nc := (sdp_notcomm sc).
Notation ortho := (sdp_orthomat sc).
Notation oc := (operators_commute sc).
Variables (cols : list word) (GC : good_columns nc ortho (S n) cols).
Notation N := (List.length cols).
Variables (hc : list bool) (r : SDPMomentModel.relaxation) (GE : SDPMomentModel.generate sc hc false cols = Some r).
Notation atoms := (SDPMomentModel.r_atoms r).
Notation c := (SDPMomentModel.r_context r).
Notation M := (r_matrix r).
Notation comp := (r_moments r).

Section Run.
Variables (nm : moment -> SDPSolveModel.name) (before : list op) (arr : option ndarray) (lpi shared : bool) (after : list op) (feas : bool) (s : state) (a : SDPSolveModel.sdp_args).
Variable RUN : sdp_run sc hc cols nm before arr lpi shared after feas r s a.
(** what is known of the state *)
Lemma run_facts : reachable sdp c s /\ default_bounds c s /\ (forall m, In m (keys (known s)) -> In m (moments c)) /\
  exists s1 s2, SDPMomentModel.set_distribution sc r arr lpi shared s1 = Some s2 /\ known s = known s2 /\ semiknown s = semiknown s2.
Proof.
  destruct RUN as [_ _ HB HA (s0 & s1 & s2 & E0 & E1 & E2 & E3) EA]. assert (SP := no_supports sc cols hc r GE).
  assert (R0 : reachable sdp c s0) by (exists []; exact E0). assert (R1 := reachable_run c s0 before s1 R0 E1).
  assert (Q : exists values, step sdp c (SetValues values lpi shared) s1 = Some s2) by (unfold SDPMomentModel.set_distribution in E2; destruct (match arr with Some a => distribution_values sc r a | None => Some [] end) as [values|]; [|discriminate]; exists values; exact E2).
  destruct Q as (values & Q). assert (R2 : reachable sdp c s2) by (apply (reachable_run c s1 [SetValues values lpi shared]); [exact R1|exact Q]). assert (R := reachable_run c s2 after s R2 E3).
  split; [exact R|]. split.
  - apply (run_default c after SP (keeps_keeps after HA) s2 s); [|exact E3]. apply (step_default c (SetValues values lpi shared) s1 s2 SP Logic.I); [|exact Q]. apply (run_default c before SP HB s0 s1); [|exact E1]. apply (generated_default c s0 SP E0).
  - split; [|exists s1, s2; destruct (keeps_run c after HA s2 s E3); auto]. intros m Hm. unfold solver_args, prepare_sdp in EA. destruct (forallb _ _) eqn:F; [|discriminate]. rewrite forallb_forall in F. apply mmem_iff, F, Hm.
Qed.
Lemma args_are : a = {| SDPSolveModel.mat_dim := N;
            SDPSolveModel.mask_matrices := map (fun q => (nm (snd q), fun i j => if M i j =? fst q then 1%Qc else 0%Qc)) comp ++ [(constant_term, fun _ _ => 0%Qc)];
            SDPSolveModel.objective := named_dict nm (processed s);
            SDPSolveModel.known_vars := named_dict nm (known s) ++ [(constant_term, 1%Qc)];
            SDPSolveModel.semiknown_vars := map (fun q => (nm (fst q), (fst (snd q), nm (snd (snd q))))) (semiknown s);
            SDPSolveModel.inequalities := map (fun m => [(nm m, 1%Qc)]) (keys (lower s));
            SDPSolveModel.equalities := map (fun d => named_row nm (named d)) (minimal_equalities c);
            SDPSolveModel.default_non_negative := false;
            SDPSolveModel.feas_as_optim := feas && negb (1 <? List.length (processed s));
            SDPSolveModel.process_constraints := true |}.
Proof.
  destruct run_facts as (_ & (DL & DU) & _). destruct RUN as [_ _ _ _ _ EA]. unfold solver_args, prepare_sdp in EA. destruct (forallb _ _); [|discriminate]. rewrite (columns_are sc cols hc r GE) in EA. cbn [a_objective a_known a_semiknown a_inequalities a_equalities] in EA.
  rewrite (no_inequalities sc cols hc r GE), DU in EA. cbn [map app] in EA. rewrite app_nil_r, !map_map in EA.
  match type of EA with Some ?b = Some a => assert (X : a = b) by congruence; rewrite X end. f_equal.
  unfold keys. rewrite map_map. apply map_ext_in. intros [m v] Hm. cbn [fst snd]. destruct (DL m v Hm) as [-> _]. reflexivity.
Qed.
Lemma nm_inj m m' : proper_moment r m -> proper_moment r m' -> nm m = nm m' -> m = m'.
Proof. apply (gm_different _ _ (sr_names _ _ _ _ _ _ _ _ _ _ _ _ _ RUN)). Qed.
Lemma not_constant m : proper_moment r m -> nm m <> constant_term.
Proof. intros P E. assert (Q := gm_plain _ _ (sr_names _ _ _ _ _ _ _ _ _ _ _ _ _ RUN) m P). rewrite E in Q. destruct Q as [Q _]. apply Q. reflexivity. Qed.
Lemma one_proper : proper_moment r One.
Proof. exists []. split; [intros x []|reflexivity]. Qed.
Notation mp := (moments_proper sc W FC cols GC hc r GE).
Lemma known_proper m : In m (keys (known s)) -> proper_moment r m.
Proof. intros H. apply mp. apply run_facts, H. Qed.
Lemma semi_moment m : In m (keys (semiknown s)) -> In m (moments c).
Proof. intros H. apply (reachable_semi_products sdp c s (proj1 run_facts) m H). Qed.
Lemma processed_proper m : In m (keys (processed s)) -> proper_moment r m.
Proof. intros H. destruct (processed_keys c s m (proj1 run_facts) H) as [->|Q]; [apply one_proper|apply mp, Q]. Qed.
Lemma target_proper m k u : In (m, (k, u)) (semiknown s) -> proper_moment r u /\ ~ In u (keys (known s)) /\ ~ In u (keys (semiknown s)).
Proof.
  destruct run_facts as (_ & _ & _ & s1 & s2 & E & -> & ->). apply (semiknown_targets sc W FC cols GC hc r GE arr lpi shared s1 s2 E).
Qed.
Lemma named_in m (l : list moment) : proper_moment r m -> (forall x, In x l -> proper_moment r x) -> In (nm m) (map nm l) -> In m l.
Proof. intros P H Q. apply in_map_iff in Q as (x & E & Hx). rewrite (nm_inj m x P (H x Hx) (eq_sym E)). exact Hx. Qed.
Lemma named_nodup (l : list moment) : NoDup l -> (forall x, In x l -> proper_moment r x) -> NoDup (map nm l).
Proof. intros ND H. apply nodup_named; [exact ND|]. intros x z Hx Hz. apply nm_inj; auto. Qed.
Lemma no_constant (l : list moment) : (forall x, In x l -> proper_moment r x) -> ~ In constant_term (map nm l).
Proof. intros H Q. apply in_map_iff in Q as (x & E & Hx). apply (not_constant x (H x Hx) E). Qed.
Lemma keys_masks : keys (SDPSolveModel.mask_matrices a) = map nm (moments c) ++ [constant_term].
Proof. rewrite args_are. cbn [SDPSolveModel.mask_matrices]. unfold keys. rewrite map_app, map_map. cbn [map fst]. rewrite (moments_are sc cols hc false r GE), map_map. reflexivity. Qed.
Lemma keys_known : keys (SDPSolveModel.known_vars a) = map nm (keys (known s)) ++ [constant_term].
Proof. rewrite args_are. cbn [SDPSolveModel.known_vars]. unfold keys. rewrite map_app. fold (keys (named_dict nm (known s))). rewrite keys_named. reflexivity. Qed.
Lemma keys_semi : keys (SDPSolveModel.semiknown_vars a) = map nm (keys (semiknown s)).
Proof. rewrite args_are. cbn [SDPSolveModel.semiknown_vars]. unfold keys. rewrite !map_map. reflexivity. Qed.
Lemma targets_are k : In k (SDPSolveSpec.targets a) -> exists m v u, In (m, (v, u)) (semiknown s) /\ k = nm u.
Proof. unfold SDPSolveSpec.targets. rewrite args_are. cbn [SDPSolveModel.semiknown_vars]. rewrite map_map. cbn [snd]. intros Q. apply in_map_iff in Q as ([m [v u]] & <- & H). exists m, v, u. auto. Qed.

Theorem args_wf : SDPSolveSpec.wf_args a.
Proof.
  destruct run_facts as (R & (DL & DU) & KM & _). destruct (PropProgram.C22_never_both sdp c s R) as (N1 & N2 & N3). destruct (reachable_tidy c s R) as ((T1 & T2) & T3).
  unfold SDPSolveSpec.wf_args. rewrite keys_masks, keys_known, keys_semi.
  split. { apply nodup_snoc; [apply named_nodup; [apply (moments_nodup sc cols hc false r GE)|apply mp]|apply no_constant, mp]. }
  split. { rewrite args_are. cbn [SDPSolveModel.objective]. rewrite keys_named. apply named_nodup; [exact T2|apply processed_proper]. }
  split. { apply nodup_snoc; [apply named_nodup; [exact N1|apply known_proper]|apply no_constant, known_proper]. }
  split. { apply named_nodup; [exact N2|]. intros m Hm. apply mp, semi_moment, Hm. }
  split. { rewrite args_are. cbn [SDPSolveModel.equalities]. intros d Hd. apply in_map_iff in Hd as (e & <- & He). rewrite keys_named_row. destruct (equality_shape sc W FC Hout cols GC hc r GE e He) as [A B]. apply named_nodup; [exact A|]. intros m Hm. apply mp, B, Hm. }
  split. { rewrite args_are. cbn [SDPSolveModel.inequalities]. intros d Hd. apply in_map_iff in Hd as (e & <- & He). repeat constructor. intros []. }
  split. { rewrite args_are. cbn [SDPSolveModel.mask_matrices SDPSolveModel.mat_dim]. intros k m Hk i j Hi Hj. apply in_app_or in Hk as [Hk|[Hk|[]]].
    - apply in_map_iff in Hk as (q & E & Hq). assert (E2 : m = fun i j => if M i j =? fst q then 1%Qc else 0%Qc) by congruence. rewrite E2, (matrix_symmetric sc W FC cols GC hc false r GE i j Hi Hj). reflexivity.
    - assert (E2 : m = fun _ _ => 0%Qc) by congruence. rewrite E2. reflexivity. }
  split. { rewrite args_are. cbn [SDPSolveModel.mask_matrices]. intros Q. destruct (map _ comp); discriminate Q. }
  split. { intros k Hk Q. apply in_map_iff in Hk as (m & <- & Hm). assert (P := mp m (semi_moment m Hm)). apply in_app_or in Q as [Q|[Q|[]]]; [|apply (not_constant m P); symmetry; exact Q]. apply (named_in m _ P known_proper) in Q. apply (N3 m Q Hm). }
  split. { intros k Hk. apply targets_are in Hk as (m & v & u & H & ->). destruct (target_proper m v u H) as (P & NK & NS). split.
    - intros Q. apply in_app_or in Q as [Q|[Q|[]]]; [|apply (not_constant u P); symmetry; exact Q]. apply NK. apply (named_in u _ P known_proper Q).
    - intros Q. apply NS. apply (named_in u _ P); [|exact Q]. intros x Hx. apply mp, semi_moment, Hx. }
  rewrite args_are. discriminate.
Qed.
Theorem args_lambda : SDPSolveSpec.lambda_free a.
Proof.
  destruct (fresh_starts (S (List.length (SDPSolveModel.variables_of a))) (SDPSolveModel.variables_of a) "ambda") as (t & E). change (SDPSolveModel.lambda_name a = String "l" t) in E.
  assert (X : forall m, proper_moment r m -> nm m <> String "l" t). { intros m P Q. assert (G := gm_plain _ _ (sr_names _ _ _ _ _ _ _ _ _ _ _ _ _ RUN) m P). rewrite Q in G. destruct G as [_ G]. apply G. reflexivity. }
  unfold SDPSolveSpec.lambda_free. rewrite E, keys_known, keys_semi. split; [|split].
  - intros Q. apply in_app_or in Q as [Q|[Q|[]]]; [|discriminate Q]. apply in_map_iff in Q as (m & Q & Hm). apply (X m (known_proper m Hm) Q).
  - intros Q. apply in_map_iff in Q as (m & Q & Hm). apply (X m (mp m (semi_moment m Hm)) Q).
  - intros Q. apply targets_are in Q as (m & v & u & H & Q). destruct (target_proper m v u H) as (P & _). apply (X u P). symmetry. exact Q.
Qed.
Lemma args_masks : SDPSolveModel.has_masks a = true.
Proof. unfold SDPSolveModel.has_masks. rewrite args_are. cbn [SDPSolveModel.mask_matrices]. destruct (map _ comp); reflexivity. Qed.
(** the conic programmes are built *)
Theorem args_solvable : exists p, SDPSolveModel.preprocess a = Some p /\ (exists t, SDPSolveModel.build_dual a p = Some t) /\ (exists t, SDPSolveModel.build_primal a p = Some t).
Proof.
  apply PropSDP.C27_total; [apply args_wf|intros _; apply args_lambda|apply args_masks|]. intros k. rewrite keys_semi, keys_masks. intros Q. apply in_or_app. left. apply in_map_iff in Q as (m & <- & Hm). apply in_map, semi_moment, Hm.
Qed.
End Run.
End Plain.
