(** Two distributions in the same relaxation. *)
From Coq Require Import Permutation QArith Qcanon List Arith Bool Lia Sorted String Ascii.
From Verif Require Import CanonModel CanonSpec MomentModel MomentSpec OrbitModel ScenarioModel ScenarioSpec SymModel SymSpec KnowModel KnowSpec FactorModel FactorSpec
  MargModel QcSum QcArith ColumnModel ColumnSpec MemoModel MemoSpec NormModel NormSpec NameModel NameSpec ProgramModel ProgramSpec ProgramProofs ProgramProofs2 ProgramProofs3 LPMomentModel QuantumSpec QuantumProofs QInflationSpec SDPMomentModel SDPRunSpec SoundProofs QMomentProofs QMomentProofs2 QMomentProofs3 QMomentProofs4 QMomentProofs5 QMomentProofs6 QMomentProofs7 QMomentLengths QMomentProofs8 QMomentProofs9 QMomentProofs10 QMomentProofs11.
From Verif Require CanonProofs ScenarioProofs PropProgram PropSDP SDPSolveModel SDPSolveSpec PSD.
Import ListNotations.
Close Scope Q_scope. Close Scope Qc_scope. Open Scope string_scope. Open Scope nat_scope. Open Scope list_scope.

Lemma given_defined values : forall values' m, map fst values = map fst values' -> (forall p, In p values -> is_some (snd p) = true) -> (forall p, In p values' -> is_some (snd p) = true) ->
  is_some (given values m) = true -> is_some (given values' m) = true.
Proof.
  intros values' m E S S' H. unfold given in H. destruct (find _ (rev values)) as [[m' o]|] eqn:F; [|discriminate]. apply find_some in F as [F Q]. cbn [fst snd] in Q. apply andb_prop in Q as [Q _]. destruct (meq m' m) as [->|]; [|discriminate]. clear Q.
  apply in_rev in F. apply (in_map fst) in F. rewrite E in F. cbn [fst] in F. apply in_map_iff in F as ([m2 o2] & E2 & F). cbn [fst] in E2. subst m2.
  unfold given. destruct (find _ (rev values')) as [[m3 o3]|] eqn:F3.
  - apply find_some in F3 as [F3 _]. apply in_rev in F3. exact (S' _ F3).
  - exfalso. apply in_rev in F. assert (X := find_none _ _ F3 _ F). cbn [fst snd] in X. destruct (meq m m); [|congruence]. apply in_rev in F. assert (Y := S' _ F). cbn [snd] in Y. rewrite Y in X. discriminate.
Qed.

Section Two.
Variables (sc : scenario) (W : wf_scenario sc) (FC : few_copies sc) (Hout : forall o, In o (outcomes sc) -> 1 <= o).
Notation n := (List.length (lexorder sc)).
Notation nc := (sdp_notcomm sc).
Notation ortho := (sdp_orthomat sc).
Variable Hset : forall k, In k (private_settings sc) -> 1 <= k.
Variables (cols : list word) (GC : good_columns nc ortho (S n) cols).
Variables (hc : list bool) (r : SDPMomentModel.relaxation) (GE : SDPMomentModel.generate sc hc false cols = Some r).
Notation c := (SDPMomentModel.r_context r).
Notation atoms := (SDPMomentModel.r_atoms r).

Lemma values_shape arr values : distribution_values sc r arr = Some values -> map fst values = map (fun a => ProgramModel.monomial_from_atoms c [a]) (knowable_atoms r) /\ (forall p, In p values -> is_some (snd p) = true).
Proof.
  intros E. unfold distribution_values in E. apply ScenarioProofs.map_opt_some in E. induction E as [|a q l l' H _ [IH1 IH2]]; [split; [reflexivity|intros p []]|].
  destruct (SDPMomentModel.atom_value sc arr (nth a atoms [])) as [w|]; [|discriminate]. assert (q = (ProgramModel.monomial_from_atoms c [a], Some w)) as -> by congruence. split; [cbn [map fst]; rewrite IH1; reflexivity|].
  intros p [<-|Hp]; [reflexivity|exact (IH2 p Hp)].
Qed.
Lemma no_semiknown arr lpi only s1 s2 : lpi = false \/ only = true -> SDPMomentModel.set_distribution sc r (Some arr) lpi only s1 = Some s2 -> semiknown s2 = [].
Proof.
  intros LP E. assert (SI := no_supports sc cols hc r GE). assert (DI := dagger_ok sc W FC cols GC hc false r GE). unfold SDPMomentModel.set_distribution in E. destruct (distribution_values sc r arr) as [values|]; [|discriminate].
  destruct only; [apply (PropProgram.C22_only_specified sdp c values lpi s1 s2 SI E)|]. destruct LP as [->|]; [|discriminate].
  destruct values as [|q values'] eqn:EQ; [apply (PropProgram.C22_without_values sdp c false false s1 s2 SI E)|]. rewrite <- EQ in *. assert (NE : values <> []) by (rewrite EQ; discriminate).
  destruct (semiknown s2) as [|[m (k & u)] l] eqn:S0; [reflexivity|]. exfalso.
  assert (Gm : get meq m (semiknown s2) = Some (k, u)). { rewrite S0. cbn [get]. destruct (meq m m); [reflexivity|congruence]. }
  apply (PropProgram.C22_semiknown_exactly sdp c values false s1 s2 DI SI NE E) in Gm as (_ & X & _). discriminate.
Qed.
Lemma keys_agree arr arr' lpi only s1 s1' s s' : lpi = false \/ only = true -> SDPMomentModel.set_distribution sc r (Some arr) lpi only s1 = Some s -> SDPMomentModel.set_distribution sc r (Some arr') lpi only s1' = Some s' ->
  forall m, In m (keys (known s)) -> In m (keys (known s')).
Proof.
  intros LP E E'. assert (SI := no_supports sc cols hc r GE). assert (DI := dagger_ok sc W FC cols GC hc false r GE).
  unfold SDPMomentModel.set_distribution in E, E'. destruct (distribution_values sc r arr) as [values|] eqn:EV; [|discriminate]. destruct (distribution_values sc r arr') as [values'|] eqn:EV'; [|discriminate].
  assert (Wf := wf_set sdp c values lpi only s1 s E). assert (Wf' := wf_set sdp c values' lpi only s1' s' E').
  destruct (values_shape arr values EV) as [V1 V2]. destruct (values_shape arr' values' EV') as [V1' V2'].
  assert (EK : map fst values = map fst values') by congruence.
  assert (BB : forall m v, base sdp c values m = Some v -> exists v', base sdp c values' m = Some v').
  { intros m v H. unfold base in *. destruct (given values m) as [w|] eqn:Gv.
    - assert (X : is_some (given values' m) = true) by (apply (given_defined values values' m EK V2 V2'); rewrite Gv; reflexivity). destruct (given values' m); [eauto|discriminate].
    - destruct (given values' m); eauto. }
  assert (VV : forall i, valued sdp c values i = true -> valued sdp c values' i = true).
  { intros i. unfold valued, ProgramSpec.atom_value. destruct (base sdp c values [ProgramModel.dagger c i]) eqn:B1; [destruct (BB _ _ B1) as (? & ->); reflexivity|]. destruct (base sdp c values' [ProgramModel.dagger c i]); [reflexivity|].
    destruct (base sdp c values [i]) eqn:B2; [destruct (BB _ _ B2) as (? & ->); reflexivity|discriminate]. }
  assert (IN : forall st m v, get meq m (known st) = Some v -> In m (keys (known st))) by (intros st m v Q; apply (in_map fst (known st) (m, v)), (get_some_in meq), Q).
  assert (EM : values = [] <-> values' = []).
  { split; intros ->; cbn [map] in EK; [destruct values'|destruct values]; try reflexivity; discriminate EK. }
  intros m Hm. apply in_map_iff in Hm as ((m' & v) & <- & Hm). cbn [fst]. apply (in_get meq m' v (known s) (wf_known _ Wf)) in Hm. destruct only.
  - destruct (PropProgram.C22_only_specified sdp c values lpi s1 s SI E) as [_ K]. destruct (PropProgram.C22_only_specified sdp c values' lpi s1' s' SI E') as [_ K']. rewrite K in Hm. destruct (BB _ _ Hm) as (v' & Hv'). rewrite <- K' in Hv'. eapply IN; eassumption.
  - destruct LP as [->|]; [|discriminate]. destruct values as [|q vs] eqn:EQ.
    + pose proof (proj1 EM eq_refl). subst values'. destruct (PropProgram.C22_without_values sdp c false false s1 s SI E) as [_ K]. destruct (PropProgram.C22_without_values sdp c false false s1' s' SI E') as [_ K'].
      rewrite K in Hm. rewrite <- K' in Hm. eapply IN; eassumption.
    + rewrite <- EQ in *. assert (NE : values <> []) by (rewrite EQ; discriminate). assert (NE' : values' <> []) by tauto.
      apply (PropProgram.C22_known_exactly sdp c values false s1 s DI SI NE E) in Hm as (I & KV).
      assert (X : exists v', known_value sdp c values' false m' = Some v').
      { unfold known_value in *. cbn [andb] in *. rewrite orb_false_r in *. destruct ((2 <=? List.length m') && forallb (valued sdp c values) m') eqn:D.
        - apply andb_prop in D as [D1 D2]. rewrite D1. assert (D3 : forallb (valued sdp c values') m' = true) by (apply forallb_forall; intros i Hi; apply VV, (proj1 (forallb_forall _ _) D2 i Hi)). rewrite D3. cbn. eauto.
        - destruct ((2 <=? List.length m') && forallb (valued sdp c values') m'); [eauto|]. apply (BB _ _ KV). }
      destruct X as (v' & KV'). assert (Gm : get meq m' (known s') = Some v') by (apply (PropProgram.C22_known_exactly sdp c values' false s1' s' DI SI NE' E'); auto). eapply IN; eassumption.
Qed.

Lemma some_is (z : ndarray) : forall x, Some z = Some x -> x = z.
Proof. intros x H. congruence. Qed.
Section Runs.
Variables (nm : moment -> SDPSolveModel.name) (before before' : list op) (arr arr' : ndarray) (lpi shared : bool) (after after' : list op) (feas feas' : bool) (s s' : state) (a a' : SDPSolveModel.sdp_args).
Hypothesis LP : lpi = false \/ shared = true.
Variable RUN : sdp_run sc hc cols nm before (Some arr) lpi shared after feas r s a.
Variable RUN' : sdp_run sc hc cols nm before' (Some arr') lpi shared after' feas' r s' a'.
Variables (L : word -> C) (MQ : moments_of sc arr' L) (NH : nonnegative_hermitian sc (2 * longest cols) L) (Sh : nd_shape arr' = outcomes sc ++ private_settings sc).

Lemma not_tiny : PropSound.no_tiny_values lpi shared s'.
Proof. intros E1 E2. destruct LP; congruence. Qed.
Lemma same_known_keys : PropSDP.same_known a (SDPSolveModel.known_vars a').
Proof.
  destruct (run_facts sc cols hc r GE nm before (Some arr) lpi shared after feas s a RUN) as (_ & _ & _ & s1 & s2 & E & EK & _).
  destruct (run_facts sc cols hc r GE nm before' (Some arr') lpi shared after' feas' s' a' RUN') as (_ & _ & _ & s1' & s2' & E' & EK' & _).
  intros k. change (@keys SDPSolveModel.name Qc) with (@keys SDPSolveModel.name Qc).
  rewrite (keys_known sc cols hc r GE nm before (Some arr) lpi shared after feas s a RUN), (keys_known sc cols hc r GE nm before' (Some arr') lpi shared after' feas' s' a' RUN').
  rewrite !in_app_iff, EK, EK'. assert (A := keys_agree _ _ _ _ _ _ _ _ LP E E'). assert (A' := keys_agree _ _ _ _ _ _ _ _ LP E' E).
  split; (intros [H|H]; [left|right; exact H]); apply in_map_iff in H as (m & <- & H); apply in_map; auto.
Qed.
Notation x := (the_point r nm s' L).
Theorem other_point : SDPSolveSpec.feasible (SDPSolveSpec.with_known (SDPSolveModel.known_vars a') a) x /\ SDPSolveSpec.feasible_above (SDPSolveSpec.with_known (SDPSolveModel.known_vars a') a) 0%Qc x.
Proof.
  assert (F := point_feasible sc W FC Hout Hset cols GC hc r GE nm before' (Some arr') lpi shared after' feas' s' a' RUN' arr' (some_is arr') L MQ NH Sh not_tiny).
  assert (FA := point_feasible_above sc W FC Hout Hset cols GC hc r GE nm before' (Some arr') lpi shared after' feas' s' a' RUN' arr' (some_is arr') L MQ NH Sh not_tiny).
  destruct (run_facts sc cols hc r GE nm before (Some arr) lpi shared after feas s a RUN) as (_ & (DL & _) & _ & s1 & s2 & E & _ & ES).
  assert (NS : semiknown s = []) by (rewrite ES; exact (no_semiknown arr lpi shared s1 s2 LP E)).
  assert (EA := args_are sc cols hc r GE nm before (Some arr) lpi shared after feas s a RUN). assert (EA' := args_are sc cols hc r GE nm before' (Some arr') lpi shared after' feas' s' a' RUN').
  assert (LI : SDPSolveSpec.linear_part (SDPSolveSpec.with_known (SDPSolveModel.known_vars a') a) x).
  { destruct F as [(K & _ & Q & _ & _) _]. unfold SDPSolveSpec.linear_part. cbn [SDPSolveSpec.with_known SDPSolveModel.known_vars SDPSolveModel.semiknown_vars SDPSolveModel.equalities SDPSolveModel.inequalities SDPSolveModel.default_non_negative].
    split; [exact K|]. split; [|split; [|split]].
    - rewrite EA. cbn [SDPSolveModel.semiknown_vars]. rewrite NS. intros k q k2 [].
    - intros d Hd. apply Q. rewrite EA' . rewrite EA in Hd. exact Hd.
    - rewrite EA. cbn [SDPSolveModel.inequalities]. intros d H. apply in_map_iff in H as (m & <- & Hm). apply in_map_iff in Hm as ([m' v] & Em & Hm). cbn [fst] in Em. subst m'. destruct (DL m v Hm) as [_ Hh].
      unfold SDPSolveSpec.expr. cbn [map]. rewrite sumQ_cons, sumQ_nil. assert (I : In m (moments c)).
      { destruct (generate_is sc cols hc false r GE) as (_ & _ & _ & _ & _ & _ & _ & _ & _ & _ & _ & _ & _ & _ & _ & _ & _ & EH & _). rewrite EH in Hh. destruct (operators_commute sc); [exact Hh|]. apply filter_In in Hh. apply Hh. }
      rewrite (point_at sc W FC cols GC hc r GE nm before' (Some arr') lpi shared after' feas' s' a' RUN' L m (in_moments r s' m I)).
      assert (P := hermitian_nonneg sc W FC cols GC hc false r GE arr' L MQ NH m Hh). replace (1 * moment_mean r L m + 0)%Qc with (moment_mean r L m) by ring. exact P.
    - rewrite EA. discriminate. }
  assert (EM : forall i j, SDPSolveSpec.moment_matrix (SDPSolveSpec.with_known (SDPSolveModel.known_vars a') a) x i j = SDPSolveSpec.moment_matrix a' x i j).
  { intros i j. unfold SDPSolveSpec.moment_matrix. cbn [SDPSolveSpec.with_known SDPSolveModel.mask_matrices]. rewrite EA, EA'. reflexivity. }
  assert (EN : SDPSolveModel.mat_dim (SDPSolveSpec.with_known (SDPSolveModel.known_vars a') a) = SDPSolveModel.mat_dim a') by (cbn [SDPSolveSpec.with_known SDPSolveModel.mat_dim]; rewrite EA, EA'; reflexivity).
  assert (EMM : SDPSolveModel.mask_matrices (SDPSolveSpec.with_known (SDPSolveModel.known_vars a') a) = SDPSolveModel.mask_matrices a') by (cbn [SDPSolveSpec.with_known SDPSolveModel.mask_matrices]; rewrite EA, EA'; reflexivity).
  unfold SDPSolveSpec.feasible, SDPSolveSpec.feasible_above, SDPSolveSpec.moment_matrix in *. rewrite EN, EMM. split; (split; [exact LI|]); [exact (proj2 F)|exact (proj2 FA)].
Qed.
End Runs.
End Two.
