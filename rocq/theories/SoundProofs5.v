(** Certificates at other distributions, relaxed problems, and mixtures of distributions. *)
From Coq Require Import List Arith Bool QArith Qcanon Lia Permutation Sorted.
From Verif Require Import CanonModel ScenarioModel ScenarioSpec SymModel SymSpec KnowModel KnowSpec FactorModel FactorSpec MargModel QcSum LPModel LPSpec LPSpec2 InflatedSpec ProgramModel ProgramSpec ProgramProofs ProgramProofs2 ProgramProofs3 LPSolveModel LPSolveSpec LPSolveProofs ProgramLP ProgramLPProofs LPMomentModel LPMomentProofs LPMomentProofs2 ColumnsFacts SoundProofs SoundProofs2 GlueProofs GenerateProofs GenerateProofs2 SoundProofs3 SoundProofs4.
From Verif Require UniqueProofs ScenarioProofs SymProofs FactorProofs LPProofs10 PropProgram PropSolve LPSolveProofs2 LPSolveProofs3 LPSolveProofs4 LPSolveProofs5.
Import ListNotations.
Close Scope Q_scope. Close Scope Qc_scope. Open Scope nat_scope.

Lemma total_on n (L : list nat) (f x : nat -> Qc) : NoDup L -> (forall j, In j L -> j < n) ->
  total n (fun j => f j * (if memb j L then x j else 0))%Qc = sumQ (map (fun j => f j * x j)%Qc L).
Proof.
  intros N B. unfold total. transitivity (sumQ (map (fun j => f j * x j)%Qc (filter (fun j => memb j L) (seq 0 n)))).
  - rewrite sumQ_filter. apply sumQ_ext. intros j _. destruct (memb j L); ring.
  - apply sumQ_perm, Permutation_map, perm_of_same_elements; [apply NoDup_filter, seq_NoDup|exact N|]. intros j. rewrite filter_In, in_seq, ScenarioProofs.memb_in. split; [tauto|]. intros H. specialize (B j H). split; [lia|exact H].
Qed.
(** a certificate of a problem without objective only depends on the known columns *)
Lemma certificate_on n a s N0 y (L : list nat) x : args_ok n a -> prepare a = Some s -> c_rows (s_matrix s) <= N0 -> c_ent (LPSolveModel.objective a) = [] ->
  NoDup L -> (forall j, In j L -> j < n) -> (forall e, In e (c_ent (known_vars a)) -> In (e_col e) L) ->
  certificate_at n (certificate a s (map y (seq 0 N0))) x = sumQ (map (fun j => nth j (certificate a s (map y (seq 0 N0))) 0 * x j)%Qc L).
Proof.
  intros OK E LEN O N B K. pose proof (PropSolve.prepared_of n a s OK E) as P.
  rewrite <- (total_on n L _ x N B). fold (LPSolveProofs5.cert a s y N0).
  change (certificate_at n (LPSolveProofs5.cert a s y N0) x = certificate_at n (LPSolveProofs5.cert a s y N0) (fun j => if memb j L then x j else 0)%Qc).
  rewrite !(LPSolveProofs5.cert_value n a s y N0 OK P LEN), O. cbn [map]. f_equal. apply sumQ_ext. intros (i & e) I. cbn [fst snd]. apply in_combine_r in I. apply (LPSolveProofs4.in_known n a s OK P) in I.
  rewrite (proj2 (ScenarioProofs.memb_in _ _) (K e I)). reflexivity.
Qed.
Lemma dual_rows n a s t : args_ok n a -> prepare a = Some s -> dual_task a s = Some t -> c_rows (s_matrix s) <= t_numvar t.
Proof.
  intros OK E E'. pose proof (PropSolve.prepared_of n a s OK E) as P.
  destruct (LPSolveProofs4.dual_task_ok n a s OK P) as (t' & dm & E'' & _ & _ & _ & _ & _ & _ & _ & NV). rewrite E' in E''. injection E'' as <-. rewrite NV, (LPSolveProofs4.all_rows_length n a s OK P). lia.
Qed.

Section Certificates.
Variables (sc : scenario) (W : wf_scenario sc) (Hout : forall o, In o (outcomes sc) -> 1 <= o) (Hset : forall k, In k (private_settings sc) -> 1 <= k) (Np : 0 < nr_parties sc).
Hypothesis FC : few_copies sc.
Variables (ao : bool) (r : relaxation) (G : generate sc ao false = Some r).
Notation c := (r_context r).
Notation P := (r_programme r).
Variables (s0 : state) (L0 : lower s0 = []) (U0 : upper s0 = []) (O0 : ProgramModel.objective s0 = []) (R0 : reachable lp c s0).
Let SI : supports_problem c = false := supports_is sc W Hout FC ao false r G.
Let DI := dagger_ok sc W Hout FC ao false r G.

(** without linearised constraints nothing is semi-known *)
Lemma no_semiknown arr lpi only s : lpi = false \/ only = true -> set_distribution sc r arr lpi only s0 = Some s -> semiknown s = [].
Proof.
  intros LP E. unfold set_distribution in E. destruct (match arr with Some a => distribution_values sc r a | None => Some [] end) as [values|]; [|discriminate].
  destruct only; [apply (PropProgram.C22_only_specified lp c values lpi s0 s SI E)|]. destruct LP as [->|]; [|discriminate].
  destruct values as [|q values'] eqn:EQ; [apply (PropProgram.C22_without_values lp c false false s0 s SI E)|]. rewrite <- EQ in *. assert (NE : values <> []) by (rewrite EQ; discriminate).
  destruct (semiknown s) as [|[m (k & u)] l] eqn:S0; [reflexivity|]. exfalso.
  assert (Gm : get meq m (semiknown s) = Some (k, u)). { rewrite S0. cbn [get]. destruct (meq m m); [reflexivity|congruence]. }
  apply (PropProgram.C22_semiknown_exactly lp c values false s0 s DI SI NE E) in Gm as (_ & X & _). discriminate.
Qed.
Lemma fresh_state arr lpi only s : set_distribution sc r arr lpi only s0 = Some s ->
  lower s = [] /\ upper s = [] /\ extra_equalities s = [] /\ extra_inequalities s = [] /\ wf s /\ ProgramModel.objective s = [] /\ reachable lp c s.
Proof.
  intros E. pose proof (set_distribution_reachable sc r arr lpi only s0 s R0 E) as R. unfold set_distribution in E. destruct (match arr with Some a => distribution_values sc r a | None => Some [] end) as [values|]; [|discriminate].
  destruct (set_state sc W Hout FC ao false r G values lpi only s0 s E eq_refl) as (A1 & A2 & A3 & A4 & A5 & A6). rewrite L0 in A1. rewrite U0 in A2. rewrite O0 in A6. repeat (split; [assumption|]). exact R.
Qed.
Lemma point_of_any arr lpi only s nn arr' Pr : lpi = false \/ only = true -> set_distribution sc r arr lpi only s0 = Some s -> inflation_of sc arr' Pr -> lp_point P nn (forget s) (moment_at (the_atom sc r Pr)).
Proof.
  intros LP E IO. destruct (fresh_state arr lpi only s E) as (EL & EU & EX & EX' & _). pose proof (no_semiknown arr lpi only s LP E) as ES. destruct (the_constraints sc W Hout FC ao false r G arr' Pr IO) as (C1 & C2 & C3 & C4).
  constructor; cbn [forget with_values known semiknown lower upper extra_equalities extra_inequalities]; rewrite ?EL, ?EU, ?EX, ?EX', ?ES; try (intros ? []; fail); try (intros ? ? []; fail); try (intros ? ? ? []; fail); auto.
Qed.
(** the known moments do not depend on the distribution *)
Lemma keys_agree arr arr' lpi only s s' : lpi = false \/ only = true -> set_distribution sc r (Some arr) lpi only s0 = Some s -> set_distribution sc r (Some arr') lpi only s0 = Some s' ->
  forall m, In m (keys (known s)) -> In m (keys (known s')).
Proof.
  intros LP E E'. destruct (fresh_state _ _ _ _ E) as (_ & _ & _ & _ & Wf & _). destruct (fresh_state _ _ _ _ E') as (_ & _ & _ & _ & Wf' & _).
  unfold set_distribution in E, E'. destruct (distribution_values sc r arr) as [values|] eqn:EV; [|discriminate]. destruct (distribution_values sc r arr') as [values'|] eqn:EV'; [|discriminate].
  assert (BB : forall m v, base lp c values m = Some v -> exists v', base lp c values' m = Some v').
  { intros m v H. unfold base. destruct (base_is sc W Hout Hset FC ao false r G arr values m v EV H) as [(i & Hi & K & -> & _)|[-> _]].
    - rewrite (given_knowable sc W Hout Hset FC ao false r G arr' values' i EV' Hi K). eauto.
    - destruct (given values' One); eauto. destruct (meq One One); [eauto|congruence]. }
  assert (VV : forall i, valued lp c values i = true -> valued lp c values' i = true).
  { intros i. unfold valued, atom_value. destruct (base lp c values [dagger c i]) eqn:B1; [destruct (BB _ _ B1) as (? & ->); reflexivity|]. destruct (base lp c values' [dagger c i]); [reflexivity|].
    destruct (base lp c values [i]) eqn:B2; [destruct (BB _ _ B2) as (? & ->); reflexivity|discriminate]. }
  assert (IN : forall st m v, wf st -> get meq m (known st) = Some v -> In m (keys (known st))) by (intros st m v _ Q; apply (in_map fst (known st) (m, v)), (get_some_in meq), Q).
  assert (EM : values = [] <-> values' = []).
  { unfold distribution_values in EV, EV'. destruct (list_eq_dec _ (nd_shape arr) _); [|discriminate]. destruct (list_eq_dec _ (nd_shape arr') _); [|discriminate].
    apply ScenarioProofs.map_opt_some in EV, EV'. apply ScenarioProofs.Forall2_len in EV, EV'. split; intros ->; cbn in *; [destruct values'|destruct values]; cbn in *; try reflexivity; lia. }
  intros m Hm. apply in_map_iff in Hm as ((m' & v) & <- & Hm). cbn [fst]. apply (in_get meq m' v (known s) (wf_known _ Wf)) in Hm. destruct only.
  - destruct (PropProgram.C22_only_specified lp c values lpi s0 s SI E) as [_ K]. destruct (PropProgram.C22_only_specified lp c values' lpi s0 s' SI E') as [_ K']. rewrite K in Hm. destruct (BB _ _ Hm) as (v' & Hv'). rewrite <- K' in Hv'. eapply IN; eassumption.
  - destruct LP as [->|]; [|discriminate]. destruct values as [|q vs] eqn:EQ.
    + pose proof (proj1 EM eq_refl). subst values'. destruct (PropProgram.C22_without_values lp c false false s0 s SI E) as [_ K]. destruct (PropProgram.C22_without_values lp c false false s0 s' SI E') as [_ K'].
      rewrite K in Hm. rewrite <- K' in Hm. eapply IN; eassumption.
    + rewrite <- EQ in *. assert (NE : values <> []) by (rewrite EQ; discriminate). assert (NE' : values' <> []) by tauto.
      apply (PropProgram.C22_known_exactly lp c values false s0 s DI SI NE E) in Hm as (I & KV).
      assert (X : exists v', known_value lp c values' false m' = Some v').
      { unfold known_value in *. cbn [andb] in *. rewrite orb_false_r in *. destruct ((2 <=? length m') && forallb (valued lp c values) m') eqn:D.
        - apply andb_prop in D as [D1 D2]. rewrite D1. assert (D3 : forallb (valued lp c values') m' = true) by (apply forallb_forall; intros i Hi; apply VV, (proj1 (forallb_forall _ _) D2 i Hi)). rewrite D3. cbn. eauto.
        - destruct ((2 <=? length m') && forallb (valued lp c values') m'); [eauto|]. apply (BB _ _ KV). }
      destruct X as (v' & KV'). assert (Gm : get meq m' (known s') = Some v') by (apply (PropProgram.C22_known_exactly lp c values' false s0 s' DI SI NE' E'); auto). eapply IN; eassumption.
Qed.
(** ** The certificate *)
Definition value_of (cert : list Qc) (d : mdict Qc) : Qc := sumQ (map (fun p => nth (column P (fst p)) cert 0 * snd p)%Qc d).
Lemma certificate_at_known arr arr' lpi only nn rk ri s s' a t N0 y x : lpi = false \/ only = true ->
  set_distribution sc r (Some arr) lpi only s0 = Some s -> set_distribution sc r (Some arr') lpi only s0 = Some s' -> prepare_lp P nn rk ri s = Some a -> prepare a = Some t -> c_rows (s_matrix t) <= N0 ->
  (forall m v, In (m, v) (known s') -> x (column P m) = v) ->
  certificate_at (length (columns P)) (certificate a t (map y (seq 0 N0))) x = value_of (certificate a t (map y (seq 0 N0))) (known s').
Proof.
  intros LP E E' EP ET LEN KX. pose proof (programme_is_ok sc W Hout Hset Np FC ao false r G) as OK.
  destruct (fresh_state _ _ _ _ E) as (EL & EU & EX & EX' & Wf & EO & R). destruct (fresh_state _ _ _ _ E') as (_ & _ & _ & _ & Wf' & _ & _).
  assert (AO : args_ok (length (columns P)) a).
  { apply (args_are_ok P nn s a OK) with (rk := rk) (ri := ri); [|split; [rewrite EX|rewrite EX']; intros d []|exact EP]. rewrite EL, EU, EO. split; [apply (wf_known _ Wf)|]. repeat split; constructor. }
  destruct (known_columns sc W Hout Hset FC ao false r G (Some arr') lpi only s0 s' eq_refl E') as [KC _].
  rewrite (certificate_on _ a t N0 y (map (column P) (keys (known s'))) x AO ET LEN).
  - unfold value_of, keys. rewrite !map_map. apply sumQ_ext. intros (m & v) I. cbn [fst snd]. rewrite (KX m v I). reflexivity.
  - rewrite (prepared_is P nn s a rk ri EP). cbn. rewrite EO. reflexivity.
  - assert (ND : NoDup (keys (known s'))) by apply (wf_known _ Wf'). revert ND KC. generalize (keys (known s')). intros l ND KC. induction ND as [|m l Nm _ IH]; [constructor|]. cbn [map]. constructor; [|apply IH; intros m' Hm'; apply KC; right; exact Hm'].
    intros I. apply in_map_iff in I as (m' & Em & Hm'). apply Nm. replace m with m'; [exact Hm'|]. eapply (UniqueProofs.index_of_inj m_eqb m_eqb_eq); [apply KC; right; exact Hm'|apply KC; left; reflexivity|exact Em].
  - intros j Hj. apply in_map_iff in Hj as (m & <- & Hm). unfold column. apply (UniqueProofs.index_of_in m_eqb m_eqb_eq m (columns P) [] (KC m Hm)).
  - intros e He. rewrite (prepared_is P nn s a rk ri EP) in He. apply coo_vec_in in He as (m & v & I & ->). cbn [e_col]. apply (in_map (column P)), (keys_agree arr arr' lpi only s s' LP E E'), (in_map fst _ _ I).
Qed.
Lemma args_fresh arr lpi only nn rk ri s a : set_distribution sc r arr lpi only s0 = Some s -> prepare_lp P nn rk ri s = Some a ->
  args_ok (length (columns P)) a /\ no_bounds a /\ PropSolve.objective_fits a.
Proof.
  intros E EP. pose proof (programme_is_ok sc W Hout Hset Np FC ao false r G) as OK. destruct (fresh_state _ _ _ _ E) as (EL & EU & EX & EX' & Wf & EO & R). split; [|split].
  - apply (args_are_ok P nn s a OK) with (rk := rk) (ri := ri); [|split; [rewrite EX|rewrite EX']; intros d []|exact EP]. rewrite EL, EU, EO. split; [apply (wf_known _ Wf)|]. repeat split; constructor.
  - rewrite (prepared_is P nn s a rk ri EP). unfold no_bounds. cbn. rewrite EL, EU. split; reflexivity.
  - rewrite (prepared_is P nn s a rk ri EP). unfold PropSolve.objective_fits, objective_unknown. cbn. rewrite EO. split; [intros e e' []|reflexivity].
Qed.
(** what the certificates rely on: the moments of a point of the problem of the other distribution *)
Lemma possible_point arr arr' lpi only nn rk ri s s' a y : lpi = false \/ only = true ->
  set_distribution sc r (Some arr) lpi only s0 = Some s -> set_distribution sc r (Some arr') lpi only s0 = Some s' -> prepare_lp P nn rk ri s = Some a ->
  lp_point P true s' y -> possible (length (columns P)) a (spread P y) /\ forall m v, In (m, v) (known s') -> spread P y (column P m) = v.
Proof.
  intros LP E E' EP PT. pose proof (programme_is_ok sc W Hout Hset Np FC ao false r G) as OK.
  destruct (fresh_state _ _ _ _ E) as (EL & EU & EX & EX' & _). destruct (fresh_state _ _ _ _ E') as (EL' & EU' & _). split.
  - apply (possible_spread P nn s _ rk ri a OK); [split; [rewrite EX|rewrite EX']; intros ? []|exact EP|]. destruct PT as [Q1 Q2 Q3 Q4 Q5 Q6 Q7 Q8 Q9]. pose proof (no_semiknown (Some arr) lpi only s LP E) as ES.
    constructor; cbn [forget with_values known semiknown lower upper extra_equalities extra_inequalities]; rewrite ?EL, ?EU, ?EX, ?EX', ?ES; try (intros ? []; fail); try (intros ? ? []; fail); try (intros ? ? ? []; fail); auto.
  - intros m v I. destruct (known_columns sc W Hout Hset FC ao false r G (Some arr') lpi only s0 s' eq_refl E') as [KC _].
    rewrite spread_column; [|apply (po_columns _ OK)|apply KC, (in_map fst _ _ I)]. apply (lpp_known _ _ _ _ PT m v I).
Qed.
Theorem certificate_at_point arr arr' lpi only nn rk ri s s' a t y0 : lpi = false \/ only = true ->
  set_distribution sc r (Some arr) lpi only s0 = Some s -> set_distribution sc r (Some arr') lpi only s0 = Some s' -> prepare_lp P nn rk ri s = Some a -> prepare a = Some t ->
  lp_point P true s' y0 ->
  (forall d y, dual_task a t = Some d -> task_feasible d y -> (0 <= value_of (certificate a t (map y (seq 0 (t_numvar d)))) (known s'))%Qc) /\
  (forall y, multipliers (primal_task a t) y -> (0 <= value_of (certificate a t (map y (seq 0 (t_numcon (primal_task a t))))) (known s'))%Qc).
Proof.
  intros LP E E' EP ET PT. destruct (args_fresh (Some arr) lpi only nn rk ri s a E EP) as (AO & NB & OF).
  destruct (possible_point arr arr' lpi only nn rk ri s s' a y0 LP E E' EP PT) as [PO KX]. split.
  - intros d y ED TF. rewrite <- (certificate_at_known arr arr' lpi only nn rk ri s s' a t (t_numvar d) y (spread P y0) LP E E' EP ET (dual_rows _ a t d AO ET ED) KX).
    apply (PropSolve.C26_certificate_is_valid _ a t d y AO NB OF ET ED TF _ PO).
  - intros y M. rewrite <- (certificate_at_known arr arr' lpi only nn rk ri s s' a t (t_numcon (primal_task a t)) y (spread P y0) LP E E' EP ET (le_n _) KX).
    apply (PropSolve.C26_certificate_from_primal_is_valid _ a t y AO NB OF ET M _ PO).
Qed.
End Certificates.

(** ** Mixtures *)
Definition mix (l : list (Qc * (moment -> Qc))) (m : moment) : Qc := sumQ (map (fun p => fst p * snd p m)%Qc l).
Lemma mix_linear {A} (L : list A) (f : A -> Qc) (g : A -> moment) l : sumQ (map (fun a => f a * mix l (g a))%Qc L) = sumQ (map (fun p => fst p * sumQ (map (fun a => f a * snd p (g a)) L))%Qc l).
Proof.
  unfold mix. rewrite (sumQ_ext _ _ (fun a => sumQ (map (fun p => f a * (fst p * snd p (g a)))%Qc l))) by (intros a _; rewrite sumQ_scale; reflexivity).
  rewrite sumQ_swap. apply sumQ_ext. intros p _. rewrite <- sumQ_scale. apply sumQ_ext. intros a _. ring.
Qed.
