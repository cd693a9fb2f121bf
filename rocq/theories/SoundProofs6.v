(** Mixtures of distributions, objectives and relaxed problems. *)
From Coq Require Import List Arith Bool QArith Qcanon Lia Permutation Sorted.
From Verif Require Import CanonModel ScenarioModel ScenarioSpec SymModel SymSpec KnowModel KnowSpec FactorModel FactorSpec MargModel QcSum LPModel LPSpec LPSpec2 CausalSpec InflatedSpec ClassicalProofs2 ProgramModel ProgramSpec ProgramProofs ProgramProofs2 ProgramProofs3 LPSolveModel LPSolveSpec LPSolveProofs ProgramLP ProgramLPProofs LPMomentModel LPMomentProofs LPMomentProofs2 ColumnsFacts SoundProofs SoundProofs2 GlueProofs GenerateProofs GenerateProofs2 SoundProofs3 SoundProofs4 SoundProofs5.
From Verif Require KnowProofs UniqueProofs ScenarioProofs SymProofs FactorProofs LPProofs10 PropProgram PropSolve LPSolveProofs2 LPSolveProofs3 LPSolveProofs4 LPSolveProofs5.
Import ListNotations.
Close Scope Q_scope. Close Scope Qc_scope. Open Scope nat_scope.

Lemma nonneg_mult (x y : Qc) : (0 <= x -> 0 <= y -> 0 <= x * y)%Qc.
Proof. intros X Y. replace 0%Qc with (0 * y)%Qc by ring. apply Qcmult_le_compat_r; assumption. Qed.
Lemma entry_sum_mix A i l (g : nat -> moment) : entry_sum A i (fun j => mix l (g j)) = sumQ (map (fun p => fst p * entry_sum A i (fun j => snd p (g j)))%Qc l).
Proof.
  unfold entry_sum. rewrite (sumQ_ext _ _ (fun e => (if e_row e =? i then e_val e else 0) * mix l (g (e_col e)))%Qc) by (intros e _; destruct (e_row e =? i); ring).
  rewrite mix_linear. apply sumQ_ext. intros p _. f_equal. apply sumQ_ext. intros e _. destruct (e_row e =? i); ring.
Qed.

Section Mixtures.
Variables (sc : scenario) (W : wf_scenario sc) (Hout : forall o, In o (outcomes sc) -> 1 <= o) (Hset : forall k, In k (private_settings sc) -> 1 <= k) (Np : 0 < nr_parties sc).
Hypothesis FC : few_copies sc.
Variables (ao : bool) (r : relaxation) (G : generate sc ao false = Some r).
Notation c := (r_context r).
Notation P := (r_programme r).
Variables (s0 : state) (L0 : lower s0 = []) (U0 : upper s0 = []).

(** distributions with weights and inflations *)
Definition inflated (q : Qc * ndarray * (list bool -> Qc)) : Prop := inflation_of sc (snd (fst q)) (snd q).
Definition point_of (q : Qc * ndarray * (list bool -> Qc)) : Qc * (moment -> Qc) := (fst (fst q), moment_at (the_atom sc r (snd q))).
Lemma settings_range i : i < length (r_atoms r) -> is_knowable c i = true -> Forall2 lt (settings_of sc (nth i (r_atoms r) [])) (private_settings sc).
Proof.
  intros Hi K. destruct (some_atom sc W Hout FC ao false r G i Hi) as (_ & _ & R). apply (knowable_is sc W Hout FC ao false r G) in K. set (ops := nth i (r_atoms r) []) in *.
  destruct (KnowProofs.atom_is_knowable_correct sc ops W R) as (b & Eb & Hb). rewrite K in Eb. injection Eb as <-. destruct (proj1 Hb eq_refl) as (OP & _).
  destruct (settings_ok sc W ops R OP) as [L S']. apply (settings_in_range sc W ops R _ S' L Hset).
Qed.
Lemma mixture_point arr lpi s l : (forall q, In q l -> inflated q /\ (0 <= fst (fst q))%Qc) -> sumQ (map (fun q => fst (fst q)) l) = 1%Qc ->
  (forall a x, Forall2 lt a (outcomes sc) -> Forall2 lt x (private_settings sc) -> nd_at arr (a ++ x) = sumQ (map (fun q => fst (fst q) * nd_at (snd (fst q)) (a ++ x))%Qc l)) ->
  set_distribution sc r (Some arr) lpi true s0 = Some s -> lp_point P true s (mix (map point_of l)).
Proof.
  intros HL W1 MX E. unfold set_distribution in E. destruct (distribution_values sc r arr) as [values|] eqn:EV; [|discriminate].
  destruct (set_state sc W Hout FC ao false r G values lpi true s0 s E eq_refl) as (EL & EU & EX & EX' & Wf & _). rewrite L0 in EL. rewrite U0 in EU.
  pose proof (supports_is sc W Hout FC ao false r G) as SI. destruct (PropProgram.C22_only_specified lp c values lpi s0 s SI E) as [S0 K].
  assert (C : forall q, In q l -> (forall i, i < c_rows (minimal_sparse_equalities P) -> entry_sum (minimal_sparse_equalities P) i (fun j => snd (point_of q) (nth j (columns P) [])) = 0%Qc) /\
    (forall i, i < c_rows (minimal_sparse_inequalities P) -> (0 <= entry_sum (minimal_sparse_inequalities P) i (fun j => snd (point_of q) (nth j (columns P) [])))%Qc) /\
    (forall m, In m (columns P) -> (0 <= snd (point_of q) m)%Qc) /\ snd (point_of q) One = 1%Qc).
  { intros q Hq. destruct (HL q Hq) as [IO _]. apply (the_constraints sc W Hout FC ao false r G _ _ IO). }
  constructor; rewrite ?EL, ?EU, ?EX, ?EX', ?S0; try (intros ? []; fail); try (intros ? ? []; fail); try (intros ? ? ? []; fail).
  - intros i Hi. rewrite entry_sum_mix, map_map. apply sumQ_zero. intros q Hq. rewrite (proj1 (C q Hq) i Hi). ring.
  - intros i Hi. rewrite entry_sum_mix, map_map. apply sumQ_nonneg. intros q Hq. destruct (C q Hq) as (_ & C2 & _). apply nonneg_mult; [apply HL, Hq|apply C2, Hi].
  - intros m v Hm. apply (in_get meq m v (known s) (wf_known _ Wf)) in Hm. rewrite K in Hm. unfold mix. rewrite map_map.
    destruct (base_is sc W Hout Hset FC ao false r G arr values m v EV Hm) as [(i & Hi & Ki & -> & ->)|[-> ->]].
    + unfold marginal_of. rewrite (sumQ_ext _ (fun a => nd_at arr _) (fun a => sumQ (map (fun q => fst (fst q) * nd_at (snd (fst q)) (a ++ settings_of sc (nth i (r_atoms r) [])))%Qc l))) by (intros a Ha; apply MX; [apply (agreeing_in sc W _ (proj2 (proj2 (some_atom sc W Hout FC ao false r G i Hi)))), Ha|apply settings_range; assumption]).
      rewrite sumQ_swap. apply sumQ_ext. intros q Hq. rewrite sumQ_scale. unfold point_of. cbn [fst snd]. f_equal. destruct (HL q Hq) as [IO _].
      transitivity (the_atom sc r (snd q) i); [unfold moment_at; cbn; ring|]. apply (the_marginal sc W Hout FC ao false r G _ _ IO i Hi Ki).
    + rewrite <- W1. apply sumQ_ext. intros q _. unfold point_of, moment_at. cbn. ring.
  - intros _ m Hm. unfold mix. rewrite map_map. apply sumQ_nonneg. intros q Hq. destruct (C q Hq) as (_ & _ & C3 & _). apply nonneg_mult; [apply HL, Hq|apply C3, Hm].
Qed.
End Mixtures.
