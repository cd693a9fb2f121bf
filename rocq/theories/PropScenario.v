(** Property theorems C07, C09, C13 and the instances of C03-C05 for the tables that
    the package builds from a scenario.  Statements use ScenarioModel (the code),
    ScenarioSpec, CanonSpec and MomentSpec only. *)
From Coq Require Import Sorted.
From Verif Require Import CanonModel CanonSpec MomentModel MomentSpec ScenarioModel ScenarioSpec.
From Verif Require CanonProofs CanonProofs2 MomentProofs ScenarioProofs.

(** Example scenario: parties A (2 settings), B (1 setting, 2 outcomes, observed
    parent A), C; one non-classical source on A,B with 2 copies, one classical source on
    B,C with 1 copy, and one non-classical source acting on A and C through a
    non-classical latent (2 copies). *)
Definition ex_sc : scenario := {|
  outcomes := [2; 2; 3];
  private_settings := [2; 1; 1];
  parents := [[]; [0]; []];
  sources := [ {| s_classical := false; s_children := [0; 1]; s_latents := [] |};
               {| s_classical := true; s_children := [1; 2]; s_latents := [] |};
               {| s_classical := false; s_children := [];
                  s_latents := [ {| l_nonclassical := true; l_desc := [0; 2] |} ] |} ];
  levels := [2; 1; 2] |}.
Example ex_sc_wf : wf_scenario ex_sc.
Proof.
  split; [reflexivity|reflexivity| |reflexivity| |]; cbn.
  - intros; intuition subst; cbn in *; intuition lia.
  - intros; intuition lia.
  - intros [|[|[|p]]] H; [| | |lia].
    + eexists. split; [left; reflexivity|left; cbn; auto].
    + eexists. split; [left; reflexivity|left; cbn; auto].
    + eexists. split; [right; left; reflexivity|left; cbn; auto].
Qed.

(** ** C07 *)

(** Entry (i,j) of the table says "commute" exactly when the stated rule holds. *)
Theorem C07_commutation_rule : forall sc i j p c s o p' c' s' o', wf_scenario sc ->
  nth_error (lexorder sc) i = Some (mkrow (p + 1) c s o) ->
  nth_error (lexorder sc) j = Some (mkrow (p' + 1) c' s' o') ->
  (default_notcomm sc i j = false <-> commute_rule sc p c s p' c' s').
Proof. exact ScenarioProofs.default_notcomm_spec. Qed.
Print Assumptions C07_commutation_rule.

Theorem C07_symmetric : forall sc i j, default_notcomm sc i j = default_notcomm sc j i.
Proof. exact ScenarioProofs.default_notcomm_sym. Qed.
Theorem C07_reflexive : forall sc i, default_notcomm sc i i = false.
Proof. exact ScenarioProofs.default_notcomm_diag. Qed.
Print Assumptions C07_symmetric.
Print Assumptions C07_reflexive.

Theorem C07_independent_of_outcomes : forall sc i i' j j' p c s o o2 p' c' s' o' o2', wf_scenario sc ->
  nth_error (lexorder sc) i = Some (mkrow (p + 1) c s o) ->
  nth_error (lexorder sc) i' = Some (mkrow (p + 1) c s o2) ->
  nth_error (lexorder sc) j = Some (mkrow (p' + 1) c' s' o') ->
  nth_error (lexorder sc) j' = Some (mkrow (p' + 1) c' s' o2') ->
  default_notcomm sc i j = default_notcomm sc i' j'.
Proof.
  intros sc i i' j j' p c s o o2 p' c' s' o' o2' W H1 H2 H3 H4.
  pose proof (C07_commutation_rule _ _ _ _ _ _ _ _ _ _ _ W H1 H3) as A.
  pose proof (C07_commutation_rule _ _ _ _ _ _ _ _ _ _ _ W H2 H4) as B.
  rewrite <- B in A. destruct (default_notcomm sc i j), (default_notcomm sc i' j'); intuition congruence.
Qed.
Print Assumptions C07_independent_of_outcomes.

Theorem C07_same_measurement_commutes : forall sc i j p c s o o', wf_scenario sc ->
  nth_error (lexorder sc) i = Some (mkrow (p + 1) c s o) ->
  nth_error (lexorder sc) j = Some (mkrow (p + 1) c s o') ->
  default_notcomm sc i j = false.
Proof.
  intros sc i j p c s o o' W H1 H2. apply (C07_commutation_rule _ _ _ _ _ _ _ _ _ _ _ W H1 H2).
  right. split; auto.
Qed.
Print Assumptions C07_same_measurement_commutes.

(** Different parties commute unless some non-classical source reaches both through one
    non-classical intermediate latent. *)
Theorem C07_different_parties_commute : forall sc i j p c s o p' c' s' o', wf_scenario sc ->
  nth_error (lexorder sc) i = Some (mkrow (p + 1) c s o) ->
  nth_error (lexorder sc) j = Some (mkrow (p' + 1) c' s' o') ->
  p <> p' ->
  (forall src l, In src (sources sc) -> s_classical src = false -> In l (s_latents src) ->
     l_nonclassical l = true -> In p (l_desc l) -> ~ In p' (l_desc l)) ->
  default_notcomm sc i j = false.
Proof.
  intros sc i j p c s o p' c' s' o' W H1 H2 Hp Hl.
  apply (C07_commutation_rule _ _ _ _ _ _ _ _ _ _ _ W H1 H2). left. intros k src Hk [Hq [[E _]|(l & L1 & L2 & L3 & L4)]].
  - contradiction.
  - exfalso. apply (Hl src l); auto. eapply nth_error_In, Hk.
Qed.
Print Assumptions C07_different_parties_commute.

(** Everything commutes when all sources are classical (the "commuting" mode). *)
Theorem C07_all_classical_commutes : forall sc i j,
  (forall src, In src (sources sc) -> s_classical src = true) -> default_notcomm sc i j = false.
Proof.
  intros sc i j H. unfold default_notcomm. replace (existsb _ _) with false; [reflexivity|].
  symmetry. apply not_true_iff_false. rewrite existsb_exists. intros (src & H1 & H2). rewrite (H _ H1) in H2. discriminate.
Qed.
Print Assumptions C07_all_classical_commutes.

Example C07_nonvacuous : wf_scenario ex_sc /\ length (lexorder ex_sc) = 30 /\
  (* A^{1,0,1}_x=0 vs A^{1,0,2}_x=0 : partly overlapping copies: do not commute *)
  nth_error (lexorder ex_sc) 0 = Some (mkrow (0 + 1) [1; 0; 1] 0 0) /\
  nth_error (lexorder ex_sc) 4 = Some (mkrow (0 + 1) [1; 0; 2] 0 0) /\
  default_notcomm ex_sc 0 4 = true /\
  (* A^{1,0,1} and A^{2,0,2} commute *)
  nth_error (lexorder ex_sc) 12 = Some (mkrow (0 + 1) [2; 0; 2] 0 0) /\
  default_notcomm ex_sc 0 12 = false /\
  (* same copies, different settings: do not commute *)
  nth_error (lexorder ex_sc) 2 = Some (mkrow (0 + 1) [1; 0; 1] 1 0) /\
  default_notcomm ex_sc 0 2 = true /\ default_notcomm ex_sc 0 1 = false.
Proof. split; [exact ex_sc_wf|]. vm_compute. repeat split. Qed.

(** ** C09 *)
Theorem C09_operator_list_exact : forall sc r, wf_scenario sc ->
  (In r (lexorder sc) <-> exists p c s o, r = mkrow (p + 1) c s o /\ valid_operator sc p c s o).
Proof. exact ScenarioProofs.lexorder_in. Qed.
Print Assumptions C09_operator_list_exact.

Theorem C09_operator_list_sorted_no_repetition : forall sc, wf_scenario sc ->
  StronglySorted lex_lt (lexorder sc) /\ NoDup (lexorder sc).
Proof. exact (fun sc W => conj (ScenarioProofs.lexorder_SS sc W) (ScenarioProofs.lexorder_NoDup sc W)). Qed.
Print Assumptions C09_operator_list_sorted_no_repetition.

(** Conversion to indices succeeds exactly on monomials over the operator list; taking
    the listed operators at the returned indices gives the monomial back, and converting
    any list of valid indices there and back is the identity. *)
Theorem C09_conversion_roundtrip : forall sc mon, wf_scenario sc ->
  (forall op, In op mon -> In op (lexorder sc)) ->
  exists idx, mon_to_lexrepr sc mon = Some idx /\
    map (fun k => nth_error (lexorder sc) k) idx = map Some mon.
Proof.
  intros sc mon W H. destruct (mon_to_lexrepr sc mon) as [idx|] eqn:E.
  - exists idx. split; [reflexivity|]. apply (ScenarioProofs.lexrepr_roundtrip _ _ _ W) in E.
    induction E as [|x y l l' Hxy _ IH]; [reflexivity|]. cbn. rewrite Hxy, IH; [reflexivity|]. intros op Ho; apply H; right; exact Ho.
  - apply ScenarioProofs.lexrepr_fails in E as (op & H1 & H2). exfalso. auto.
Qed.
Print Assumptions C09_conversion_roundtrip.
Theorem C09_conversion_roundtrip_indices : forall sc mon idx, wf_scenario sc ->
  map (fun k => nth_error (lexorder sc) k) idx = map Some mon -> mon_to_lexrepr sc mon = Some idx.
Proof.
  intros sc mon idx W H. apply (ScenarioProofs.lexrepr_roundtrip _ _ _ W).
  revert mon H. induction idx as [|k idx IH]; intros [|x mon] H; try discriminate; constructor.
  - injection H as H _. exact H.
  - apply IH. injection H as _ H. exact H.
Qed.
Print Assumptions C09_conversion_roundtrip_indices.
Theorem C09_unknown_operator_rejected : forall sc mon,
  (mon_to_lexrepr sc mon = None <-> exists op, In op mon /\ ~ In op (lexorder sc)).
Proof. exact ScenarioProofs.lexrepr_fails. Qed.
Print Assumptions C09_unknown_operator_rejected.

Example C09_nonvacuous :
  mon_to_lexrepr ex_sc [[3; 0; 1; 2; 0; 2]; [1; 1; 0; 1; 1; 0]] = Some [29; 2] /\
  mon_to_lexrepr ex_sc [[1; 3; 0; 1; 1; 0]] = None.
Proof. vm_compute. split; reflexivity. Qed.

(** ** C13: effective settings *)
(** Each party's effective settings 0..n-1 are mapped one-to-one onto the tuples
    (private setting, outcomes of the observed parents) that are within range. *)
Theorem C13_effective_settings_bijection : forall sc p,
  let shape := nth p (private_settings sc) 0 :: map (fun q => nth q (outcomes sc) 0) (nth p (parents sc) []) in
  (forall x, x < nr_settings sc p -> exists t, assoc (effective_to_parent sc p) x = Some t /\ Forall2 lt t shape) /\
  (forall x, nr_settings sc p <= x -> assoc (effective_to_parent sc p) x = None) /\
  (forall t, Forall2 lt t shape -> exists x, x < nr_settings sc p /\ assoc (effective_to_parent sc p) x = Some t) /\
  (forall x y t t', assoc (effective_to_parent sc p) x = Some t -> assoc (effective_to_parent sc p) y = Some t' ->
     (x < y <-> lex_lt t t')).
Proof. exact ScenarioProofs.effective_bijection. Qed.
Print Assumptions C13_effective_settings_bijection.

Example C13_nonvacuous : nr_settings ex_sc 1 = 2 /\ assoc (effective_to_parent ex_sc 1) 1 = Some [0; 1].
Proof. vm_compute. split; reflexivity. Qed.

(** ** Scenario instances of C03, C04, C05 *)
Theorem C03_scenario_tables_well_formed : forall sc, wf_scenario sc ->
  good_tables (sdp_notcomm sc) (sdp_orthomat sc).
Proof. exact ScenarioProofs.scenario_good_tables. Qed.
Print Assumptions C03_scenario_tables_well_formed.

Theorem C03_scenario_equal_iff_same_canonical_form : forall sc w1 w2, wf_scenario sc ->
  (to_canonical_1d_internal (sdp_notcomm sc) (sdp_orthomat sc) false false w1
   = to_canonical_1d_internal (sdp_notcomm sc) (sdp_orthomat sc) false false w2
   <-> proj_eq (sdp_notcomm sc) (sdp_orthomat sc) w1 w2).
Proof. exact (fun sc w1 w2 W => CanonProofs2.F_complete _ _ (ScenarioProofs.scenario_good_tables sc W) w1 w2). Qed.
Print Assumptions C03_scenario_equal_iff_same_canonical_form.

(** what the two tables mean for (1-based) operator indices *)
Theorem C03_scenario_orthogonality : forall sc i j p c s o p' c' s' o', wf_scenario sc ->
  nth_error (sdp_lexorder sc) (S i) = Some (mkrow (p + 1) c s o) ->
  nth_error (sdp_lexorder sc) (S j) = Some (mkrow (p' + 1) c' s' o') ->
  (sdp_orthomat sc (S i) (S j) = true <-> p = p' /\ c = c' /\ s = s' /\ o <> o').
Proof.
  intros sc i j p c s o p' c' s' o' W H1 H2. rewrite ScenarioProofs.sdp_ortho_S. rewrite ScenarioProofs.sdp_nth in H1, H2.
  split.
  - intros (a & b & Ha & Hb & Hij & Ho & Hr). rewrite H1 in Ha. rewrite H2 in Hb. injection Ha as <-. injection Hb as <-.
    change (mkrow (p + 1) c s o) with (mkrow (p + 1) c s o) in *.
    pose proof (ScenarioProofs.mkrow_removelast (p+1) c s o) as R1. pose proof (ScenarioProofs.mkrow_removelast (p'+1) c' s' o') as R2.
    pose proof (ScenarioProofs.mkrow_outcome (p+1) c s o) as O1. pose proof (ScenarioProofs.mkrow_outcome (p'+1) c' s' o') as O2.
    unfold mkrow in *. rewrite R1, R2 in Hr. rewrite O1, O2 in Ho. injection Hr as E1 E2. apply app_inj_tail in E2 as [E2 E3].
    repeat split; auto; lia.
  - intros (-> & -> & -> & Ho). exists (mkrow (p'+1) c' s' o), (mkrow (p'+1) c' s' o'). repeat split; auto.
    + intros ->. rewrite H1 in H2. injection H2 as H2.
      pose proof (ScenarioProofs.mkrow_outcome (p'+1) c' s' o) as O1. pose proof (ScenarioProofs.mkrow_outcome (p'+1) c' s' o') as O2.
      unfold mkrow in *. rewrite H2 in O1. congruence.
    + rewrite !ScenarioProofs.mkrow_outcome. exact Ho.
    + rewrite !ScenarioProofs.mkrow_removelast. reflexivity.
Qed.
Print Assumptions C03_scenario_orthogonality.

Example C03_scenario_nonvacuous :
  let F := to_canonical_1d_internal (sdp_notcomm ex_sc) (sdp_orthomat ex_sc) false false in
  F [21; 1; 21] = Some [1; 21] /\ F [1; 21; 2] = Some [0] /\ F [3; 1; 1; 3] = Some [3; 1; 3].
Proof. vm_compute. repeat split. Qed.
