(** Property theorems C37 (physicality test) and C41 (non-negativity of Hermitian moments).
    Statements use PhysModel and HermModel (the code), PhysSpec and QuantumSpec. *)
From Coq Require Import QArith Qcanon.
From Verif Require Import CanonModel CanonSpec ScenarioModel ScenarioSpec SymModel SymSpec ColumnModel ColsSpec MemoModel MemoSpec
  PhysModel PhysSpec HermModel QuantumSpec ColsModel.
From Verif Require CanonProofs CanonProofs2 ScenarioProofs MemoProofs ColumnProofs3 PhysProofs PhysProofs2 HermProofs QuantumProofs ColsProofs PropCols.
Import PropCols.
Open Scope nat_scope.

(** ** C37 *)
(** With the sandwich rule the test accepts a product exactly when every factor (operators of one
    party linked by shared source copies, in order) reads the same forwards and backwards; without
    it, exactly when no factor has two operators. *)
Theorem C37_physical_iff : forall ns sandwich m, length m <= 255 ->
  (forall i, i < length m -> length (row_copies (nth i m [])) = ns) ->
  exists b, nb_is_physical sandwich m = Some b /\
   (b = true <-> forall idx, is_factor m idx ->
      if sandwich then palindrome (factor_rows m idx) else length (factor_rows m idx) <= 1).
Proof. intros ns sandwich m H1 H2. exact (PhysProofs.physical_iff m ns H1 H2 sandwich). Qed.
Print Assumptions C37_physical_iff.

(** If operators of different parties commute, an accepted product is of the form u^dagger u: its
    value is non-negative in every state.  Without the sandwich rule all its operators commute. *)
Theorem C37_physical_is_nonnegative : forall sc w, wf_scenario sc -> separate_parties sc ->
  (forall x, In x w -> 1 <= x <= length (lexorder sc)) -> length w <= 255 ->
  let rows := map (fun x => nth x (sdp_lexorder sc) []) w in
  (nb_is_physical true rows = Some true ->
     is_square (sdp_notcomm sc) (sdp_orthomat sc) w /\
     forall L, state (sdp_notcomm sc) (sdp_orthomat sc) L -> (0 <= L w)%Qc) /\
  (nb_is_physical false rows = Some true -> all_commute (sdp_notcomm sc) w).
Proof.
  intros sc w W Sep Hw Hl rows. split.
  - intros P. assert (Q : is_square (sdp_notcomm sc) (sdp_orthomat sc) w) by (apply PhysProofs2.sfs_square, (PhysProofs2.physical_sound sc w W Sep Hw Hl P)).
    split; [exact Q|]. intros L HL. exact (PhysProofs2.square_nonneg _ _ L w HL Q).
  - intros P x y Hx Hy. apply In_nth with (d := 0) in Hx as (i & Hi & <-). apply In_nth with (d := 0) in Hy as (j & Hj & <-).
    apply (PhysProofs2.physical_commuting sc w W Sep Hw Hl i j P Hi Hj).
Qed.
Print Assumptions C37_physical_is_nonnegative.

Lemma q_separate : separate_parties q_sc.
Proof. intros src l p q [<-|[<-|[]]] _ []. Qed.
Example C37_nonvacuous : wf_scenario q_sc /\ separate_parties q_sc /\
  let rows w := map (fun x => nth x (sdp_lexorder q_sc) []) w in
  nb_is_physical true (rows [1; 3; 1]) = Some true /\ nb_is_physical false (rows [1; 3; 1]) = Some false /\
  nb_is_physical true (rows [1; 3]) = Some false /\ nb_is_physical false (rows [1; 7]) = Some true /\
  nb_is_physical true (rows [1; 3; 5; 7]) = Some false.
Proof. split; [exact QuantumProofs.q_wf|]. split; [exact q_separate|]. repeat split; vm_compute; reflexivity. Qed.

(** The converse fails: the test does not commute operators inside a factor, so it rejects
    A12 A11 A22 A12 although it is a square. *)
Theorem C37_converse_refuted : let w := [3; 1; 7; 3] in
  is_square (sdp_notcomm q_sc) (sdp_orthomat q_sc) w /\
  nb_is_physical true (map (fun x => nth x (sdp_lexorder q_sc) []) w) = Some false.
Proof.
  cbv zeta. split; [|vm_compute; reflexivity]. exists [1; 7; 3].
  assert (G : good_tables (sdp_notcomm q_sc) (sdp_orthomat q_sc)) by apply ScenarioProofs.scenario_good_tables, QuantumProofs.q_wf.
  apply (CanonProofs2.F_complete _ _ G). vm_compute. reflexivity.
Qed.
Print Assumptions C37_converse_refuted.

(** If parties share a non-classical latent, products of operators that do not commute are
    accepted, and they are not squares. *)
Theorem C37_latents_refuted : wf_scenario lat_sc /\
  nb_is_physical true (map (fun x => nth x (sdp_lexorder lat_sc) []) [1; 7]) = Some true /\
  nb_is_physical false (map (fun x => nth x (sdp_lexorder lat_sc) []) [1; 7]) = Some true /\
  sdp_notcomm lat_sc 1 7 = true /\ ~ is_square (sdp_notcomm lat_sc) (sdp_orthomat lat_sc) [1; 7].
Proof.
  split; [exact lat_wf|]. split; [vm_compute; reflexivity|]. split; [vm_compute; reflexivity|]. split; [vm_compute; reflexivity|].
  intros (u & E). assert (G : good_tables (sdp_notcomm lat_sc) (sdp_orthomat lat_sc)) by apply ScenarioProofs.scenario_good_tables, lat_wf.
  assert (E2 : proj_eq (sdp_notcomm lat_sc) (sdp_orthomat lat_sc) (rev [1; 7]) [1; 7]).
  { eapply pe_trans; [apply (CanonProofs2.pe_rev _ _ G), E|]. rewrite rev_app_distr, rev_involutive. apply pe_sym, E. }
  apply (CanonProofs2.F_complete _ _ G) in E2. vm_compute in E2. discriminate.
Qed.
Print Assumptions C37_latents_refuted.

(** ** C41 *)
(** The moments that get the default lower bound 0: whatever was computed before, a moment gets it
    exactly when each of its factors is turned into its own conjugate by a relabelling of source
    copies and commutations. *)
Theorem C41_which_moments : forall sc commuting h answers mem moments, wf_scenario sc ->
  let nc := sdp_notcomm sc in let ortho := sdp_orthomat sc in
  let L := S (length (lexorder sc)) in let syms := sdp_lexorder_symmetries sc in
  (commuting = true -> forall a b, nc a b = false) ->
  Forall (good_call nc ortho L) h ->
  run nc ortho commuting syms h memo_empty = Some (answers, mem) ->
  (forall fs w, In fs moments -> In w fs -> reduced nc ortho w /\ in_range L w /\ is_representative nc syms w w) ->
  exists bounded mem', lower_bounded nc ortho commuting syms false moments mem = Some (bounded, mem') /\
   forall fs, In fs bounded <-> In fs moments /\
     forall w, In w fs -> exists g, In g syms /\ comm_eq nc (apply_lexsym g w) (rev w).
Proof.
  intros sc commuting h answers mem moments W nc ortho L syms Hc H E HM.
  destruct (MemoProofs.run_ok nc ortho commuting L syms (ScenarioProofs.scenario_good_tables sc W) Hc (ColumnProofs3.scenario_symmetries sc W) h memo_empty (MemoProofs.inv_empty _ _ _ _ _) H)
    as (rs & m & E' & I & _).
  assert (m = mem) as <- by (fold nc ortho L syms in E'; congruence).
  destruct (HermProofs.lower_bounded_ok sc commuting W Hc moments m I HM) as (l & m' & El & _ & B). eauto.
Qed.
Print Assumptions C41_which_moments.

(** The bound holds in every state for products that equal their own conjugate, ... *)
Theorem C41_self_conjugate_nonnegative : forall nc ortho w L, good_tables nc ortho ->
  proj_eq nc ortho (rev w) w -> state nc ortho L -> (0 <= L w)%Qc.
Proof. intros nc ortho w L G H HL. apply (PhysProofs2.square_nonneg nc ortho L w HL), HermProofs.hermitian_square; assumption. Qed.
Print Assumptions C41_self_conjugate_nonnegative.
(** ... so for every product when all operators commute, ... *)
Theorem C41_commuting_nonnegative : forall nc ortho w L, good_tables nc ortho ->
  (forall a b, nc a b = false) -> state nc ortho L -> (0 <= L w)%Qc.
Proof.
  intros nc ortho w L G H HL. apply (C41_self_conjugate_nonnegative nc ortho w L G); [|exact HL].
  apply CanonProofs2.ce_pe, CanonSpec.ce_sym. apply CanonProofs.commuting_perm_ce; [apply Permutation.Permutation_rev|auto].
Qed.
Print Assumptions C41_commuting_nonnegative.
(** ... and for every moment that gets the bound when there is one copy of every source (no
    inflation). *)
Theorem C41_no_inflation_nonnegative : forall sc w g L, wf_scenario sc ->
  (forall n, In n (levels sc) -> n = 1) -> in_range (S (length (lexorder sc))) w ->
  In g (sdp_lexorder_symmetries sc) -> comm_eq (sdp_notcomm sc) (apply_lexsym g w) (rev w) ->
  state (sdp_notcomm sc) (sdp_orthomat sc) L -> (0 <= L w)%Qc.
Proof.
  intros sc w g L W H1 Hw Hg E HL. apply (C41_self_conjugate_nonnegative (sdp_notcomm sc) (sdp_orthomat sc)); [apply ScenarioProofs.scenario_good_tables, W| |exact HL].
  rewrite (HermProofs.no_copies sc W H1 g w Hg Hw) in E. apply CanonProofs2.ce_pe, CanonSpec.ce_sym, E.
Qed.
Print Assumptions C41_no_inflation_nonnegative.

(** With several copies the bound is not valid.  In the inflation with two copies of two quantum
    sources measured by one party, the product A11 A12 A21 A22 is an entry of the moment matrix of
    level 2 and gets the lower bound 0, but a projective measurement of two two-level systems gives
    it the value -304/625000.  The values of that realisation are those of a state and do not
    change under relabelling of the copies. *)
Theorem C41_symmetric_bound_refuted :
  let nc := sdp_notcomm q_sc in let ortho := sdp_orthomat q_sc in let syms := sdp_lexorder_symmetries q_sc in
  let w := [1; 3; 5; 7] in
  wf_scenario q_sc /\
  (exists mem, lower_bounded nc ortho false syms false [[w]] memo_empty = Some ([[w]], mem)) /\
  (exists cols, build_columns q_sc [false] false (Npa 2) 0 = Some cols /\ In [3; 1] cols /\ In [5; 7] cols /\ w = rev [3; 1] ++ [5; 7]) /\
  exists P, is_projector P /\ state nc ortho (value P) /\
    (forall g u, In g syms -> in_range (S (length (lexorder q_sc))) u -> value P (apply_lexsym g u) = value P u) /\
    value P [] = 1%Qc /\ value P w = Q2Qc (- 304 # 625000) /\ (value P w < 0)%Qc.
Proof.
  cbv zeta. split; [exact QuantumProofs.q_wf|]. split; [eexists; vm_compute; reflexivity|]. split.
  - eexists. split; [vm_compute; reflexivity|]. split; [cbn; tauto|]. split; [cbn; tauto|reflexivity].
  - exists QuantumProofs.qP. split; [exact QuantumProofs.qP_projector|]. split; [apply QuantumProofs.value_state, QuantumProofs.qP_projector|].
    split; [intros g u Hg Hu; apply QuantumProofs.value_symmetric; [exact Hg|]; intros x Hx; specialize (Hu x Hx); vm_compute in Hu |- *; exact Hu|].
    split; [apply Qc_eq_bool_correct; vm_compute; reflexivity|]. split; [exact QuantumProofs.qw_value|].
    change [1; 3; 5; 7] with QuantumProofs.qw. rewrite QuantumProofs.qw_value. reflexivity.
Qed.
Print Assumptions C41_symmetric_bound_refuted.

(** Other products of the same scenario get no bound (A11 A12 A22) or do not need inflation
    symmetries (A11 A12 A11). *)
Example C41_nonvacuous :
  let nc := sdp_notcomm q_sc in let ortho := sdp_orthomat q_sc in let syms := sdp_lexorder_symmetries q_sc in
  (exists mem, lower_bounded nc ortho false syms false [[[1; 3; 7]]; [[1; 3; 1]]; [[1]]; [[1; 3; 1]; [1; 3; 7]]] memo_empty = Some ([[[1; 3; 1]]; [[1]]], mem)) /\
  comm_eq nc [1; 3; 1] (rev [1; 3; 1]).
Proof. cbv zeta. split; [eexists; vm_compute; reflexivity|apply ce_refl]. Qed.
