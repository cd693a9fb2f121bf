(** Property theorems C08 and C10. *)
From Coq Require Import Permutation.
From Verif Require Import CanonModel ScenarioModel ScenarioSpec SymModel SymSpec.
From Verif Require ScenarioProofs SymProofs PropScenario.
Import PropScenario.

(** ** C08 *)
(** Applying one permutation of the copies of one source to two operators of the list
    (the code's [apply_source_perm] with a permutation of 0..level-1 in the code's format)
    changes neither their commutation nor whether they share a source copy. *)
Theorem C08_source_permutation_preserves : forall sc source perm r r', wf_scenario sc ->
  source < nr_sources sc ->
  Permutation perm (seq 0 (nth source (levels sc) 0)) ->
  In r (lexorder sc) -> In r' (lexorder sc) ->
  let act := apply_source_perm_row source (format_permutation perm) in
  In (act r) (lexorder sc) /\ In (act r') (lexorder sc) /\
  nb_operators_commute (sources_to_check sc) (act r) (act r')
  = nb_operators_commute (sources_to_check sc) r r' /\
  nb_exists_shared_source (row_copies (act r)) (row_copies (act r'))
  = nb_exists_shared_source (row_copies r) (row_copies r').
Proof. exact SymProofs.source_perm_preserves. Qed.
Print Assumptions C08_source_permutation_preserves.

(** The same for every discovered symmetry and the commutation table itself. *)
Theorem C08_symmetries_preserve_commutation : forall sc g i j, wf_scenario sc ->
  In g (discover_lexorder_symmetries sc) -> i < length (lexorder sc) -> j < length (lexorder sc) ->
  default_notcomm sc (nth i g 0) (nth j g 0) = default_notcomm sc i j.
Proof.
  intros sc g i j W Hg Hi Hj. apply SymProofs.discover_exact in Hg as (sg & R & I); [|exact W].
  eapply SymProofs.notcomm_invariant; eassumption.
Qed.
Print Assumptions C08_symmetries_preserve_commutation.

(** The overlap test is true exactly when a source copy is shared. *)
Theorem C08_shared_source_meaning : forall c c', length c = length c' ->
  (nb_exists_shared_source c c' = true <-> share_copy c c').
Proof. exact SymProofs.shared_source_spec. Qed.
Print Assumptions C08_shared_source_meaning.

Example C08_nonvacuous :
  apply_source_perm_row 0 (format_permutation [1; 0]) (mkrow 1 [1; 0; 2] 1 0) = mkrow 1 [2; 0; 2] 1 0 /\
  nb_exists_shared_source [1; 0; 2] [1; 1; 0] = true /\ nb_exists_shared_source [1; 0; 2] [0; 2; 1] = false.
Proof. repeat split. Qed.

(** ** C10 *)
(** The list contains exactly the permutations of operators induced by simultaneous
    relabellings of the copies of all sources. *)
Theorem C10_symmetries_are_all_relabellings : forall sc g, wf_scenario sc ->
  (In g (discover_lexorder_symmetries sc) <-> exists sigma, is_relabelling sc sigma /\ induces sc sigma g).
Proof. exact SymProofs.discover_exact. Qed.
Print Assumptions C10_symmetries_are_all_relabellings.

Theorem C10_every_relabelling_found : forall sc sigma, wf_scenario sc -> is_relabelling sc sigma ->
  exists g, induces sc sigma g /\ In g (discover_lexorder_symmetries sc).
Proof.
  intros sc sigma W R. destruct (SymProofs.induces_exists sc sigma W R) as [g Hg]. exists g. split; [exact Hg|].
  apply SymProofs.discover_exact; eauto.
Qed.
Print Assumptions C10_every_relabelling_found.

Theorem C10_identity_first : forall sc,
  exists t, discover_lexorder_symmetries sc = seq 0 (length (lexorder sc)) :: t.
Proof. exact SymProofs.discover_head. Qed.
Print Assumptions C10_identity_first.

Theorem C10_group : forall sc g h, wf_scenario sc ->
  In g (discover_lexorder_symmetries sc) -> In h (discover_lexorder_symmetries sc) ->
  Permutation g (seq 0 (length (lexorder sc))) /\
  In (map (fun j => nth j g 0) h) (discover_lexorder_symmetries sc) /\
  exists g', In g' (discover_lexorder_symmetries sc) /\
     map (fun j => nth j g' 0) g = seq 0 (length (lexorder sc)).
Proof.
  intros sc g h W Hg Hh. repeat split.
  - apply SymProofs.discover_exact in Hg as (sg & R & I); [|exact W]. eapply SymProofs.induces_perm; eassumption.
  - apply SymProofs.discover_closed; assumption.
  - destruct (SymProofs.discover_inverse sc g W Hg) as (g' & H1 & H2 & _). exists g'. auto.
Qed.
Print Assumptions C10_group.

Example C10_nonvacuous : wf_scenario ex_sc /\ length (discover_lexorder_symmetries ex_sc) = 4 /\
  nth 1 (discover_lexorder_symmetries ex_sc) [] =
  [4;5;6;7;0;1;2;3;12;13;14;15;8;9;10;11;16;17;18;19;20;21;22;23;27;28;29;24;25;26].
Proof. split; [exact ex_sc_wf|]. vm_compute. repeat split. Qed.
