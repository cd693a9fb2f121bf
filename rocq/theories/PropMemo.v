(** Property theorems C24 and C35: memoised canonicalisation and the inflation
    representative.  Statements use MemoModel (the code), CanonSpec and MemoSpec. *)
From Verif Require Import CanonModel CanonSpec ScenarioModel ScenarioSpec SymModel ColumnModel ColumnSpec MemoModel MemoSpec.
From Verif Require MemoProofs ColumnProofs ColumnProofs3 ScenarioProofs PropScenario.
Import PropScenario.

(** ** C24 *)
(** For every scenario and every history of well-behaved calls, starting with empty caches,
    every call returns what the unmemoised function returns for its arguments. *)
Theorem C24_answers_independent_of_history : forall sc commuting h, wf_scenario sc ->
  let nc := sdp_notcomm sc in let ortho := sdp_orthomat sc in
  let L := S (length (lexorder sc)) in let syms := sdp_lexorder_symmetries sc in
  (commuting = true -> forall a b, nc a b = false) ->
  Forall (good_call nc ortho L) h ->
  exists answers m, run nc ortho commuting syms h memo_empty = Some (answers, m) /\
    Forall2 (right_answer nc ortho commuting syms) h answers.
Proof.
  intros sc commuting h W nc ortho L syms Hc H.
  destruct (MemoProofs.run_ok nc ortho commuting L syms (ScenarioProofs.scenario_good_tables sc W) Hc (ColumnProofs3.scenario_symmetries sc W) h memo_empty (MemoProofs.inv_empty _ _ _ _ _) H)
    as (rs & m & E & _ & F). exists rs, m. auto.
Qed.
Print Assumptions C24_answers_independent_of_history.

(** The calls the package itself makes are well behaved: the representative and the conjugate
    of a canonical word, and (lines 1474-1476, 1881-1884) the only-commutations form of the
    image of a non-zero canonical word under a symmetry. *)
Theorem C24_internal_calls_are_good : forall sc commuting w r only g, wf_scenario sc ->
  let nc := sdp_notcomm sc in let ortho := sdp_orthomat sc in
  let L := S (length (lexorder sc)) in let syms := sdp_lexorder_symmetries sc in
  (commuting = true -> forall a b, nc a b = false) ->
  to_canonical_1d_internal nc ortho commuting false w = Some r -> in_range L r -> In g syms ->
  good_call nc ortho L (Repr only r) /\ good_call nc ortho L (Conj r) /\
  good_call nc ortho L (Canon true (apply_lexsym g r)).
Proof.
  intros sc commuting w r only g W nc ortho L syms Hc E R Hg.
  pose proof (ScenarioProofs.scenario_good_tables sc W) as G. pose proof (ColumnProofs3.scenario_symmetries sc W) as OS.
  destruct (list_eq_dec Nat.eq_dec r [0]) as [->|N].
  - cbn. split; [now right; left|]. split; [now right; left|]. right. left. f_equal. apply (os_zero _ _ _ _ OS), Hg.
  - assert (RD : reduced nc ortho r) by (eapply MemoProofs.canonical_reduced; eauto).
    split; [now right; right|]. split; [now right; right|]. right; right.
    rewrite (ColumnProofs.apply_gf nc ortho L syms [] OS g r Hg R).
    split; [eapply MemoProofs.reduced_gf|eapply MemoProofs.ranged_gf]; eauto.
Qed.
Print Assumptions C24_internal_calls_are_good.

(** Without the restriction the claim is false: the flag is not part of the cache key, so
    after a call with apply_only_commutations=True the full canonicalisation of the same word
    returns an unsimplified word. *)
Theorem C24_flag_not_in_key_refuted :
  let nc := sdp_notcomm ex_sc in let ortho := sdp_orthomat ex_sc in let syms := sdp_lexorder_symmetries ex_sc in
  wf_scenario ex_sc /\
  (exists m, run nc ortho false syms [Canon true [1; 1]; Canon false [1; 1]] memo_empty = Some ([[1; 1]; [1; 1]], m)) /\
  (exists m, run nc ortho false syms [Canon false [1; 1]] memo_empty = Some ([[1]], m)).
Proof. split; [exact ex_sc_wf|]. split; eexists; vm_compute; reflexivity. Qed.
Print Assumptions C24_flag_not_in_key_refuted.

Definition ex_history : list call :=
  [Canon false [3; 1; 3]; Canon false [1; 1]; Repr false [5; 7]; Repr false [1; 3]; Conj [1; 3]; Canon true [7; 5]; Repr true []].
Lemma len2_comm_eq nc : forall w w' : word, comm_eq nc w w' -> forall a b, w = [a; b] -> w' = [a; b] \/ w' = [b; a].
Proof.
  intros w w' H a b ->. apply CanonProofs.ce_perm in H. apply Permutation.Permutation_length_2_inv in H. destruct H; auto.
Qed.
Example C24_history_good :
  Forall (good_call (sdp_notcomm ex_sc) (sdp_orthomat ex_sc) (S (length (lexorder ex_sc)))) ex_history.
Proof.
  assert (R : forall a b, a <> b -> a <> 0 -> b <> 0 -> a < 31 -> b < 31 -> sdp_orthomat ex_sc a b = false -> sdp_orthomat ex_sc b a = false ->
      reduced (sdp_notcomm ex_sc) (sdp_orthomat ex_sc) [a; b] /\ in_range (S (length (lexorder ex_sc))) [a; b]).
  { intros a b H1 H2 H3 H4 H5 H6 H7. split; [split|].
    - cbn. intuition congruence.
    - intros u x y v E. destruct (len2_comm_eq _ _ _ E a b eq_refl) as [Q|Q]; (destruct u as [|z u]; [cbn in Q; injection Q; intros; subst; auto|exfalso; apply (f_equal (@length nat)) in Q; cbn in Q; rewrite app_length in Q; cbn in Q; lia]).
    - intros x [<-|[<-|[]]]; assumption. }
  unfold ex_history. repeat apply Forall_cons; try apply Forall_nil; cbn [good_call]; try (intros; cbn; lia); try (left; reflexivity); try (intros Q; discriminate Q); right; right; apply R; try lia; vm_compute; reflexivity.
Qed.
Example C24_history_runs : exists m, run (sdp_notcomm ex_sc) (sdp_orthomat ex_sc) false (sdp_lexorder_symmetries ex_sc) ex_history memo_empty
   = Some ([[3; 1; 3]; [1]; [1; 3]; [1; 3]; [3; 1]; [7; 5]; []], m).
Proof. eexists. vm_compute. reflexivity. Qed.

(** ** C35 *)
(** Whatever was asked before, a monomial and its image under a relabelling of source copies
    get the same representative, the representative is (up to commutations) an image of the
    monomial, and monomials with the same representative are images of each other. *)
Theorem C35_representative : forall sc commuting h w w' only only' answers m, wf_scenario sc ->
  let nc := sdp_notcomm sc in let ortho := sdp_orthomat sc in
  let L := S (length (lexorder sc)) in let syms := sdp_lexorder_symmetries sc in
  (commuting = true -> forall a b, nc a b = false) ->
  Forall (good_call nc ortho L) h ->
  reduced nc ortho w -> in_range L w -> reduced nc ortho w' -> in_range L w' ->
  run nc ortho commuting syms (h ++ [Repr only w; Repr only' w']) memo_empty = Some (answers, m) ->
  exists before r r', answers = before ++ [r; r'] /\
   (exists g, In g syms /\ comm_eq nc (apply_lexsym g w) r) /\
   (r = r' <-> exists g, In g syms /\ comm_eq nc (apply_lexsym g w) w').
Proof.
  intros sc commuting h w w' only only' answers m W nc ortho L syms Hc H R Rg R' Rg' E.
  pose proof (ScenarioProofs.scenario_good_tables sc W) as G. pose proof (ColumnProofs3.scenario_symmetries sc W) as OS.
  destruct (C24_answers_independent_of_history sc commuting (h ++ [Repr only w; Repr only' w']) W Hc) as (rs & m' & E' & F).
  { apply Forall_app. split; [exact H|]. repeat apply Forall_cons; try apply Forall_nil; right; right; auto. }
  fold nc ortho L syms in E', F. rewrite E in E'. injection E' as <- <-.
  apply Forall2_app_inv_l in F as (b & l & _ & F2 & ->). inversion F2 as [|? r ? l2 A1 F3]; subst. inversion F3 as [|? r' ? l3 A2 F4]; subst. inversion F4; subst.
  exists b, r, r'. split; [reflexivity|].
  assert (Q : forall o v x, reduced nc ortho v -> in_range L v -> right_answer nc ortho commuting syms (Repr o v) x -> is_representative nc syms v x).
  { intros o v x Rv Rgv A. cbn in A. destruct (trivial v) eqn:T; [|exact A]. apply (MemoProofs.reduced_trivial nc ortho v Rv) in T. subst v x.
    split; [exists (seq 0 L); split; [eapply ColumnProofs.id_in; eauto|constructor]|]. intros; constructor. }
  pose proof (Q _ _ _ R Rg A1) as P1. pose proof (Q _ _ _ R' Rg' A2) as P2. split; [apply P1|].
  eapply MemoProofs.rep_iff; eauto.
Qed.
Print Assumptions C35_representative.

(** The representative is moreover the lexicographically first such word. *)
Theorem C35_representative_is_first : forall sc commuting h w only, wf_scenario sc ->
  let nc := sdp_notcomm sc in let ortho := sdp_orthomat sc in
  let L := S (length (lexorder sc)) in let syms := sdp_lexorder_symmetries sc in
  (commuting = true -> forall a b, nc a b = false) ->
  Forall (good_call nc ortho L) h -> reduced nc ortho w -> in_range L w -> w <> [] ->
  exists before r m, run nc ortho commuting syms (h ++ [Repr only w]) memo_empty = Some (before ++ [r], m) /\
    is_representative nc syms w r.
Proof.
  intros sc commuting h w only W nc ortho L syms Hc H R Rg N.
  destruct (C24_answers_independent_of_history sc commuting (h ++ [Repr only w]) W Hc) as (rs & m' & E' & F).
  { apply Forall_app. split; [exact H|]. repeat apply Forall_cons; try apply Forall_nil; right; right; auto. }
  apply Forall2_app_inv_l in F as (b & l & _ & F2 & ->). inversion F2 as [|? r ? l2 A1 F3]; subst. inversion F3; subst.
  exists b, r, m'. split; [exact E'|]. cbn in A1. destruct (trivial w) eqn:T; [|exact A1]. apply (MemoProofs.reduced_trivial _ _ w R) in T. contradiction.
Qed.
Print Assumptions C35_representative_is_first.

(** Each symmetry used is induced by a relabelling of source copies and all of them are used:
    the list [sdp_lexorder_symmetries] is the one of C10 with the zero operator in front. *)
Theorem C35_symmetries_are_relabellings : forall sc g, wf_scenario sc ->
  (In g (sdp_lexorder_symmetries sc) <->
   exists sigma h, SymSpec.is_relabelling sc sigma /\ SymSpec.induces sc sigma h /\ g = 0 :: map S h).
Proof.
  intros sc g W. unfold sdp_lexorder_symmetries. rewrite in_map_iff. split.
  - intros (h & <- & Hh). apply SymProofs.discover_exact in Hh as (sg & R & I); [|exact W]. exists sg, h. auto.
  - intros (sg & h & R & I & ->). exists h. split; [reflexivity|]. apply SymProofs.discover_exact; [exact W|]. eauto.
Qed.
Print Assumptions C35_symmetries_are_relabellings.

(** On a word that is not reduced the answer does depend on the history: the representative is
    computed from the word as given, not from its canonical form (line 1633). *)
Theorem C35_unreduced_word_refuted :
  let nc := sdp_notcomm ex_sc in let ortho := sdp_orthomat ex_sc in let syms := sdp_lexorder_symmetries ex_sc in
  (exists m, run nc ortho false syms [Repr false [5; 5]] memo_empty = Some ([[1; 1]], m)) /\
  (exists m, run nc ortho false syms [Repr false [1]; Repr false [5; 5]] memo_empty = Some ([[1]; [1]], m)).
Proof. split; eexists; vm_compute; reflexivity. Qed.
Print Assumptions C35_unreduced_word_refuted.
