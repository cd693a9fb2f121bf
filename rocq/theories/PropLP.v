(** C19, C20, C21: the linear programme of a scenario. *)
From Coq Require Import Permutation.
From Verif Require Import ScenarioSpec SymModel SymSpec MargModel QcSum LPModel LPSpec LPSpec2.
From Verif Require LPProofs LPProofs2 LPProofs3 LPProofs4 LPProofs6 LPProofs8 LPProofs9 LPProofs10 ScenarioProofs SymProofs.
Close Scope Q_scope. Close Scope Qc_scope. Open Scope nat_scope.

(** scenarios in which every party has at least one outcome (the constructor is only called
    with positive cardinalities) *)
Definition positive_outcomes (sc : scenario) : Prop := forall o, In o (outcomes sc) -> 1 <= o.

(** C20: no look-up fails, whichever outcomes are kept. *)
Theorem C20_programme_is_generated : forall sc all_outcomes, wf_scenario sc -> positive_outcomes sc ->
  exists prog, scenario_lp sc all_outcomes = Some prog /\
    forall r q, In r (lp_equalities prog) \/ In r (lp_inequalities prog) -> In q r -> fst q < length (lp_columns prog).
Proof.
  intros sc a W H. destruct (LPProofs10.programme_exact sc W H a) as (prog & E & _). exists prog. split; [exact E|].
  apply (LPProofs10.programme_rows_range sc W H a prog E).
Qed.
Print Assumptions C20_programme_is_generated.

(** C19: a vector satisfies the generated equalities and inequalities (and gives 1 to the
    trivial event) exactly when it lists the probabilities that some relabelling-invariant
    behaviour of the inflated scenario gives to the events of the columns.  So no
    distribution is excluded, and nothing but distributions is allowed. *)
Theorem C19_programme_exact : forall sc all_outcomes, wf_scenario sc -> positive_outcomes sc ->
  exists prog, scenario_lp sc all_outcomes = Some prog /\ forall x,
  (x 0 = 1%Qc /\
   (forall r, In r (lp_equalities prog) -> row_value x r = 0%Qc) /\
   (forall r, In r (lp_inequalities prog) -> (0 <= row_value x r)%Qc)) <->
  exists P, scenario_behaviour sc P /\ relabelling_invariant sc P /\
    forall c, c < length (lp_columns prog) -> x c = P (nth c (lp_columns prog) []).
Proof. intros sc a W H. apply LPProofs10.programme_exact; assumption. Qed.
Print Assumptions C19_programme_exact.

(** C19: each inequality is the non-negativity of the probability of one complete event, and
    every complete event is covered. *)
Theorem C19_inequalities_are_event_probabilities : forall sc all_outcomes prog, wf_scenario sc -> positive_outcomes sc ->
  scenario_lp sc all_outcomes = Some prog ->
  let represents x P := scenario_behaviour sc P /\ relabelling_invariant sc P /\
     (forall c, c < length (lp_columns prog) -> x c = P (nth c (lp_columns prog) [])) in
  (forall r, In r (lp_inequalities prog) -> exists v, complete_event sc v /\ forall P x, represents x P -> row_value x r = P v) /\
  (forall v, complete_event sc v -> exists r, In r (lp_inequalities prog) /\ forall P x, represents x P -> row_value x r = P v).
Proof.
  intros sc a prog W H E rep. destruct (LPProofs10.inequality_meaning sc W H a prog E) as [A B]. unfold rep. split.
  - intros r Hr. destruct (A r Hr) as (v & Hv & K). exists v. split; [exact Hv|]. intros P x (K1 & K2 & K3). apply K; assumption.
  - intros v Hv. destruct (B v Hv) as (r & Hr & K). exists r. split; [exact Hr|]. intros P x (K1 & K2 & K3). apply K; assumption.
Qed.
Print Assumptions C19_inequalities_are_event_probabilities.

(** The hypotheses are met: every scenario has such a behaviour (all outcomes are 0). *)
Definition all_zero (sc : scenario) (v : list bool) : Qc :=
  if happens (fun i => row_outcome (nth i (lexorder sc) []) =? 0) v then 1%Qc else 0%Qc.
Lemma happens_spec w v : happens w v = true <-> forall i, nth i v false = true -> w i = true.
Proof.
  unfold happens. rewrite forallb_forall. split.
  - intros H i Hi. specialize (H i). rewrite Hi in H. apply H. apply in_seq. split; [lia|]. cbn. destruct (Nat.lt_ge_cases i (length v)) as [K|K]; [exact K|].
    rewrite nth_overflow in Hi by exact K. discriminate.
  - intros H i _. destruct (nth i v false) eqn:E; [|reflexivity]. cbn. apply H, E.
Qed.
Theorem C19_behaviours_exist : forall sc, wf_scenario sc -> positive_outcomes sc ->
  scenario_behaviour sc (all_zero sc) /\ relabelling_invariant sc (all_zero sc).
Proof.
  intros sc W H. split.
  - intros ms J. exists [(1%Qc, fun i => row_outcome (nth i (lexorder sc) []) =? 0)]. split; [split|split].
    + intros q [<-|[]]. discriminate.
    + reflexivity.
    + intros q m [<-|[]] Hm. cbn [snd]. apply J in Hm. exists 0. destruct m as [[p c] s]. unfold outcome_of. cbn [fst snd] in *.
      assert (K : In (mkrow (p + 1) c s 0) (lexorder sc)) by (apply ScenarioProofs.lexorder_in; [exact W|]; exists p, c, s, 0; auto).
      apply In_nth_error in K as (i & Hi). exists i. split; [exact Hi|]. split; [rewrite (nth_error_nth _ _ _ Hi), ScenarioProofs.mkrow_outcome; reflexivity|].
      intros o' i' Hi' Q. rewrite (nth_error_nth _ _ _ Hi'), ScenarioProofs.mkrow_outcome in Q. apply Nat.eqb_eq, Q.
    + intros v L Hv. unfold all_zero, prob. cbn [map fst snd]. rewrite sumQ_cons, sumQ_nil. ring.
  - intros sg g v R I L. unfold all_zero. replace (happens _ (permuted v g)) with (happens (fun i => row_outcome (nth i (lexorder sc) []) =? 0) v); [reflexivity|].
    destruct (SymProofs.discover_inverse sc g W) as (h & Hh & E1 & E2); [apply SymProofs.discover_exact; eauto|]. unfold SymProofs.compose in *.
    apply SymProofs.discover_exact in Hh as (tau & T & J); [|exact W].
    assert (Out : forall sg g i, induces sc sg g -> i < length (lexorder sc) -> row_outcome (nth (nth i g 0) (lexorder sc) []) = row_outcome (nth i (lexorder sc) []) /\ nth i g 0 < length (lexorder sc)).
    { clear - W. intros sg g i [Lg I] Hi. destruct (nth_error (lexorder sc) i) as [r|] eqn:E; [|apply nth_error_None in E; lia].
      destruct (ScenarioProofs.lexorder_nth sc i r W E) as (p & c & s & o & -> & _). destruct (I i _ _ _ _ E) as (j & J1 & J2).
      rewrite (nth_error_nth _ _ _ J1), (nth_error_nth _ _ _ J2), (nth_error_nth _ _ _ E), !ScenarioProofs.mkrow_outcome. split; [reflexivity|]. apply nth_error_Some. congruence. }
    assert (Perm : forall i, i < length (lexorder sc) -> nth i (permuted v g) false = nth (nth i g 0) v false).
    { intros i Hi. unfold permuted. rewrite (nth_indep _ false (nth 0 v false)) by (rewrite map_length; destruct I as [-> _]; exact Hi). apply (map_nth (fun k => nth k v false)). }
    apply eq_true_iff_eq. rewrite !happens_spec. split; intros K i Hi.
    + assert (Hn : i < length (lexorder sc)). { destruct (Nat.lt_ge_cases i (length (lexorder sc))) as [X|X]; [exact X|]. rewrite nth_overflow in Hi; [discriminate|]. unfold permuted. rewrite map_length. destruct I as [-> _]. exact X. }
      rewrite Perm in Hi by exact Hn. destruct (Out sg g i I Hn) as [O1 O2]. rewrite <- O1. apply K, Hi.
    + assert (Hn : i < length (lexorder sc)). { destruct (Nat.lt_ge_cases i (length (lexorder sc))) as [X|X]; [exact X|]. rewrite nth_overflow in Hi; [discriminate|]. rewrite L. exact X. }
      destruct (Out tau h i J Hn) as [O1 O2]. rewrite <- O1. apply K. rewrite Perm by exact O2.
      assert (E : nth (nth i h 0) g 0 = i).
      { apply (f_equal (fun l => nth i l 0)) in E2. rewrite (nth_indep _ 0 (nth 0 g 0)) in E2 by (rewrite map_length; destruct J as [-> _]; exact Hn). rewrite (map_nth (fun j => nth j g 0)) in E2.
        rewrite E2. rewrite seq_nth by exact Hn. reflexivity. }
      rewrite E. exact Hi.
Qed.
Print Assumptions C19_behaviours_exist.

(** C21: the orbit index is the same exactly for events that a relabelling of source copies
    maps to each other; it is the position of the first of them. *)
Theorem C21_orbits_are_classes : forall sc all_outcomes raw, wf_scenario sc -> positive_outcomes sc ->
  raw_monomials (length (lexorder sc)) (tagged_groups sc all_outcomes) (compatible sc) = Some raw ->
  let orbit i := nth i (discover_inflation_orbits (discover_lexorder_symmetries sc) raw) 0 in
  forall i, i < length raw ->
  (forall j, j < length raw -> (orbit i = orbit j <->
     exists sigma g, is_relabelling sc sigma /\ induces sc sigma g /\ permuted (nth i raw []) g = nth j raw [])) /\
  orbit i <= i /\ orbit (orbit i) = orbit i.
Proof.
  intros sc a raw W H E orbit i Hi.
  pose proof (LPProofs8.groups_cat sc a) as Hcat. pose proof (LPProofs8.groups_ne sc H a) as Hne. pose proof (LPProofs8.compat_und sc a) as Hund.
  destruct (LPProofs3.events_exist _ _ Hcat Hne _ Hund) as (raw' & events & Er & Ee & _). rewrite E in Er. injection Er as <-.
  pose proof (LPProofs8.scenario_symmetries sc W H a) as Hsg. pose proof (LPProofs8.scenario_syms_ne sc) as Hs.
  destruct (LPProofs6.raw_facts _ _ Hcat Hne _ Hund _ false Hsg Hs raw events E Ee) as (_ & N & _).
  assert (L : forall v, In v raw -> length v = length (lexorder sc)) by (intros v Hv; apply (LPProofs6.raw_length _ _ Hcat Hne _ Hund _ false Hsg Hs raw events E Ee v Hv)).
  destruct Hsg.
  assert (Cl : forall i j, i < length raw -> j < length raw -> (orbit i = orbit j <->
     exists sigma g, is_relabelling sc sigma /\ induces sc sigma g /\ permuted (nth i raw []) g = nth j raw [])).
  { intros i' j Hi' Hj. unfold orbit. pose proof (LPProofs4.orbits_classes _ _ sg_head Hs sg_range sg_comp sg_inv raw L N i' j Hi' Hj) as K. unfold LPProofs4.orbs in K. rewrite K. unfold LPProofs4.related. split.
    - intros (g & Hg & Eg). apply SymProofs.discover_exact in Hg as (sg & R & I); [|exact W]. exists sg, g. auto.
    - intros (sg & g & R & I & Eg). exists g. split; [apply SymProofs.discover_exact; eauto|exact Eg]. }
  destruct (LPProofs4.orbits_first _ _ sg_head Hs sg_range sg_comp sg_inv raw L N) as [_ F].
  pose proof (F i Hi) as (F1 & F2 & F3). fold (orbit i) in F1, F2, F3.
  split; [intros j Hj; apply Cl; assumption|]. 
  assert (R' : LPProofs4.related (discover_lexorder_symmetries sc) (nth (orbit i) raw []) (nth i raw [])).
  { apply (LPProofs4.related_sym _ _ sg_range sg_inv); [apply L, nth_In, Hi|exact F2]. }
  split.
  - destruct (Nat.le_gt_cases (orbit i) i) as [K|K]; [exact K|]. exfalso. apply (F3 i K R').
  - apply Cl; [exact F1|exact Hi|]. destruct R' as (g & Hg & Eg). apply SymProofs.discover_exact in Hg as (sg & R & I); [|exact W]. exists sg, g. auto.
Qed.
Print Assumptions C21_orbits_are_classes.

(** C21: the representative of an atomic monomial, whatever was asked before: with more than
    one symmetry, it is an image of the monomial, and the same for all images. *)
Definition earlier (sc : scenario) (calls : list (list nat)) : acache :=
  fold_left (fun c l => snd (atomic_monomial (length (lexorder sc)) (discover_lexorder_symmetries sc) l c)) calls [].
Definition atomic (sc : scenario) (calls : list (list nat)) (l : list nat) : list nat :=
  fst (atomic_monomial (length (lexorder sc)) (discover_lexorder_symmetries sc) l (earlier sc calls)).
Definition valid_calls (sc : scenario) (calls : list (list nat)) : Prop := forall l i, In l calls -> In i l -> i < length (lexorder sc).
(** the relabelling maps the operators of l onto those of l' *)
Definition image_under (g l l' : list nat) : Prop := forall i, i < length g -> (In (nth i g 0) l <-> In i l').

Lemma earlier_ok sc calls : wf_scenario sc -> positive_outcomes sc -> valid_calls sc calls ->
  LPProofs9.acache_ok (length (lexorder sc)) (discover_lexorder_symmetries sc) (earlier sc calls).
Proof.
  intros W H V. pose proof (LPProofs8.scenario_syms_ne sc) as Hs. destruct (LPProofs8.scenario_symmetries sc W H true).
  replace (earlier sc calls) with (LPProofs9.reach (length (lexorder sc)) (discover_lexorder_symmetries sc) calls []).
  - apply LPProofs9.reach_ok; auto. intros k m [].
  - unfold earlier. generalize (@nil (bvec * list nat)). clear. induction calls as [|l calls IH]; intros c; [reflexivity|]. cbn [LPProofs9.reach fold_left]. apply IH.
Qed.
Lemma key_permuted sc sg g l l' : induces sc sg g -> image_under g l l' ->
  vtake (key_of (length (lexorder sc)) l) g = key_of (length (lexorder sc)) l'.
Proof.
  intros [Lg I] Im. apply (LPProofs.bvec_ext (length (lexorder sc))); [unfold vtake; rewrite map_length; exact Lg|unfold key_of; rewrite map_length, seq_length; reflexivity|].
  intros i Hi. unfold vtake. rewrite (nth_indep _ false (nth 0 (key_of (length (lexorder sc)) l) false)) by (rewrite map_length, Lg; exact Hi). rewrite (map_nth (fun k => nth k _ false)).
  assert (Hj : nth i g 0 < length (lexorder sc)).
  { destruct (nth_error (lexorder sc) i) as [r|] eqn:E; [|apply nth_error_None in E; lia].
    assert (Hl : exists p c s o, r = mkrow p c s o). { assert (In r (lexorder sc)) by (eapply nth_error_In, E). rewrite ScenarioProofs.lexorder_flat in H. apply in_flat_map in H as (p & _ & H). apply ScenarioProofs.rows_of_party_in in H as (c & s & o & -> & _). eauto. }
    destruct Hl as (p & c & s & o & ->). destruct (I i _ _ _ _ E) as (j & J1 & J2). rewrite (nth_error_nth _ _ _ J1). apply nth_error_Some. congruence. }
  assert (K : forall l j, j < length (lexorder sc) -> nth j (key_of (length (lexorder sc)) l) false = memb j l).
  { clear. intros l j Hj. unfold key_of. rewrite (nth_indep _ false (memb 0 l)) by (rewrite map_length, seq_length; exact Hj). rewrite (map_nth (fun i => memb i l)), seq_nth by exact Hj. reflexivity. }
  rewrite !K by assumption. apply eq_true_iff_eq. rewrite !ScenarioProofs.memb_in. apply Im. rewrite Lg. exact Hi.
Qed.
Theorem C21_atomic_same_for_images : forall sc calls calls' l l' sigma g, wf_scenario sc -> positive_outcomes sc ->
  valid_calls sc (l :: calls) -> valid_calls sc (l' :: calls') ->
  length (discover_lexorder_symmetries sc) <> 1 ->
  is_relabelling sc sigma -> induces sc sigma g -> image_under g l l' ->
  atomic sc calls l = atomic sc calls' l'.
Proof.
  intros sc calls calls' l l' sg g W H V V' N R I Im. pose proof (LPProofs8.scenario_syms_ne sc) as Hs.
  pose proof (earlier_ok sc calls W H (fun a i Ha => V a i (or_intror Ha))) as C. pose proof (earlier_ok sc calls' W H (fun a i Ha => V' a i (or_intror Ha))) as C'.
  destruct (LPProofs8.scenario_symmetries sc W H true).
  destruct (LPProofs9.atomic_step _ _ sg_range sg_comp sg_inv l _ C (fun i => V l i (or_introl eq_refl))) as [_ A].
  destruct (LPProofs9.atomic_step _ _ sg_range sg_comp sg_inv l' _ C' (fun i => V' l' i (or_introl eq_refl))) as [_ A'].
  apply Nat.eqb_neq in N. rewrite N in A, A'. unfold atomic. rewrite A, A'. f_equal. apply LPProofs9.top_same; auto; try apply LPProofs9.key_length.
  exists g. split; [apply SymProofs.discover_exact; eauto|]. eapply key_permuted; eassumption.
Qed.
Print Assumptions C21_atomic_same_for_images.
Theorem C21_atomic_is_an_image : forall sc calls l, wf_scenario sc -> positive_outcomes sc -> valid_calls sc (l :: calls) ->
  exists sigma g, is_relabelling sc sigma /\ induces sc sigma g /\ image_under g l (atomic sc calls l).
Proof.
  intros sc calls l W H V. pose proof (LPProofs8.scenario_syms_ne sc) as Hs.
  pose proof (earlier_ok sc calls W H (fun a i Ha => V a i (or_intror Ha))) as C.
  destruct (LPProofs8.scenario_symmetries sc W H true).
  destruct (LPProofs9.atomic_step _ _ sg_range sg_comp sg_inv l _ C (fun i => V l i (or_introl eq_refl))) as [_ A].
  assert (Key : forall l j, j < length (lexorder sc) -> nth j (key_of (length (lexorder sc)) l) false = memb j l).
  { clear. intros l j Hj. unfold key_of. rewrite (nth_indep _ false (memb 0 l)) by (rewrite map_length, seq_length; exact Hj). rewrite (map_nth (fun i => memb i l)), seq_nth by exact Hj. reflexivity. }
  assert (Rel : exists g, In g (discover_lexorder_symmetries sc) /\ vtake (key_of (length (lexorder sc)) l) g = key_of (length (lexorder sc)) (atomic sc calls l)).
  { unfold atomic. destruct (length (discover_lexorder_symmetries sc) =? 1) eqn:E1.
    - exists (seq 0 (length (lexorder sc))). split; [rewrite <- sg_head; destruct (discover_lexorder_symmetries sc); [congruence|left; reflexivity]|].
      rewrite (LPProofs4.vtake_id (length (lexorder sc))) by apply LPProofs9.key_length. symmetry. exact A.
    - rewrite A. rewrite LPProofs9.flat_key.
      + apply LPProofs9.top_related; auto. apply LPProofs9.key_length.
      + eapply LPProofs4.related_length; [exact sg_range|]. apply LPProofs9.top_related; auto. apply LPProofs9.key_length. }
  destruct Rel as (g & Hg & E). destruct (sg_range g Hg) as (Lg & Rg & _). apply SymProofs.discover_exact in Hg as (sg & R & I); [|exact W]. exists sg, g. split; [exact R|]. split; [exact I|].
  intros i Hi. rewrite <- !ScenarioProofs.memb_in, <- !Key by (try (rewrite <- Lg; exact Hi); apply Rg, nth_In, Hi). rewrite <- E. unfold vtake.
  rewrite (nth_indep (map _ g) false (nth 0 (key_of (length (lexorder sc)) l) false)) by (rewrite map_length; exact Hi). rewrite (map_nth (fun k => nth k _ false)). reflexivity.
Qed.
Print Assumptions C21_atomic_is_an_image.
(** Without symmetries the operators are returned (possibly in the order of an earlier call). *)
Theorem C21_atomic_without_symmetry : forall sc calls l i, wf_scenario sc -> positive_outcomes sc -> valid_calls sc (l :: calls) ->
  length (discover_lexorder_symmetries sc) = 1 -> i < length (lexorder sc) -> (In i (atomic sc calls l) <-> In i l).
Proof.
  intros sc calls l i W H V E1 Hi. pose proof (earlier_ok sc calls W H (fun a i Ha => V a i (or_intror Ha))) as C.
  destruct (LPProofs8.scenario_symmetries sc W H true).
  destruct (LPProofs9.atomic_step _ _ sg_range sg_comp sg_inv l _ C (fun i => V l i (or_introl eq_refl))) as [_ A].
  rewrite E1 in A. cbn [Nat.eqb] in A. 
  assert (Key : forall l j, j < length (lexorder sc) -> nth j (key_of (length (lexorder sc)) l) false = memb j l).
  { clear. intros l j Hj. unfold key_of. rewrite (nth_indep _ false (memb 0 l)) by (rewrite map_length, seq_length; exact Hj). rewrite (map_nth (fun i => memb i l)), seq_nth by exact Hj. reflexivity. }
  unfold atomic. rewrite <- !ScenarioProofs.memb_in, <- !Key by exact Hi. rewrite A. reflexivity.
Qed.
Print Assumptions C21_atomic_without_symmetry.

(** Two copies of a quantum source shared by a party with two settings and a party with one
    setting and three outcomes. *)
Definition lp_sc : scenario :=
  {| outcomes := [2; 3]; private_settings := [2; 1]; parents := [[]; []];
     sources := [{| s_classical := false; s_children := [0; 1]; s_latents := [] |}]; levels := [2] |}.
Lemma lp_sc_wf : wf_scenario lp_sc /\ positive_outcomes lp_sc.
Proof.
  split; [constructor; try reflexivity|].
  - intros ps q [<-|[<-|[]]] [].
  - intros m [<-|[]]; lia.
  - intros p Hp. exists {| s_classical := false; s_children := [0; 1]; s_latents := [] |}. split; [left; reflexivity|]. left. destruct p as [|[|p]]; cbn in *; auto; lia.
  - intros o [<-|[<-|[]]]; lia.
Qed.
(** ... and a smaller one, whose programmes are computed *)
Definition lp_sc2 : scenario :=
  {| outcomes := [2; 2]; private_settings := [2; 1]; parents := [[]; [0]];
     sources := [{| s_classical := false; s_children := [0; 1]; s_latents := [] |}]; levels := [1] |}.
Lemma lp_sc2_wf : wf_scenario lp_sc2 /\ positive_outcomes lp_sc2.
Proof.
  split; [constructor; try reflexivity|].
  - intros ps q [<-|[<-|[]]] K; [destruct K|]. destruct K as [<-|[]]; cbn; lia.
  - intros m [<-|[]]; lia.
  - intros p Hp. exists {| s_classical := false; s_children := [0; 1]; s_latents := [] |}. split; [left; reflexivity|]. left. destruct p as [|[|p]]; cbn in *; auto; lia.
  - intros o [<-|[<-|[]]]; lia.
Qed.
Definition shape (p : option programme) : nat * nat * nat :=
  match p with Some p => (length (lp_columns p), length (lp_equalities p), length (lp_inequalities p)) | None => (0, 0, 0) end.
Example C19_nonvacuous : wf_scenario lp_sc2 /\ positive_outcomes lp_sc2 /\
  shape (scenario_lp lp_sc2 false) = (15, 6, 16) /\ shape (scenario_lp lp_sc2 true) = (25, 16, 16).
Proof. split; [apply lp_sc2_wf|]. split; [apply lp_sc2_wf|]. vm_compute. auto. Qed.
Example C21_nonvacuous : wf_scenario lp_sc /\ positive_outcomes lp_sc /\ length (discover_lexorder_symmetries lp_sc) = 2 /\
  atomic lp_sc [] [0; 9] = [0; 9] /\ atomic lp_sc [[4; 12]; [1]] [4; 12] = [0; 9].
Proof. split; [apply lp_sc_wf|]. split; [apply lp_sc_wf|]. vm_compute. auto. Qed.
