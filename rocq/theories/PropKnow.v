(** Property theorems C14 (knowable monomials) and C15 (fake-setting removal).
    Statements use KnowModel (the code), ScenarioSpec and KnowSpec only. *)
From Verif Require Import ScenarioModel ScenarioSpec KnowModel KnowSpec.
From Verif Require ScenarioProofs SymProofs KnowProofs PropScenario.
Import PropScenario.

(** ** C14 *)
(** For every monomial over the operator list: knowability is decided (no KeyError), and the
    answer is yes exactly when the three conditions hold. *)
Theorem C14_knowable_iff : forall sc lexmon, wf_scenario sc ->
  (forall k, In k lexmon -> k < length (lexorder sc)) ->
  let mon := map (fun k => nth k (lexorder sc) []) lexmon in
  exists b, atom_is_knowable sc lexmon = Some b /\
    (b = true <-> one_operator_per_party mon /\ one_copy_per_source mon /\ parents_agree sc mon).
Proof. exact KnowProofs.atom_is_knowable_correct. Qed.
Print Assumptions C14_knowable_iff.

(** B has observed parent A in [ex_sc].  Operator 0 is A^{1,0,1} with setting 0 outcome 0;
    16..19 are B^{1,1,0}: effective setting (= outcome of A) 0, 0, 1, 1. *)
Example C14_nonvacuous :
  nth 0 (lexorder ex_sc) [] = mkrow 1 [1; 0; 1] 0 0 /\ nth 17 (lexorder ex_sc) [] = mkrow 2 [1; 1; 0] 0 1 /\
  atom_is_knowable ex_sc [0; 17] = Some true /\   (* parent's outcome agrees *)
  atom_is_knowable ex_sc [0; 18] = Some false /\  (* parent's outcome disagrees *)
  atom_is_knowable ex_sc [17] = Some false /\     (* parent missing *)
  atom_is_knowable ex_sc [0; 20] = Some false /\  (* different copies of the source A-B *)
  atom_is_knowable ex_sc [0; 4] = Some false /\   (* party A twice *)
  atom_is_knowable ex_sc [0; 17; 24] = Some true.
Proof. vm_compute. repeat split. Qed.

(** ** C15 *)
(** Every monomial over the operator list is rectified without error; each row keeps its
    party and outcome, and the effective setting that stands for (x, parents' outcomes) is
    replaced by x. *)
Theorem C15_private_setting : forall sc mon, wf_scenario sc ->
  (forall r, In r mon -> In r (lexorder sc)) ->
  exists rect, rectify_fake_setting sc (map take3 mon) = Some rect /\
    Forall2 (fun r r' => exists p c s o x os, r = mkrow (p + 1) c s o /\
               assoc (effective_to_parent sc p) s = Some (x :: os) /\ x < nth p (private_settings sc) 0 /\
               r' = [p + 1; x; o]) mon rect.
Proof.
  intros sc mon W. induction mon as [|r mon IH]; intros H.
  - exists []. split; [reflexivity|constructor].
  - destruct IH as (rect & E & F); [intros r' Hr'; apply H; right; exact Hr'|].
    destruct (proj1 (ScenarioProofs.lexorder_in sc r W) (H r (or_introl eq_refl))) as (p & c & s & o & -> & V).
    destruct (ScenarioProofs.effective_bijection sc p) as (B1 & _). destruct (B1 s ltac:(apply V)) as (t & Et & Ft).
    cbn zeta in Ft. unfold setting_shape in Ft. inversion Ft as [|x n os sh Hx Ho]; subst.
    exists ([p + 1; x; o] :: rect). split.
    + cbn [map]. unfold rectify_fake_setting in *. cbn [map_opt]. rewrite E. unfold rectify_row.
      rewrite KnowProofs.take3_mkrow. cbn [nth]. replace (p + 1 - 1) with p by lia. rewrite Et. reflexivity.
    + constructor; [|exact F]. exists p, c, s, o, x, os. auto.
Qed.
Print Assumptions C15_private_setting.

(** For networks nothing changes. *)
Theorem C15_networks_unchanged : forall sc mon, wf_scenario sc ->
  (forall p, nth p (parents sc) [] = []) ->
  (forall r, In r mon -> In r (lexorder sc)) ->
  rectify_fake_setting sc (map take3 mon) = Some (map take3 mon).
Proof.
  intros sc mon W N. induction mon as [|r mon IH]; intros H; [reflexivity|].
  destruct (proj1 (ScenarioProofs.lexorder_in sc r W) (H r (or_introl eq_refl))) as (p & c & s & o & -> & V).
  assert (IH' := IH (fun r' Hr' => H r' (or_intror Hr'))). cbn [map]. unfold rectify_fake_setting in *. cbn [map_opt].
  rewrite IH'. unfold rectify_row. rewrite KnowProofs.take3_mkrow. cbn [nth]. replace (p + 1 - 1) with p by lia.
  assert (Hs : s < nr_settings sc p) by apply V. unfold effective_to_parent.
  unfold nr_settings, setting_shape in *. rewrite N in *. cbn [map prodl fold_right] in *. rewrite Nat.mul_1_r in *.
  assert (G : forall n a, a <= s < a + n -> assoc (combine (seq a n) (flat_map (fun i : nat => map (cons i) (ndindex [])) (seq a n))) s = Some [s]).
  { induction n as [|n IHn]; intros a Ha; [lia|]. cbn [seq flat_map ndindex map app combine assoc].
    destruct (Nat.eqb_spec a s) as [->|Hne]; [reflexivity|]. apply IHn. lia. }
  change (ndindex [nth p (private_settings sc) 0]) with (flat_map (fun i : nat => map (cons i) (ndindex [])) (seq 0 (nth p (private_settings sc) 0))).
  rewrite G by lia. reflexivity.
Qed.
Print Assumptions C15_networks_unchanged.

(** Nothing is lost: two knowable monomials with the same rectification have the same
    parties, effective settings and outcomes. *)
Theorem C15_injective_on_knowable : forall sc mon mon' rect, wf_scenario sc ->
  (forall r, In r mon -> In r (lexorder sc)) -> (forall r, In r mon' -> In r (lexorder sc)) ->
  one_operator_per_party mon -> parents_agree sc mon -> parents_agree sc mon' ->
  rectify_fake_setting sc (map take3 mon) = Some rect ->
  rectify_fake_setting sc (map take3 mon') = Some rect ->
  map take3 mon = map take3 mon'.
Proof.
  intros sc mon mon' rect W H H' P A A' R R'.
  destruct (C15_private_setting sc mon W H) as (r1 & E1 & F). rewrite R in E1. injection E1 as <-.
  destruct (C15_private_setting sc mon' W H') as (r1 & E1 & F'). rewrite R' in E1. injection E1 as <-.
  set (Rel := fun (r : row) (r' : list nat) => exists p c s o x os, r = mkrow (p + 1) c s o /\ assoc (effective_to_parent sc p) s = Some (x :: os) /\ x < nth p (private_settings sc) 0 /\ r' = [p + 1; x; o]) in *.
  (* every (party, outcome) of mon' is one of mon *)
  assert (T : forall l l' : list row, forall rect, Forall2 Rel l rect -> Forall2 Rel l' rect -> forall q c s o, In (mkrow (q + 1) c s o) l' -> exists c' s', In (mkrow (q + 1) c' s' o) l).
  { intros l l' rc F1 F2 q c s o. revert l F1. induction F2 as [|r r3 l' rect' Hr _ IH]; intros l F1 Hin; [destruct Hin|].
    inversion F1 as [|r0 r3' l0 rect0 Hr0 F0]; subst. destruct Hin as [->|Hin].
    - destruct Hr as (p1 & c1 & s1 & o1 & x1 & os1 & Q & _ & _ & ->). apply ScenarioProofs.mkrow_inj in Q as (Q1 & _ & _ & <-).
      destruct Hr0 as (p2 & c2 & s2 & o2 & x2 & os2 & -> & _ & _ & Q). injection Q as Q3 _ Q4. subst o2.
      assert (p2 = q) as -> by lia. exists c2, s2. left. reflexivity.
    - destruct (IH l0 F0 Hin) as (c' & s' & I). exists c', s'. right. exact I. }
  assert (G : forall l l' rc, incl l mon -> incl l' mon' -> Forall2 Rel l rc -> Forall2 Rel l' rc -> map take3 l = map take3 l').
  { intros l l' rc Il Il' F1. revert l' Il'. induction F1 as [|r r3 l rc Hr _ IH]; intros l' Il' F2; inversion F2 as [|r0 r3' l0 rc0 Hr0 F0]; subst; [reflexivity|].
    cbn [map]. f_equal; [|apply IH; [intros z Hz; apply Il; right; exact Hz|intros z Hz; apply Il'; right; exact Hz|exact F0]].
    destruct Hr as (p & c & s & o & x & os & -> & Es & _ & ->). destruct Hr0 as (p2 & c2 & s2 & o2 & x2 & os2 & -> & Es2 & _ & Q).
    injection Q as Q1 Q2 Q3. subst x2 o2. assert (p2 = p) as -> by lia. rewrite !KnowProofs.take3_mkrow.
    assert (Hi : In (mkrow (p + 1) c s o) mon) by (apply Il; left; reflexivity).
    assert (Hi' : In (mkrow (p + 1) c2 s2 o) mon') by (apply Il'; left; reflexivity).
    destruct (A _ _ _ _ Hi) as (y & ys & Ey & Ly & Cy). destruct (A' _ _ _ _ Hi') as (z & zs & Ez & Lz & Cz).
    rewrite Es in Ey. injection Ey as <- <-. rewrite Es2 in Ez. injection Ez as <- <-.
    assert (os = os2) as <-.
    { apply (nth_ext _ _ 0 0); [congruence|]. intros m Hm. rewrite Ly in Hm.
      destruct (nth_error (nth p (parents sc) []) m) as [q|] eqn:Eq; [|apply nth_error_None in Eq; lia].
      destruct (Cy m q Eq) as (c' & s' & I). destruct (Cz m q Eq) as (c'' & s'' & I').
      destruct (T mon mon' rect F F' q c'' s'' _ I') as (c3 & s3 & I3).
      apply In_nth_error in I as [a Ha]. apply In_nth_error in I3 as [b Hb]. assert (a = b) as <- by (eapply P; eassumption).
      assert (Qm : mkrow (q + 1) c' s' (nth m os 0) = mkrow (q + 1) c3 s3 (nth m os2 0)) by (unfold row in *; congruence).
      apply ScenarioProofs.mkrow_inj in Qm. apply Qm. }
    destruct (ScenarioProofs.effective_bijection sc p) as (_ & _ & _ & B4).
    assert (s = s2) as <-; [|reflexivity].
    destruct (Nat.lt_trichotomy s s2) as [Hlt|[Heq|Hlt]]; [exfalso| exact Heq|exfalso].
    - apply (B4 _ _ _ _ Es Es2) in Hlt. clear -Hlt. revert Hlt. generalize (x :: os). intros l H. remember l as l' eqn:E in H at 2. revert E.
      induction H; intros E; try discriminate; injection E; intros; subst; auto; lia.
    - apply (B4 _ _ _ _ Es2 Es) in Hlt. clear -Hlt. revert Hlt. generalize (x :: os). intros l H. remember l as l' eqn:E in H at 2. revert E.
      induction H; intros E; try discriminate; injection E; intros; subst; auto; lia. }
  apply (G mon mon' rect); auto using incl_refl.
Qed.
Print Assumptions C15_injective_on_knowable.

Example C15_nonvacuous :
  rectify_fake_setting ex_sc (map take3 [mkrow 1 [1; 0; 1] 1 1; mkrow 2 [1; 1; 0] 1 0])
    = Some [[1; 1; 1]; [2; 0; 0]] /\
  In (mkrow 1 [1; 0; 1] 1 1) (lexorder ex_sc) /\ In (mkrow 2 [1; 1; 0] 1 0) (lexorder ex_sc) /\
  atom_is_knowable ex_sc [3; 18] = Some true /\
  map (fun k => nth k (lexorder ex_sc) []) [3; 18] = [mkrow 1 [1; 0; 1] 1 1; mkrow 2 [1; 1; 0] 1 0].
Proof.
  split; [reflexivity|]. split; [|split]; [| |split; reflexivity].
  - apply (nth_error_In _ 3). reflexivity.
  - apply (nth_error_In _ 18). reflexivity.
Qed.
