(** Proofs about normalisation equalities, part 3: soundness, distinct summands, assignments. *)
From Coq Require Import Permutation QArith Qcanon.
Close Scope Qc_scope. Close Scope Q_scope.
From Verif Require Import CanonModel CanonSpec CanonProofs CanonProofs2 MomentModel MomentSpec MomentProofs
  ScenarioModel ScenarioSpec ScenarioProofs SymModel SymSpec SymProofs MargModel QcSum
  ColumnModel ColumnSpec ColumnProofs2 ColumnProofs3 NormModel NormSpec NormProofs NormProofs2.
From Verif Require ProgramModel ProgramProofs.

Lemma Forall2_map_eq {A B C} (f : A -> C) (h : B -> C) l l' : Forall2 (fun a b => f a = h b) l l' -> map f l = map h l'.
Proof. induction 1 as [|a b l l' H _ IH]; [reflexivity|]. cbn. rewrite H, IH. reflexivity. Qed.
Lemma Forall2_impl' {A B} (R R' : A -> B -> Prop) l l' : (forall a b, R a b -> R' a b) -> Forall2 R l l' -> Forall2 R' l l'.
Proof. intros H. induction 1; constructor; auto. Qed.

(** renaming letters *)
Lemma pull_map nc f b w : (forall x, In x (b :: w) -> forall y, In y (b :: w) -> nc (f x) (f y) = nc x y) ->
  (forall x, In x (b :: w) -> forall y, In y (b :: w) -> f x = f y -> x = y) ->
  noneb (pull nc (f b) (map f w)) = noneb (pull nc b w).
Proof.
  induction w as [|x w IH]; intros H1 H2; [reflexivity|]. cbn [map pull].
  assert (E : (f x =? f b) = (x =? b)).
  { destruct (Nat.eqb_spec x b) as [->|Hne]; [apply Nat.eqb_refl|]. apply Nat.eqb_neq. intros E. apply Hne, H2; cbn; auto. }
  rewrite E. destruct (x =? b); [reflexivity|].
  rewrite (H1 b (or_introl eq_refl) x (or_intror (or_introl eq_refl))). destruct (nc b x); [reflexivity|].
  assert (IH' : noneb (pull nc (f b) (map f w)) = noneb (pull nc b w)).
  { apply IH; intros y Hy z Hz; [apply H1|apply H2]; cbn in *; intuition. }
  destruct (pull nc (f b) (map f w)), (pull nc b w); cbn in *; congruence.
Qed.
Lemma rc_map nc P f w : (forall x, In x w -> forall y, In y w -> nc (f x) (f y) = nc x y) ->
  (forall x, In x w -> forall y, In y w -> f x = f y -> x = y) -> (forall x, In x w -> P (f x) = P x) ->
  rc nc P (map f w) = rc nc P w.
Proof.
  induction w as [|x w IH]; intros H1 H2 H3; [reflexivity|]. cbn [map rc].
  rewrite pull_map by assumption. rewrite (H3 x (or_introl eq_refl)).
  rewrite IH; [reflexivity|..]; intros y Hy; [intros z Hz; apply H1|intros z Hz; apply H2|apply H3]; cbn; auto.
Qed.

Section Scenario.
Variable sc : scenario.
Hypothesis W : wf_scenario sc.
Hypothesis Hpos : forall n, In n (outcomes sc) -> 1 <= n.
Let nc := sdp_notcomm sc.
Let ortho := sdp_orthomat sc.
Let G : good_tables nc ortho := scenario_good_tables sc W.

(** a column equality of the code is the sum over one measurement *)
Lemma discovered hc cols eqs e : discover_normalization_eqns sc hc cols = Some eqs -> In e eqs ->
  exists u op v g p c s, In (u ++ op :: v) cols /\ is_measurement sc p c s g /\ In op g /\ nth p hc false = true /\
    fst e < length cols /\ nth (fst e) cols [] = u ++ v /\
    Forall2 (fun a j => j < length cols /\ nth j cols [] = u ++ a :: v) g (snd e).
Proof.
  unfold discover_normalization_eqns. destruct (orthogroups sc W Hpos) as (d & Ed & H1 & H2). rewrite Ed. intros E Hin.
  destruct (discover_sound _ _ _ _ _ E Hin) as (u & op & v & g & Hw & M & Og & A & B & C).
  destruct (H1 op g Og) as (p & c & s & Hm & V & N). apply (mask_spec sc W Hpos) in M as (p' & c' & s' & V' & Hh & N').
  rewrite N in N'. injection N' as N'.
  assert (K : mkrow (p + 1) c s (nth p (outcomes sc) 0 - 1) = mkrow (p' + 1) c' s' (nth p' (outcomes sc) 0 - 1)) by (unfold mkrow; congruence).
  apply mkrow_inj in K as (K & _). assert (p' = p) as -> by lia.
  exists u, op, v, g, p, c, s. repeat split; auto; try apply Hm.
  destruct (measurement_nth sc p c s g Hm) as [L Nn]. pose proof (outcomes_pos sc Hpos p (proj1 V)) as Po.
  assert (Hl : nth p (outcomes sc) 0 - 1 < length g) by lia.
  replace op with (nth (nth p (outcomes sc) 0 - 1) g 0); [apply nth_In, Hl|].
  apply (proj1 (NoDup_nth_error (sdp_lexorder sc)) (sdp_NoDup sc W)).
  - apply nth_error_Some. rewrite (Nn _ Hl). discriminate.
  - rewrite (Nn _ Hl), N. reflexivity.
Qed.

Lemma discover_some hc cols : exists eqs, discover_normalization_eqns sc hc cols = Some eqs.
Proof.
  unfold discover_normalization_eqns. destruct (orthogroups sc W Hpos) as (d & Ed & H1 & H2). rewrite Ed.
  apply discover_total. intros w op _ _ M. apply (mask_spec sc W Hpos) in M as (p & c & s & V & _ & N). eapply H2; eassumption.
Qed.

Lemma measurement_unique p c s g g' : is_measurement sc p c s g -> is_measurement sc p c s g' -> g' = g.
Proof.
  intros H H'. destruct (measurement_nth _ _ _ _ _ H) as [L N]. destruct (measurement_nth _ _ _ _ _ H') as [L' N'].
  apply (nth_ext _ _ 0 0); [congruence|]. intros o Ho.
  apply (proj1 (NoDup_nth_error (sdp_lexorder sc)) (sdp_NoDup sc W)).
  - apply nth_error_Some. rewrite (N' o Ho). discriminate.
  - rewrite (N' o Ho), (N o); [reflexivity|]. congruence.
Qed.
Lemma measurement_last p c s g : is_measurement sc p c s g ->
  nth_error (sdp_lexorder sc) (last g 0) = Some (mkrow (p + 1) c s (nth p (outcomes sc) 0 - 1)) /\ valid_measurement sc p c s.
Proof.
  intros Hm0. destruct (measurement_nth _ _ _ _ _ Hm0) as [L N]. pose proof (proj2 Hm0) as NE.
  assert (Hl : length g - 1 < length g) by (destruct g; [congruence|cbn; lia]).
  assert (EL : last g 0 = nth (length g - 1) g 0).
  { clear -NE. destruct g as [|x g0] using rev_ind; [congruence|]. rewrite last_last, app_length, app_nth2; cbn; [|lia].
    replace (length g0 + 1 - 1 - length g0) with 0 by lia. reflexivity. }
  specialize (N _ Hl). rewrite <- EL, L in N. split; [exact N|]. destruct (last g 0) as [|k] eqn:EK.
  - exfalso. apply (f_equal (fun o => match o with Some r => row_party r | None => 0 end)) in N. rewrite mkrow_party in N. cbn in N. lia.
  - rewrite sdp_nth in N. destruct (lexorder_nth sc k _ W N) as (p1 & c1 & s1 & o1 & E1 & V). apply mkrow_inj in E1 as (E1 & -> & -> & _).
    assert (p1 = p) as -> by lia. destruct V as (V1 & V2 & V3 & V4 & V5). repeat split; auto. apply inflation_indices_in; auto.
Qed.

Lemma discover_complete_sc hc cols eqs u op v g p c s : discover_normalization_eqns sc hc cols = Some eqs ->
  In (u ++ op :: v) cols -> is_measurement sc p c s g -> nth p hc false = true -> op = last g 0 ->
  (forall u' v' p' c' s' g', u' ++ last g' 0 :: v' = u ++ op :: v -> is_measurement sc p' c' s' g' -> nth p' hc false = true ->
     In (u' ++ v') cols /\ forall a, In a g' -> In (u' ++ a :: v') cols) ->
  exists i js, In (i, js) eqs /\ i < length cols /\ nth i cols [] = u ++ v /\
    Forall2 (fun a j => j < length cols /\ nth j cols [] = u ++ a :: v) g js.
Proof.
  intros E Hw Hm Hh Hop Hall. unfold discover_normalization_eqns in E.
  destruct (orthogroups sc W Hpos) as (d & Ed & H1 & H2). rewrite Ed in E.
  assert (KEY : forall op p c s, nth_error (sdp_lexorder sc) op = Some (mkrow (p + 1) c s (nth p (outcomes sc) 0 - 1)) ->
     forall g, is_measurement sc p c s g -> op = last g 0).
  { intros op0 p0 c0 s0 N g0 Hm0. apply (proj1 (NoDup_nth_error (sdp_lexorder sc)) (sdp_NoDup sc W)).
    - apply nth_error_Some. rewrite N. discriminate.
    - rewrite N. symmetry. apply (measurement_last _ _ _ _ Hm0). }
  destruct (measurement_last _ _ _ _ Hm) as [N V]. rewrite <- Hop in N.
  destruct (H2 op p c s V N) as (g0 & Hg0). destruct (H1 _ _ Hg0) as (p1 & c1 & s1 & Hm1 & V1 & N1).
  assert (g0 = g) as ->.
  { rewrite N in N1. injection N1 as N1.
    assert (K : mkrow (p + 1) c s (nth p (outcomes sc) 0 - 1) = mkrow (p1 + 1) c1 s1 (nth p1 (outcomes sc) 0 - 1)) by (unfold mkrow; congruence).
    apply mkrow_inj in K as (K & <- & <- & _). assert (p1 = p) as -> by lia. eapply measurement_unique; eassumption. }
  eapply discover_complete; [exact E|exact Hw| |exact Hg0|].
  - apply (mask_spec sc W Hpos). eauto 8.
  - intros u' op' v' g' Ew M' Og'. destruct (H1 _ _ Og') as (p2 & c2 & s2 & Hm2 & V2 & N2).
    pose proof (KEY _ _ _ _ N2 _ Hm2) as ->. apply (Hall u' v' p2 c2 s2 g' Ew Hm2).
    apply (mask_spec sc W Hpos) in M' as (p3 & c3 & s3 & V3 & H3 & N3). rewrite N2 in N3. injection N3 as N3. 
    replace p2 with p3 by lia. exact H3.
Qed.

(** ** soundness *)
Lemma equalities_sound hc cols M eqs val mval : normalised sc val ->
  discover_normalization_eqns sc hc cols = Some eqs ->
  (forall i j, i < length cols -> j < length cols -> mval (M i j) = val (entry cols i j)) ->
  forall k l, In (k, l) (construct_normalization_eqs (length cols) M eqs) -> mval k = sumQ (map mval l).
Proof.
  intros N E Hm k l Hin. destruct (construct_spec (length cols) M eqs) as (_ & C & _).
  destruct (C k l Hin) as (e & i & He & Hi & _ & -> & ->).
  destruct (discovered _ _ _ _ E He) as (u & op & v & g & p & c & s & _ & Ms & _ & _ & A & B & D).
  rewrite <- (sumQ_perm (map mval (map (M i) (snd e)))) by (apply Permutation_map, np_sort_perm).
  rewrite Hm by assumption. rewrite map_map.
  assert (EQ : map (fun a => val ((rev (nth i cols []) ++ u) ++ a :: v)) g = map (fun j => mval (M i j)) (snd e)).
  { apply Forall2_map_eq. eapply Forall2_impl'; [|exact D]. intros a j [Hj Ej]. rewrite Hm by assumption.
    unfold entry. rewrite Ej, <- app_assoc. reflexivity. }
  rewrite <- EQ, (N p c s g _ _ Ms). unfold entry. rewrite B, <- app_assoc. reflexivity.
Qed.

(** equalities that are skipped because a summand vanishes are identities between products *)
Lemma skipped_trivial hc cols eqs e i val : moment_functional nc ortho val ->
  discover_normalization_eqns sc hc cols = Some eqs -> In e eqs -> i < length cols ->
  (exists j, In j (snd e) /\ is_zero_product nc ortho (entry cols i j)) ->
  sumQ (map (fun j => val (entry cols i j)) (snd e)) = val (entry cols i (fst e)).
Proof.
  intros V E He Hi (j & Hj & Z).
  destruct (discovered _ _ _ _ E He) as (u & op & v & g & p & c & s & _ & Ms & _ & _ & A & B & D).
  destruct (Forall2_in_r _ _ _ _ D Hj) as (a & Ha & Hlt & Ej).
  assert (EQ : map (fun a => val ((rev (nth i cols []) ++ u) ++ a :: v)) g = map (fun j => val (entry cols i j)) (snd e)).
  { apply Forall2_map_eq. eapply Forall2_impl'; [|exact D]. intros b k [Hk Ek]. unfold entry. rewrite Ek, <- app_assoc. reflexivity. }
  rewrite <- EQ. unfold entry at 1. rewrite B. rewrite app_assoc.
  apply (vanishing_trivial nc ortho G) with (a := a).
  - exact Ha.
  - eapply measurement_nodup; eassumption.
  - intros x y. eapply measurement_ortho; eassumption.
  - intros x b. eapply measurement_closed; eassumption.
  - eapply measurement_nz; eassumption.
  - unfold is_zero_product, entry in Z. rewrite Ej in Z. rewrite <- app_assoc. exact Z.
  - exact V.
Qed.

(** ** the summands are different *)
Definition label_is (t : nat * nat * nat) (x : nat) : bool :=
  match nth_error (sdp_lexorder sc) x with
  | Some r => negb (x =? 0) && ((row_party r =? fst (fst t)) && (row_setting r =? snd (fst t)) && (row_outcome r =? snd t))
  | None => false
  end.
Lemma label_sym g x t : In g (sdp_lexorder_symmetries sc) -> x < length (sdp_lexorder sc) ->
  label_is t (nth x g 0) = label_is t x.
Proof.
  intros Hg Hx. apply in_map_iff in Hg as (g0 & <- & Hg). apply (discover_exact sc g0 W) in Hg as (sg & R & I).
  destruct x as [|x]; [reflexivity|]. cbn [sdp_lexorder length] in Hx.
  assert (Hx' : x < length (lexorder sc)) by lia. rewrite nth_pad.
  replace (x <? length g0) with true by (symmetry; apply Nat.ltb_lt; rewrite (proj1 I); exact Hx').
  destruct (lexorder_parts sc x W Hx') as (p & c & s & o & E & V).
  pose proof (induces_nth _ _ _ _ _ _ _ _ I E) as E2.
  unfold label_is. rewrite !sdp_nth, E, E2, !mkrow_party, !mkrow_setting, !mkrow_outcome. reflexivity.
Qed.
Lemma rc_sym g w t : In g (sdp_lexorder_symmetries sc) -> (forall x, In x w -> x < length (sdp_lexorder sc)) ->
  rc nc (label_is t) (apply_lexsym g w) = rc nc (label_is t) w.
Proof.
  intros Hg Hw. pose proof (scenario_symmetries sc W) as OS. unfold apply_lexsym. apply rc_map.
  - intros x Hx y Hy. apply (os_nc _ _ _ _ OS); [exact Hg|apply Hw, Hx|apply Hw, Hy].
  - intros x Hx y Hy E. pose proof (os_perm _ _ _ _ OS g Hg) as P.
    assert (ND : NoDup g) by (eapply Permutation_NoDup; [apply Permutation_sym, P|apply seq_NoDup]).
    assert (L : length g = length (sdp_lexorder sc)) by (rewrite (Permutation_length P), seq_length; reflexivity).
    apply (proj1 (NoDup_nth g 0) ND); [rewrite L; auto|rewrite L; auto|exact E].
  - intros x Hx. apply label_sym; auto.
Qed.

Lemma same_moment_rc t w w' : ~ is_zero_product nc ortho w' -> same_moment nc ortho w w' ->
  rc nc (label_is t) w = rc nc (label_is t) w'.
Proof.
  intros NZ [H|H].
  - symmetry. apply (rc_pe nc ortho G); [exact NZ|apply pe_sym, H].
  - rewrite <- (rc_rev nc ortho G _ w' NZ). symmetry. apply (rc_pe nc ortho G); [|apply pe_sym, H].
    intros Z. apply NZ. apply (pe_rev nc ortho G) in Z. rewrite rev_involutive in Z. exact Z.
Qed.

Lemma summands_distinct commuting hc cols M' orbits corresp eqs e i :
  (commuting = true -> forall a b, nc a b = false) ->
  good_columns nc ortho (S (length (lexorder sc))) cols ->
  symmetrized_moment_matrix nc ortho commuting cols (sdp_lexorder_symmetries sc) = Some (M', orbits, corresp) ->
  discover_normalization_eqns sc hc cols = Some eqs -> In e eqs -> i < length cols ->
  (forall j, In j (snd e) -> M' i j <> 0) ->
  NoDup (map (M' i) (snd e)) /\ (2 <= length (snd e) -> ~ In (M' i (fst e)) (map (M' i) (snd e))).
Proof.
  intros Hc GC ES E He Hi NZ.
  destruct (ColumnProofs2.symmetrized_correct nc ortho commuting (S (length (lexorder sc))) (sdp_lexorder_symmetries sc) cols G Hc (scenario_symmetries sc W) GC)
    as (M0 & orb0 & cor0 & E0 & Z & EQM & _).
  rewrite ES in E0. injection E0 as <- <- <-.
  destruct (discovered _ _ _ _ E He) as (u & op & v & g & p & c & s & _ & Ms & _ & _ & A & B & D).
  set (w := fun a => (rev (nth i cols []) ++ u) ++ a :: v).
  assert (Hent : forall a j, In (a, j) (combine g (snd e)) -> j < length cols /\ entry cols i j = w a).
  { intros a j H. assert (K : j < length cols /\ nth j cols [] = u ++ a :: v).
    { clear -D H. induction D as [|a0 j0 g0 l0 H0 _ IH]; [destruct H|]. cbn in H. destruct H as [H|H]; [injection H as <- <-; exact H0|auto]. }
    destruct K as [K1 K2]. split; [exact K1|]. unfold entry, w. rewrite K2, <- app_assoc. reflexivity. }
  assert (Hl : length g = length (snd e)) by (clear -D; induction D; cbn; congruence).
  assert (Hcomb : forall o, o < length g -> In (nth o g 0, nth o (snd e) 0) (combine g (snd e))).
  { intros o Ho. rewrite <- combine_nth by exact Hl. apply nth_In. rewrite combine_length. lia. }
  assert (Hwz : forall o, o < length g -> ~ is_zero_product nc ortho (w (nth o g 0))).
  { intros o Ho K. destruct (Hent _ _ (Hcomb o Ho)) as [K1 K2]. rewrite <- K2 in K. apply Z in K; [|exact Hi|exact K1].
    apply (NZ (nth o (snd e) 0)); [apply nth_In; lia|exact K]. }
  assert (Hrange : forall j, j < length cols -> forall x, In x (entry cols i j) -> x < length (sdp_lexorder sc)).
  { intros j Hj x Hx. unfold entry in Hx. apply in_app_or in Hx as [Hx|Hx].
    - apply in_rev in Hx. eapply (gcol_range _ _ _ _ GC); [apply nth_In, Hi|exact Hx].
    - eapply (gcol_range _ _ _ _ GC); [apply nth_In, Hj|exact Hx]. }
  destruct (measurement_nth _ _ _ _ _ Ms) as [Lg Ng].
  assert (LAB : forall o o', o < length g -> o' < length g -> label_is (p + 1, s, o) (nth o' g 0) = (o' =? o)).
  { intros o o' Ho Ho'. unfold label_is. rewrite (Ng o' Ho'), mkrow_party, mkrow_setting, mkrow_outcome. cbn [fst snd].
    rewrite !Nat.eqb_refl. cbn [andb].
    assert (nth o' g 0 <> 0).
    { intros K. apply (measurement_nz _ _ _ _ _ Ms). rewrite <- K. apply nth_In, Ho'. }
    destruct (Nat.eqb_spec (nth o' g 0) 0); [contradiction|reflexivity]. }
  assert (OP : forall o o', o < length g -> o' < length g -> o <> o' -> orthoP ortho (nth o g 0) (nth o' g 0)).
  { intros o o' Ho Ho' Hne. eapply measurement_ortho; [exact Ms|apply nth_In, Ho|apply nth_In, Ho'|].
    intros K. apply Hne. pose proof (measurement_nodup _ _ _ _ _ Ms) as ND. exact (proj1 (NoDup_nth g 0) ND o o' Ho Ho' K). }
  split.
  - apply (NoDup_nth _ 0). rewrite map_length. intros o o' Ho Ho' K.
    assert (NTH : forall o, o < length (snd e) -> nth o (map (M' i) (snd e)) 0 = M' i (nth o (snd e) 0)).
    { intros x Hx. rewrite (nth_indep _ 0 (M' i 0)) by (rewrite map_length; exact Hx). apply map_nth. }
    rewrite !NTH in K by assumption. destruct (Nat.eq_dec o o') as [->|Hne]; [reflexivity|exfalso].
    rewrite <- Hl in Ho, Ho'.
    destruct (Hent _ _ (Hcomb o Ho)) as [K1 K2]. destruct (Hent _ _ (Hcomb o' Ho')) as [K1' K2'].
    apply EQM in K; [|try assumption..]; [|apply NZ, nth_In; lia|apply NZ, nth_In; lia].
    destruct K as (gs & Hgs & _ & SM).
    rewrite K2' in SM. apply (same_moment_rc (p + 1, s, o)) in SM; [|apply Hwz, Ho'].
    rewrite rc_sym in SM; [|exact Hgs|apply Hrange, K1]. rewrite K2 in SM. unfold w in SM.
    rewrite (rc_replace nc ortho G (nth o g 0) (nth o' g 0) (OP o o' Ho Ho' Hne) (label_is (p + 1, s, o)) v [] _) in SM.
    + lia.
    + rewrite LAB by assumption. apply Nat.eqb_refl.
    + rewrite LAB by assumption. apply Nat.eqb_neq. congruence.
    + apply (Hwz o Ho).
    + apply (Hwz o' Ho').
  - intros H2 K. apply in_map_iff in K as (j & K & Hj).
    destruct (In_nth _ _ 0 Hj) as (o & Ho & Eo). subst j. rewrite <- Hl in Ho.
    destruct (Hent _ _ (Hcomb o Ho)) as [K1 K2].
    assert (NZj := NZ _ Hj). assert (NZn : M' i (fst e) <> 0) by congruence.
    symmetry in K. apply EQM in K; try assumption.
    destruct K as (gs & Hgs & _ & SM). rewrite K2 in SM. apply (same_moment_rc (p + 1, s, o)) in SM; [|apply Hwz, Ho].
    rewrite rc_sym in SM; [|exact Hgs|apply Hrange, A]. unfold entry in SM. rewrite B in SM. unfold w in SM. rewrite app_assoc in SM.
    assert (Ho' : exists o', o' < length g /\ o <> o') by (destruct o; [exists 1|exists 0]; lia).
    destruct Ho' as (o' & Ho' & Hne).
    pose proof (rc_remove nc ortho G (nth o g 0) (nth o' g 0) (OP o o' Ho Ho' Hne) (label_is (p + 1, s, o)) v [] (rev (nth i cols []) ++ u)) as R.
    assert (rc nc (label_is (p + 1, s, o)) ((rev (nth i cols []) ++ u) ++ v) < rc nc (label_is (p + 1, s, o)) ((rev (nth i cols []) ++ u) ++ nth o g 0 :: v)).
    { apply R; [rewrite LAB by assumption; apply Nat.eqb_refl|]. apply (Hwz o' Ho'). }
    lia.
Qed.

(** ** an assignment of values to indices exists for every symmetric moment functional *)
Lemma assignment_exists commuting cols M' orbits corresp val :
  (commuting = true -> forall a b, nc a b = false) ->
  good_columns nc ortho (S (length (lexorder sc))) cols ->
  symmetrized_moment_matrix nc ortho commuting cols (sdp_lexorder_symmetries sc) = Some (M', orbits, corresp) ->
  moment_functional nc ortho val -> symmetric_functional sc (sdp_lexorder_symmetries sc) val ->
  exists mval, mval 0 = 0%Qc /\ forall i j, i < length cols -> j < length cols -> mval (M' i j) = val (entry cols i j).
Proof.
  intros Hc GC ES (V1 & V2 & V3) VS.
  destruct (ColumnProofs2.symmetrized_correct nc ortho commuting (S (length (lexorder sc))) (sdp_lexorder_symmetries sc) cols G Hc (scenario_symmetries sc W) GC)
    as (M0 & orb0 & cor0 & E0 & Z & EQM & _ & REP & _).
  rewrite ES in E0. injection E0 as <- <- <-.
  exists (fun k => match k with 0 => 0%Qc | _ => match assoc corresp k with Some w => val w | None => 0%Qc end end).
  split; [reflexivity|]. intros i j Hi Hj. destruct (M' i j) as [|k] eqn:E.
  - apply Z in E; [|assumption..]. rewrite (V1 _ _ E), V2. reflexivity.
  - destruct (REP i j Hi Hj) as (w & g & Hw & Hg & _ & SM); [congruence|]. rewrite <- E, Hw.
    rewrite <- (VS g (entry cols i j) Hg).
    + destruct SM as [SM|SM]; [symmetry; apply V1, SM|]. rewrite <- (V3 w). symmetry. apply V1, SM.
    + intros x Hx. unfold entry in Hx. apply in_app_or in Hx as [Hx|Hx].
      * apply in_rev in Hx. eapply (gcol_range _ _ _ _ GC); [apply nth_In, Hi|exact Hx].
      * eapply (gcol_range _ _ _ _ GC); [apply nth_In, Hj|exact Hx].
Qed.

(** ** the deterministic assignment *)
Lemma forallb_perm {A} (f : A -> bool) l l' : Permutation l l' -> forallb f l = forallb f l'.
Proof. induction 1; cbn; try congruence. rewrite !andb_assoc, (andb_comm (f y)). reflexivity. Qed.
Lemma det_functional : moment_functional nc ortho (det_zero sc).
Proof.
  assert (Z0 : det_zero sc [0] = 0%Qc) by reflexivity.
  split; [|split; [exact Z0|]].
  - intros w w' H. unfold det_zero. f_equal. cut (forallb (outcome_zero sc) w = forallb (outcome_zero sc) w'); [intros ->; reflexivity|].
    induction H as [w|w1 w2 _ IH|w1 w2 w3 _ IH1 _ IH2|u a b v Hc|u a v|u a b v Ho|u v].
    + reflexivity.
    + congruence.
    + congruence.
    + apply forallb_perm. apply Permutation_app_head, perm_swap.
    + rewrite !forallb_app. cbn. destruct (outcome_zero sc a); reflexivity.
    + rewrite forallb_app. cbn [forallb]. replace (forallb (outcome_zero sc) [0]) with false by reflexivity.
      assert (outcome_zero sc a && outcome_zero sc b = false).
      { destruct (outcome_zero sc a) eqn:Ea, (outcome_zero sc b) eqn:Eb; try reflexivity. exfalso. unfold outcome_zero in Ea, Eb.
        destruct (nth_error (sdp_lexorder sc) a) as [ra|] eqn:Na; [|discriminate]. destruct (nth_error (sdp_lexorder sc) b) as [rb|] eqn:Nb; [|discriminate].
        apply andb_prop in Ea as [A1 A2], Eb as [B1 B2]. apply negb_true_iff, Nat.eqb_neq in A1, B1. apply Nat.eqb_eq in A2, B2.
        destruct a as [|a]; [congruence|]. destruct b as [|b]; [congruence|].
        apply sdp_ortho_S in Ho as (ra' & rb' & H1 & H2 & _ & H4 & _). rewrite sdp_nth in Na, Nb. congruence. }
      destruct (outcome_zero sc a), (outcome_zero sc b); try discriminate; cbn; rewrite ?andb_false_r; reflexivity.
    + rewrite forallb_app. cbn [forallb]. replace (outcome_zero sc 0) with false by reflexivity. cbn. apply andb_false_r.
  - intros w. unfold det_zero. f_equal. rewrite (forallb_perm _ (rev w) w); [reflexivity|]. apply Permutation_sym, Permutation_rev.
Qed.
Lemma det_normalised : normalised sc (det_zero sc).
Proof.
  intros p c s g u v Ms. destruct (measurement_nth _ _ _ _ _ Ms) as [L N].
  assert (Hl : 0 < length g) by (destruct g; [destruct Ms; congruence|cbn; lia]).
  assert (OZ : forall o, o < length g -> outcome_zero sc (nth o g 0) = (o =? 0)).
  { intros o Ho. unfold outcome_zero. rewrite (N o Ho), mkrow_outcome.
    destruct (Nat.eqb_spec (nth o g 0) 0) as [K|K]; [|reflexivity]. exfalso. apply (measurement_nz _ _ _ _ _ Ms). rewrite <- K. apply nth_In, Ho. }
  rewrite (sumQ_single Nat.eq_dec g (nth 0 g 0)).
  - unfold det_zero. rewrite !forallb_app. cbn [forallb]. rewrite (OZ 0 Hl). reflexivity.
  - eapply measurement_nodup; eassumption.
  - apply nth_In, Hl.
  - intros a Ha Hne. destruct (In_nth g a 0 Ha) as (o & Ho & <-). unfold det_zero. rewrite forallb_app. cbn [forallb].
    rewrite (OZ o Ho). destruct o; [congruence|]. cbn. rewrite andb_false_r. reflexivity.
Qed.
Lemma det_symmetric : symmetric_functional sc (sdp_lexorder_symmetries sc) (det_zero sc).
Proof.
  intros g w Hg Hw. unfold det_zero, apply_lexsym. f_equal.
  replace (forallb (outcome_zero sc) (map (fun x => nth x g 0) w)) with (forallb (outcome_zero sc) w); [reflexivity|].
  induction w as [|x w IH]; [reflexivity|]. cbn [map forallb].
  rewrite <- IH by (intros y Hy; apply Hw; right; exact Hy). f_equal.
  apply in_map_iff in Hg as (g0 & <- & Hg). apply (discover_exact sc g0 W) in Hg as (sg & R & I).
  specialize (Hw x (or_introl eq_refl)). destruct x as [|x]; [reflexivity|]. cbn [sdp_lexorder length] in Hw.
  assert (Hx' : x < length (lexorder sc)) by lia. rewrite nth_pad.
  replace (x <? length g0) with true by (symmetry; apply Nat.ltb_lt; rewrite (proj1 I); exact Hx').
  destruct (lexorder_parts sc x W Hx') as (p & c & s & o & E & V).
  pose proof (induces_nth _ _ _ _ _ _ _ _ I E) as E2.
  unfold outcome_zero. rewrite !sdp_nth, E, E2, !mkrow_outcome. reflexivity.
Qed.
End Scenario.

(** ** the dictionary *)
Import ProgramModel ProgramProofs.
Section Dict.
Context {K V : Type} (eqd : forall x y : K, {x = y} + {x <> y}).
Lemma set_fresh k (v : V) d : ~ In k (keys d) -> set eqd k v d = d ++ [(k, v)].
Proof.
  induction d as [|[k' v'] d IH]; cbn; [reflexivity|]. intros H. destruct (eqd k k') as [->|Hne]; [tauto|].
  rewrite IH; [reflexivity|tauto].
Qed.
Lemma update_fresh (e d : list (K * V)) : NoDup (keys d ++ keys e) -> update eqd d e = d ++ e.
Proof.
  revert d. induction e as [|[k v] e IH]; intros d H; cbn; [rewrite app_nil_r; reflexivity|].
  cbn in H. rewrite set_fresh.
  - change (fold_left _ e (d ++ [(k, v)])) with (update eqd (d ++ [(k, v)]) e). rewrite IH.
    + rewrite <- app_assoc. reflexivity.
    + unfold keys in *. rewrite map_app, <- app_assoc. exact H.
  - intros Hin. apply NoDup_remove_2 in H. apply H. apply in_or_app. left; exact Hin.
Qed.
End Dict.
Lemma eq_dict_exact comp k s : 2 <= length s -> NoDup (comp k :: map comp s) ->
  eq_dict comp (k, s) = Some ((comp k, 1%Qc) :: map (fun x => (comp x, (-(1))%Qc)) s).
Proof.
  intros L ND. unfold eq_dict. cbn [fst snd]. destruct (Nat.ltb_spec (length s) 2); [lia|]. f_equal.
  cbn [set]. rewrite update_fresh; [reflexivity|]. cbn [keys map app]. unfold keys. rewrite map_map. exact ND.
Qed.
