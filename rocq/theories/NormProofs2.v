(** Proofs about normalisation equalities, part 2: the column equalities, the measurements of a
    scenario and the equalities between indices. *)
From Coq Require Import Permutation QArith Qcanon.
Close Scope Qc_scope. Close Scope Q_scope.
From Verif Require Import CanonModel CanonSpec CanonProofs CanonProofs2 MomentModel MomentSpec MomentProofs
  ScenarioModel ScenarioSpec ScenarioProofs MargModel QcSum NormModel NormSpec NormProofs.

Lemma Forall2_in_r {A B} (R : A -> B -> Prop) l l' y : Forall2 R l l' -> In y l' -> exists x, In x l /\ R x y.
Proof.
  induction 1 as [|x z l l' H _ IH]; [intros []|]. intros [<-|Hy]; [exists x; split; [left; reflexivity|exact H]|].
  destruct (IH Hy) as (x' & H1 & H2). exists x'. split; [right; exact H1|exact H2].
Qed.
Lemma Forall2_in_l {A B} (R : A -> B -> Prop) l l' x : Forall2 R l l' -> In x l -> exists y, In y l' /\ R x y.
Proof.
  induction 1 as [|z y l l' H _ IH]; [intros []|]. intros [<-|Hx]; [exists y; split; [left; reflexivity|exact H]|].
  destruct (IH Hx) as (y' & H1 & H2). exists y'. split; [right; exact H1|exact H2].
Qed.

(** ** equations of one column *)
Lemma column_eqs_sound mask og w : forall pre eqs l r, column_eqs mask og pre w = Some eqs -> In (l, r) eqs ->
  exists u op v g, w = u ++ op :: v /\ mask op = true /\ og op = Some g /\
    l = pre ++ u ++ v /\ r = map (fun a => pre ++ u ++ a :: v) g.
Proof.
  induction w as [|x w IH]; intros pre eqs l r E Hin; cbn [column_eqs] in E; [injection E as <-; destruct Hin|].
  destruct (column_eqs mask og (pre ++ [x]) w) as [rest|] eqn:Er; [|discriminate].
  assert (R : In (l, r) rest -> exists u op v g, x :: w = u ++ op :: v /\ mask op = true /\ og op = Some g /\
    l = pre ++ u ++ v /\ r = map (fun a => pre ++ u ++ a :: v) g).
  { intros H. destruct (IH _ _ _ _ Er H) as (u & op & v & g & -> & H1 & H2 & -> & ->).
    exists (x :: u), op, v, g. rewrite <- !app_assoc. repeat split; auto.
    apply map_ext. intros a. rewrite <- app_assoc. reflexivity. }
  destruct (mask x) eqn:Mx; [|injection E as <-; auto].
  destruct (og x) as [g|] eqn:Og; [|discriminate]. injection E as <-. destruct Hin as [Hin|Hin]; [|auto].
  injection Hin as <- <-. exists [], x, w, g. auto.
Qed.
Lemma column_eqs_complete mask og w : forall pre eqs u op v, column_eqs mask og pre w = Some eqs ->
  w = u ++ op :: v -> mask op = true ->
  exists g, og op = Some g /\ In (pre ++ u ++ v, map (fun a => pre ++ u ++ a :: v) g) eqs.
Proof.
  induction w as [|x w IH]; intros pre eqs u op v E Ew M; [destruct u; discriminate|].
  cbn [column_eqs] in E. destruct (column_eqs mask og (pre ++ [x]) w) as [rest|] eqn:Er; [|discriminate].
  destruct u as [|y u]; cbn [app] in Ew.
  - injection Ew as -> ->. rewrite M in E. destruct (og op) as [g|]; [|discriminate]. injection E as <-.
    exists g. split; [reflexivity|left; reflexivity].
  - injection Ew as -> ->. destruct (IH _ _ u op v Er eq_refl M) as (g & Hg & Hin).
    exists g. split; [exact Hg|].
    assert (In (pre ++ (y :: u) ++ v, map (fun a => pre ++ (y :: u) ++ a :: v) g) rest).
    { replace (pre ++ (y :: u) ++ v) with ((pre ++ [y]) ++ u ++ v) by (rewrite <- app_assoc; reflexivity).
      replace (map (fun a => pre ++ (y :: u) ++ a :: v) g) with (map (fun a => (pre ++ [y]) ++ u ++ a :: v) g); [exact Hin|].
      apply map_ext. intros a. rewrite <- app_assoc. reflexivity. }
    destruct (mask y); [destruct (og y); [injection E as <-; right; assumption|discriminate]|injection E as <-; assumption].
Qed.
Lemma column_eqs_total mask og w : (forall op, In op w -> mask op = true -> exists g, og op = Some g) ->
  forall pre, exists eqs, column_eqs mask og pre w = Some eqs.
Proof.
  induction w as [|x w IH]; intros H pre; cbn [column_eqs]; [eauto|].
  destruct (IH (fun op Ho => H op (or_intror Ho)) (pre ++ [x])) as (rest & ->).
  destruct (mask x) eqn:M; [|eauto]. destruct (H x (or_introl eq_refl) M) as (g & ->). eauto.
Qed.

Lemma lookup_eqs_in cols eqs : forall i js, In (i, js) (lookup_eqs cols eqs) ->
  exists l r, In (l, r) eqs /\ genmon_index cols l = Some i /\ map_opt (genmon_index cols) r = Some js.
Proof.
  induction eqs as [|[l r] eqs IH]; intros i js H; cbn [lookup_eqs] in H; [destruct H|].
  destruct (genmon_index cols l) as [k|] eqn:E1; [|destruct H].
  destruct (map_opt (genmon_index cols) r) as [ks|] eqn:E2; [|destruct H].
  destruct H as [H|H].
  - injection H as <- <-. exists l, r. split; [left; reflexivity|auto].
  - destruct (IH _ _ H) as (l' & r' & H1 & H2). exists l', r'. split; [right; exact H1|exact H2].
Qed.
Lemma lookup_eqs_all cols eqs :
  (forall l r, In (l, r) eqs -> genmon_index cols l <> None /\ map_opt (genmon_index cols) r <> None) ->
  forall l r, In (l, r) eqs -> exists i js, genmon_index cols l = Some i /\ map_opt (genmon_index cols) r = Some js /\
    In (i, js) (lookup_eqs cols eqs).
Proof.
  induction eqs as [|[l0 r0] eqs IH]; intros H l r Hin; [destruct Hin|].
  destruct (H l0 r0 (or_introl eq_refl)) as [H1 H2]. cbn [lookup_eqs].
  destruct (genmon_index cols l0) as [k|] eqn:E1; [|exfalso; exact (H1 eq_refl)].
  destruct (map_opt (genmon_index cols) r0) as [ks|] eqn:E2; [|exfalso; exact (H2 eq_refl)].
  destruct Hin as [Hin|Hin].
  - injection Hin as <- <-. exists k, ks. split; [exact E1|]. split; [exact E2|left; reflexivity].
  - destruct (IH (fun l r Hl => H l r (or_intror Hl)) l r Hin) as (i & js & A & B & C).
    exists i, js. split; [exact A|]. split; [exact B|right; exact C].
Qed.

Lemma genmon_nth cols w i : genmon_index cols w = Some i -> i < length cols /\ nth i cols [] = w.
Proof.
  intros H. apply lookup_last_some in H as [_ H]. rewrite Nat.sub_0_r in H.
  split; [apply nth_error_Some; intros X; pose proof (eq_trans (eq_sym H) X); discriminate|apply nth_error_nth, H].
Qed.
Lemma genmon_some cols w : In w cols -> genmon_index cols w <> None.
Proof. intros H E. apply lookup_last_none in E. contradiction. Qed.
Lemma map_opt_some_all {A B} (f : A -> option B) l : (forall x, In x l -> f x <> None) -> map_opt f l <> None.
Proof. intros H E. apply map_opt_none in E as (x & Hx & E). exact (H x Hx E). Qed.

(** what is found: column [i] and columns [js] are u v and u a v for the operators a of a group *)
Definition column_equality (mask : nat -> bool) (og : nat -> option (list nat)) (cols : list word) (e : nat * list nat) : Prop :=
  exists u op v g, In (u ++ op :: v) cols /\ mask op = true /\ og op = Some g /\
    fst e < length cols /\ nth (fst e) cols [] = u ++ v /\
    Forall2 (fun a j => j < length cols /\ nth j cols [] = u ++ a :: v) g (snd e).

Lemma discover_sound mask og cols eqs e : discover_columns mask og cols = Some eqs -> In e eqs ->
  column_equality mask og cols e.
Proof.
  unfold discover_columns. intros H Hin.
  destruct (map_opt _ cols) as [l|] eqn:E; [|discriminate]. injection H as <-.
  apply map_opt_some in E. apply in_concat in Hin as (x & Hx & Hin).
  destruct (Forall2_in_r _ _ _ _ E Hx) as (w & Hw & K).
  destruct (column_eqs mask og [] w) as [ce|] eqn:Ec; [|discriminate]. injection K as <-.
  destruct e as [i js]. destruct (lookup_eqs_in _ _ _ _ Hin) as (lw & rw & H1 & H2 & H3).
  destruct (column_eqs_sound _ _ _ _ _ _ _ Ec H1) as (u & op & v & g & -> & M & Og & -> & ->).
  exists u, op, v, g. cbn [app fst snd] in *. repeat split; try assumption; try (apply genmon_nth in H2; tauto).
  apply map_opt_some in H3. clear -H3. revert js H3. induction g as [|a g IH]; intros js H; inversion H; subst; constructor.
  - apply genmon_nth. assumption.
  - apply IH. assumption.
Qed.

Lemma discover_total mask og cols : (forall w op, In w cols -> In op w -> mask op = true -> exists g, og op = Some g) ->
  exists eqs, discover_columns mask og cols = Some eqs.
Proof.
  intros H. unfold discover_columns. match goal with |- context [map_opt ?f cols] => destruct (map_opt f cols) as [l|] eqn:E end; [eauto|exfalso].
  apply map_opt_none in E as (w & Hw & E). destruct (column_eqs_total mask og w (fun op => H w op Hw) []) as (e & Ee).
  rewrite Ee in E. discriminate.
Qed.

(** if every word needed for a column is a column, nothing is missed *)
Lemma discover_complete mask og cols eqs u op v g : discover_columns mask og cols = Some eqs ->
  In (u ++ op :: v) cols -> mask op = true -> og op = Some g ->
  (forall u' op' v' g', u' ++ op' :: v' = u ++ op :: v -> mask op' = true -> og op' = Some g' ->
     In (u' ++ v') cols /\ forall a, In a g' -> In (u' ++ a :: v') cols) ->
  exists i js, In (i, js) eqs /\ i < length cols /\ nth i cols [] = u ++ v /\
    Forall2 (fun a j => j < length cols /\ nth j cols [] = u ++ a :: v) g js.
Proof.
  unfold discover_columns. intros H Hw M Og Hall.
  destruct (map_opt _ cols) as [l|] eqn:E; [|discriminate]. injection H as <-.
  apply map_opt_some in E.
  destruct (Forall2_in_l _ _ _ _ E Hw) as (x & Hx & K).
  destruct (column_eqs mask og [] (u ++ op :: v)) as [ce|] eqn:Ec; [|discriminate].
  injection K as <-. destruct (column_eqs_complete _ _ _ _ _ u op v Ec eq_refl M) as (g' & Og' & Hin).
  rewrite Og in Og'. injection Og' as <-. cbn [app] in Hin.
  destruct (lookup_eqs_all cols ce) with (l := u ++ v) (r := map (fun a => u ++ a :: v) g) as (i & js & A & B & C).
  - intros l0 r0 H0. destruct (column_eqs_sound _ _ _ _ _ _ _ Ec H0) as (u' & op' & v' & g' & E1 & M' & Og' & -> & ->).
    cbn [app]. destruct (Hall u' op' v' g' (eq_sym E1) M' Og') as [H1 H2].
    split; [apply genmon_some, H1|]. apply map_opt_some_all. intros y Hy. apply in_map_iff in Hy as (a & <- & Ha).
    apply genmon_some, H2, Ha.
  - exact Hin.
  - exists i, js. split; [apply in_concat; eauto|]. apply genmon_nth in A as [A1 A2]. repeat split; auto.
    apply map_opt_some in B. clear -B. revert js B. induction g as [|a g IH]; intros js H; inversion H; subst; constructor.
    + apply genmon_nth. assumption.
    + apply IH. assumption.
Qed.

(** ** measurements *)
Section Scenario.
Variable sc : scenario.
Hypothesis W : wf_scenario sc.
Hypothesis Hpos : forall n, In n (outcomes sc) -> 1 <= n.

Lemma sdp_NoDup : NoDup (sdp_lexorder sc).
Proof.
  constructor; [|apply lexorder_NoDup, W]. intros H. apply (lexorder_in sc _ W) in H as (p & c & s & o & E & _).
  unfold zero_row, mkrow in E. cbn in E. injection E as E _. lia.
Qed.
Lemma sdp_lookup_nth k r : nth_error (sdp_lexorder sc) k = Some r <-> sdp_lookup sc r = Some k.
Proof.
  unfold sdp_lookup. split.
  - intros H. destruct (lookup_last 0 (sdp_lexorder sc) r) as [k'|] eqn:E.
    + apply lookup_last_some in E as [_ E]. rewrite Nat.sub_0_r in E. f_equal.
      apply (proj1 (NoDup_nth_error (sdp_lexorder sc)) sdp_NoDup).
      * apply nth_error_Some. congruence.
      * congruence.
    + apply lookup_last_none in E. exfalso; apply E. eapply nth_error_In, H.
  - intros H. apply lookup_last_some in H as [_ H]. rewrite Nat.sub_0_r in H. exact H.
Qed.

Definition group_rows (p : nat) (c : list nat) (s : nat) : list row :=
  map (fun o => mkrow (p + 1) c s o) (seq 0 (nth p (outcomes sc) 0)).
Definition valid_measurement (p : nat) (c : list nat) (s : nat) : Prop :=
  p < nr_parties sc /\ In c (inflation_indices sc p) /\ s < nr_settings sc p.

Lemma ortho_groups_in grp : In grp (ortho_groups sc) <-> exists p c s, grp = group_rows p c s /\ valid_measurement p c s.
Proof.
  unfold ortho_groups. rewrite in_flat_map. split.
  - intros (p & Hp & H). apply in_flat_map in H as (c & Hc & H). apply in_map_iff in H as (s & <- & Hs).
    apply in_seq in Hp, Hs. exists p, c, s. split; [reflexivity|]. repeat split; auto; lia.
  - intros (p & c & s & -> & Hp & Hc & Hs). exists p. split; [apply in_seq; lia|].
    apply in_flat_map. exists c. split; [exact Hc|]. apply in_map_iff. exists s. split; [reflexivity|apply in_seq; lia].
Qed.
Lemma group_rows_in p c s r : valid_measurement p c s -> In r (group_rows p c s) -> In r (lexorder sc).
Proof.
  intros V H. unfold lexorder. apply in_concat. exists (group_rows p c s). split; [|exact H].
  apply ortho_groups_in. eauto.
Qed.
Lemma outcomes_pos p : p < nr_parties sc -> 1 <= nth p (outcomes sc) 0.
Proof. intros H. apply Hpos, nth_In, H. Qed.
Lemma group_rows_last p c s : p < nr_parties sc ->
  exists t, rev (group_rows p c s) = mkrow (p + 1) c s (nth p (outcomes sc) 0 - 1) :: t.
Proof.
  intros H. pose proof (outcomes_pos p H). unfold group_rows. destruct (nth p (outcomes sc) 0) as [|n]; [lia|].
  rewrite seq_S, map_app, rev_app_distr. cbn. rewrite Nat.sub_0_r. eauto.
Qed.

Lemma group_lookup p c s : valid_measurement p c s -> exists g, map_opt (sdp_lookup sc) (group_rows p c s) = Some g /\
  is_measurement sc p c s g.
Proof.
  intros V. destruct (map_opt (sdp_lookup sc) (group_rows p c s)) as [g|] eqn:E.
  - exists g. split; [reflexivity|]. apply map_opt_some in E.
    assert (E2 : map (nth_error (sdp_lexorder sc)) g = map Some (group_rows p c s)).
    { clear V. induction E as [|r k rs ks Hk _ IH]; [reflexivity|]. cbn. rewrite IH. f_equal. apply sdp_lookup_nth, Hk. }
    split; [rewrite E2; unfold group_rows; rewrite map_map; reflexivity|].
    intros ->. destruct (group_rows_last p c s (proj1 V)) as (t & Et). inversion E as [Hn|].
    rewrite <- Hn in Et. discriminate.
  - exfalso. apply map_opt_none in E as (r & Hr & E).
    apply lookup_last_none in E. apply E. right. apply (group_rows_in _ _ _ _ V Hr).
Qed.

Lemma measurement_nth p c s g : is_measurement sc p c s g ->
  length g = nth p (outcomes sc) 0 /\
  forall o, o < length g -> nth_error (sdp_lexorder sc) (nth o g 0) = Some (mkrow (p + 1) c s o).
Proof.
  intros [E _]. assert (L : length g = nth p (outcomes sc) 0).
  { apply (f_equal (@length _)) in E. rewrite !map_length, seq_length in E. exact E. }
  split; [exact L|]. intros o Ho.
  pose proof (f_equal (fun l => nth o l None) E) as E2. cbn in E2.
  rewrite (nth_indep _ None (nth_error (sdp_lexorder sc) 0)) in E2 by (rewrite map_length; exact Ho).
  rewrite map_nth in E2. rewrite E2.
  rewrite (nth_indep _ None (Some (mkrow (p + 1) c s 0))) by (rewrite map_length, seq_length; lia).
  rewrite (map_nth (fun o => Some (mkrow (p + 1) c s o))), seq_nth by lia. reflexivity.
Qed.
Lemma measurement_in p c s g a : is_measurement sc p c s g -> In a g ->
  exists o, o < nth p (outcomes sc) 0 /\ nth_error (sdp_lexorder sc) a = Some (mkrow (p + 1) c s o) /\ nth o g 0 = a.
Proof.
  intros H Ha. destruct (measurement_nth _ _ _ _ H) as [L N].
  destruct (In_nth g a 0 Ha) as (o & Ho & <-). exists o. rewrite <- L. auto.
Qed.
Lemma measurement_nz p c s g : is_measurement sc p c s g -> ~ In 0 g.
Proof.
  intros H Hi. destruct (measurement_in _ _ _ _ _ H Hi) as (o & _ & E & _).
  apply (f_equal (fun o => match o with Some r => row_party r | None => 0 end)) in E. rewrite mkrow_party in E. cbn in E. lia.
Qed.
Lemma measurement_nodup p c s g : is_measurement sc p c s g -> NoDup g.
Proof.
  intros H. destruct (measurement_nth _ _ _ _ H) as [L N]. apply (NoDup_nth g 0). intros i j Hi Hj E.
  pose proof (N i Hi) as A. pose proof (N j Hj) as B. rewrite E, B in A.
  apply (f_equal (fun o => match o with Some r => row_outcome r | None => 0 end)) in A. rewrite !mkrow_outcome in A. congruence.
Qed.
Lemma measurement_ortho p c s g a b : is_measurement sc p c s g -> In a g -> In b g -> a <> b ->
  orthoP (sdp_orthomat sc) a b.
Proof.
  intros H Ha Hb Hne. pose proof (measurement_nz _ _ _ _ H) as NZ.
  destruct (measurement_in _ _ _ _ _ H Ha) as (o & _ & Ea & Na). destruct (measurement_in _ _ _ _ _ H Hb) as (o' & _ & Eb & Nb).
  assert (a <> 0) by (intros ->; contradiction). assert (b <> 0) by (intros ->; contradiction).
  split; [assumption|]. split; [assumption|]. destruct a as [|a]; [congruence|]. destruct b as [|b]; [congruence|].
  apply sdp_ortho_S. rewrite sdp_nth in Ea, Eb. exists (mkrow (p + 1) c s o), (mkrow (p + 1) c s o').
  rewrite !mkrow_outcome, !mkrow_removelast. repeat split; auto; try congruence.
Qed.
Lemma measurement_closed p c s g a b : is_measurement sc p c s g -> In a g -> orthoP (sdp_orthomat sc) a b -> In b g.
Proof.
  intros H Ha (A0 & B0 & Ho). destruct (measurement_in _ _ _ _ _ H Ha) as (o & _ & Ea & Na).
  destruct a as [|a]; [congruence|]. destruct b as [|b]; [congruence|].
  apply sdp_ortho_S in Ho as (ra & rb & H1 & H2 & H3 & H4 & H5). rewrite sdp_nth in Ea.
  rewrite Ea in H1. injection H1 as <-.
  destruct (lexorder_nth sc b rb W H2) as (p' & c' & s' & o' & -> & V). rewrite !mkrow_removelast in H5.
  assert (E : mkrow (p + 1) c s o' = mkrow (p' + 1) c' s' o') by (rewrite !mkrow_snoc, H5; reflexivity).
  apply mkrow_inj in E as (E1 & -> & -> & _). assert (p' = p) as -> by lia.
  destruct (measurement_nth _ _ _ _ H) as [L N]. assert (Ho' : o' < length g) by (rewrite L; apply V).
  replace (S b) with (nth o' g 0); [apply nth_In, Ho'|].
  apply (proj1 (NoDup_nth_error (sdp_lexorder sc)) sdp_NoDup).
  - apply nth_error_Some. rewrite (N o' Ho'). discriminate.
  - rewrite (N o' Ho'), sdp_nth, H2. reflexivity.
Qed.

(** ** the dictionary from last outcomes to measurements *)
Lemma orthogroup_item_spec grp : In grp (ortho_groups sc) -> exists k g p c s, orthogroup_item sc grp = Some (k, g) /\
  grp = group_rows p c s /\ valid_measurement p c s /\ is_measurement sc p c s g /\
  nth_error (sdp_lexorder sc) k = Some (mkrow (p + 1) c s (nth p (outcomes sc) 0 - 1)).
Proof.
  intros H. apply ortho_groups_in in H as (p & c & s & -> & V).
  destruct (group_lookup p c s V) as (g & E & M). destruct (group_rows_last p c s (proj1 V)) as (t & Et).
  unfold orthogroup_item. rewrite Et, E.
  assert (Hin : In (mkrow (p + 1) c s (nth p (outcomes sc) 0 - 1)) (group_rows p c s)) by (apply in_rev; rewrite Et; left; reflexivity).
  destruct (sdp_lookup sc (mkrow (p + 1) c s (nth p (outcomes sc) 0 - 1))) as [k|] eqn:Ek.
  - exists k, g, p, c, s. repeat split; auto; try apply M; try apply V. apply sdp_lookup_nth, Ek.
  - exfalso. apply lookup_last_none in Ek. apply Ek. right. eapply group_rows_in; eassumption.
Qed.
Lemma assoc_in {A} (d : list (nat * A)) k v : assoc d k = Some v -> In (k, v) d.
Proof.
  induction d as [|[k' v'] d IH]; cbn; [discriminate|]. destruct (Nat.eqb_spec k' k) as [->|]; [|auto].
  intros [= ->]. left; reflexivity.
Qed.
Lemma assoc_some {A} (d : list (nat * A)) k v : In (k, v) d -> exists v', assoc d k = Some v'.
Proof.
  induction d as [|[k' v'] d IH]; cbn; [intros []|]. intros [H|H].
  - injection H as -> ->. rewrite Nat.eqb_refl. eauto.
  - destruct (k' =? k); eauto.
Qed.

Lemma orthogroups : exists d, lexmon_to_orthogroup sc = Some d /\
  (forall op g, orthogroup_get d op = Some g -> exists p c s, is_measurement sc p c s g /\ valid_measurement p c s /\
     nth_error (sdp_lexorder sc) op = Some (mkrow (p + 1) c s (nth p (outcomes sc) 0 - 1))) /\
  (forall op p c s, valid_measurement p c s ->
     nth_error (sdp_lexorder sc) op = Some (mkrow (p + 1) c s (nth p (outcomes sc) 0 - 1)) ->
     exists g, orthogroup_get d op = Some g).
Proof.
  unfold lexmon_to_orthogroup. destruct (map_opt (orthogroup_item sc) (ortho_groups sc)) as [d|] eqn:E.
  2:{ exfalso. apply map_opt_none in E as (grp & Hg & E). destruct (orthogroup_item_spec grp Hg) as (k & g & p & c & s & E2 & _). congruence. }
  exists d. split; [reflexivity|]. apply map_opt_some in E.
  assert (E1 : forall k g, In (k, g) d -> exists grp, In grp (ortho_groups sc) /\ orthogroup_item sc grp = Some (k, g))
    by (intros k g H; exact (Forall2_in_r _ _ _ _ E H)).
  assert (E2 : forall grp k g, In grp (ortho_groups sc) -> orthogroup_item sc grp = Some (k, g) -> In (k, g) d).
  { intros grp k g H Hk. destruct (Forall2_in_l _ _ _ _ E H) as (y & Hy & Ey). congruence. }
  split.
  - intros op g H. apply assoc_in, in_rev in H. destruct (E1 _ _ H) as (grp & Hg & Eg).
    destruct (orthogroup_item_spec grp Hg) as (k & g' & p & c & s & Ek & _ & V & M & N). rewrite Eg in Ek. injection Ek as <- <-.
    exists p, c, s. auto.
  - intros op p c s V N. assert (Hg : In (group_rows p c s) (ortho_groups sc)) by (apply ortho_groups_in; eauto).
    destruct (orthogroup_item_spec _ Hg) as (k & g & p' & c' & s' & Ek & Er & V' & M & N').
    assert (k = op) as ->.
    { destruct (group_rows_last p c s (proj1 V)) as (t & Et). destruct (group_rows_last p' c' s' (proj1 V')) as (t' & Et').
      rewrite <- Er, Et in Et'. apply (f_equal (hd [])) in Et'. cbn [hd] in Et'.
      apply (proj1 (NoDup_nth_error (sdp_lexorder sc)) sdp_NoDup); [apply nth_error_Some; rewrite N'; discriminate|].
      rewrite N, N', Et'. reflexivity. }
    apply (assoc_some (rev d) op g). apply in_rev. rewrite rev_involutive. eapply E2; eassumption.
Qed.

(** the mask selects the last outcomes of parties with children *)
Lemma mask_spec hc op : last_outcome_mask sc hc op = true <->
  exists p c s, valid_measurement p c s /\ nth p hc false = true /\
    nth_error (sdp_lexorder sc) op = Some (mkrow (p + 1) c s (nth p (outcomes sc) 0 - 1)).
Proof.
  unfold last_outcome_mask. split.
  - destruct op as [|op]; [discriminate|]. rewrite sdp_nth. destruct (nth_error (lexorder sc) op) as [r|] eqn:E; [|discriminate].
    rewrite andb_true_iff, Nat.eqb_eq. destruct (lexorder_nth sc op r W E) as (p & c & s & o & -> & V).
    rewrite mkrow_party, mkrow_outcome. replace (p + 1 - 1) with p by lia. intros [H1 H2]. rewrite H1 in H2. cbn [b2n] in H2.
    exists p, c, s. destruct V as (V1 & V2 & V3 & V4 & V5). split; [repeat split; auto; apply inflation_indices_in; auto|].
    split; [exact H1|]. do 2 f_equal. lia.
  - intros (p & c & s & (V1 & V2 & V3) & H1 & H2). destruct op as [|op].
    { apply (f_equal (fun o => match o with Some r => row_party r | None => 0 end)) in H2. rewrite mkrow_party in H2. cbn in H2. lia. }
    rewrite H2, mkrow_party, mkrow_outcome. replace (p + 1 - 1) with p by lia. rewrite H1. cbn [b2n andb].
    apply Nat.eqb_eq. pose proof (outcomes_pos p V1). lia.
Qed.
End Scenario.

(** ** equalities between indices *)
Section Construct.
Variables (n : nat) (M : matrix).

Definition nz_row (e : nat * list nat) (i : nat) : bool := forallb (fun x => negb (x =? 0)) (map (M i) (snd e)).
Definition from (done : list ((nat * list nat) * nat)) (st : norm_state) : Prop :=
  fst st = map snd (snd st) /\ NoDup (fst st) /\
  (forall k s, In (k, s) (snd st) -> exists e i, In (e, i) done /\ nz_row e i = true /\
     k = M i (fst e) /\ s = np_sort (map (M i) (snd e))) /\
  (forall e i, In (e, i) done -> nz_row e i = true -> In (np_sort (map (M i) (snd e))) (fst st)).

Lemma seenb_in x l : seenb x l = true <-> In x l.
Proof.
  unfold seenb. rewrite existsb_exists. split.
  - intros (y & Hy & E). destruct (word_eqb_spec x y) as [->|]; [exact Hy|discriminate].
  - intros H. exists x. split; [exact H|]. destruct (word_eqb_spec x x); congruence.
Qed.

Lemma from_row done st e i : from done st -> from (done ++ [(e, i)]) (norm_row M e st i).
Proof.
  intros (H1 & H2 & H3 & H4). unfold norm_row. fold (nz_row e i).
  destruct (nz_row e i) eqn:Z.
  - destruct (seenb (np_sort (map (M i) (snd e))) (fst st)) eqn:S.
    + apply seenb_in in S. split; [exact H1|]. split; [exact H2|]. split.
      * intros k s H. destruct (H3 k s H) as (e' & i' & A & B). exists e', i'. split; [apply in_or_app; left; exact A|exact B].
      * intros e' i' H Z'. apply in_app_or in H as [H|[H|[]]]; [eauto|]. injection H as <- <-. exact S.
    + assert (S' : ~ In (np_sort (map (M i) (snd e))) (fst st)) by (rewrite <- seenb_in; congruence).
      unfold from. cbn [fst snd]. split; [rewrite map_app; cbn; rewrite H1; reflexivity|]. split.
      * apply NoDup_app_intro; [exact H2|constructor; [intros []|constructor]|]. intros x Hx [<-|[]]. contradiction.
      * split.
        -- intros k s H. apply in_app_or in H as [H|[H|[]]].
           ++ destruct (H3 k s H) as (e' & i' & A & B). exists e', i'. split; [apply in_or_app; left; exact A|exact B].
           ++ injection H as <- <-. exists e, i. split; [apply in_or_app; right; left; reflexivity|auto].
        -- intros e' i' H Z'. apply in_or_app. apply in_app_or in H as [H|[H|[]]]; [left; eauto|]. injection H as <- <-. right; left; reflexivity.
  - split; [exact H1|]. split; [exact H2|]. split.
    + intros k s H. destruct (H3 k s H) as (e' & i' & A & B). exists e', i'. split; [apply in_or_app; left; exact A|exact B].
    + intros e' i' H Z'. apply in_app_or in H as [H|[H|[]]]; [eauto|]. injection H as <- <-. congruence.
Qed.
Lemma from_eq e is : forall done st, from done st ->
  from (done ++ map (fun i => (e, i)) is) (fold_left (norm_row M e) is st).
Proof.
  induction is as [|i is IH]; intros done st H; cbn [fold_left map]; [rewrite app_nil_r; exact H|].
  replace (done ++ (e, i) :: map (fun i => (e, i)) is) with ((done ++ [(e, i)]) ++ map (fun i => (e, i)) is) by (rewrite <- app_assoc; reflexivity).
  apply IH, from_row, H.
Qed.
Lemma from_all eqs : forall done st, from done st ->
  from (done ++ flat_map (fun e => map (fun i => (e, i)) (seq 0 n)) eqs) (fold_left (norm_eq n M) eqs st).
Proof.
  induction eqs as [|e eqs IH]; intros done st H; cbn [fold_left flat_map]; [rewrite app_nil_r; exact H|].
  rewrite app_assoc. apply IH. apply from_eq, H.
Qed.
Lemma construct_spec eqs : let Q := construct_normalization_eqs n M eqs in
  NoDup (map snd Q) /\
  (forall k s, In (k, s) Q -> exists e i, In e eqs /\ i < n /\ (forall j, In j (snd e) -> M i j <> 0) /\
     k = M i (fst e) /\ s = np_sort (map (M i) (snd e))) /\
  (forall e i, In e eqs -> i < n -> (forall j, In j (snd e) -> M i j <> 0) ->
     exists k, In (k, np_sort (map (M i) (snd e))) Q).
Proof.
  intros Q. destruct (from_all eqs [] ([], [])) as (H1 & H2 & H3 & H4).
  { split; [reflexivity|]. split; [constructor|]. split; [intros k s []|intros e i []]. }
  cbn [app] in *. change (snd (fold_left (norm_eq n M) eqs ([], []))) with Q in *.
  assert (IN : forall e i, In (e, i) (flat_map (fun e => map (fun i => (e, i)) (seq 0 n)) eqs) <-> In e eqs /\ i < n).
  { intros e i. rewrite in_flat_map. split.
    - intros (e' & He & H). apply in_map_iff in H as (i' & E & Hi). injection E as -> ->. apply in_seq in Hi. split; [exact He|lia].
    - intros [He Hi]. exists e. split; [exact He|]. apply in_map. apply in_seq. lia. }
  assert (NZ : forall e i, nz_row e i = true <-> forall j, In j (snd e) -> M i j <> 0).
  { intros e i. unfold nz_row. rewrite forallb_forall. split.
    - intros H j Hj. specialize (H (M i j) (in_map _ _ _ Hj)). apply negb_true_iff, Nat.eqb_neq in H. exact H.
    - intros H x Hx. apply in_map_iff in Hx as (j & <- & Hj). apply negb_true_iff, Nat.eqb_neq, H, Hj. }
  split; [rewrite <- H1; exact H2|]. split.
  - intros k s H. destruct (H3 k s H) as (e & i & A & B & C & D). apply IN in A. exists e, i. rewrite <- NZ. tauto.
  - intros e i He Hi Hz. assert (K := H4 e i (proj2 (IN e i) (conj He Hi)) (proj2 (NZ e i) Hz)).
    rewrite H1 in K. apply in_map_iff in K as ([k s] & E & K). cbn in E. subst s. eauto.
Qed.
End Construct.
