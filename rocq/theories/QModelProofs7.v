(** Quantum models: products that are turned into their conjugate by exchanging copies that the two
    halves do not share have non-negative means. *)
From Coq Require Import Permutation QArith Qcanon List Arith Bool Lia.
From Verif Require Import CanonModel CanonSpec ScenarioModel ScenarioSpec SymSpec KnowSpec MargModel QcSum CausalSpec MeanProofs QuantumSpec QuantumProofs QInflationSpec NormSpec ColumnModel ColumnSpec QModelSpec QMomentProofs QModelProofs QModelProofs2 QModelProofs3 QModelProofs4 QModelProofs5 QModelProofs6.
From Verif Require ScenarioProofs ClassicalProofs ClassicalProofs2 SymProofs ClassicalMoments MargProofs ColumnProofs ColumnProofs3 CanonProofs QMomentLengths PropMemo.
Import ListNotations.
Close Scope Q_scope. Close Scope Qc_scope. Open Scope nat_scope.
Add Ring CringQM7 : C_ring.

Lemma mirror_group (a b c d : C) : Cmult (Cconj (Cmult a b)) (Cmult c d) = Cmult (Cconj (Cmult (Cconj c) b)) (Cmult (Cconj a) d).
Proof. rewrite !conj_mult, conj_conj. ring. Qed.
Section Mirror.
Variables (sc : scenario) (m : quantum_model) (QM : quantum_model_of sc m).
Notation D := (weights m).
Notation places_op := (places_op sc m).
Notation Psi := (joint_state sc m).
Notation vars := (flat_map (copy_variables sc)).
Notation used := (used_copies sc).
Variables (tau : nat -> nat -> nat) (l l' : list place) (RN : Forall2 (renames sc tau) l l').
Notation recopy := (recopy tau).
Notation rename := (rename tau).
Hypothesis RG : forall ki, In ki (used l) \/ In ki (used l') -> fst ki < nr_sources sc.
Hypothesis INJ : forall a b, In a (used l) -> In b (used l) -> recopy a = recopy b -> a = b.
Hypothesis FX : forall ki, In ki (used l) -> In ki (used l') -> recopy ki = ki.

Lemma used_renamed : used l' = map recopy (used l).
Proof.
  clear - RN. induction RN as [|q q' l1 l2 (E1 & _ & _ & _ & HC) F2 IH]; [reflexivity|]. specialize (IH F2). cbn [used_copies flat_map]. unfold used_copies in IH. rewrite map_app, IH. f_equal. rewrite map_map, <- E1.
  apply map_ext_in. intros k Hk. unfold QModelProofs4.recopy. cbn [fst snd]. rewrite (HC k Hk). reflexivity.
Qed.
Definition mine (ki : nat * nat) : bool := if in_dec ki_dec ki (used l') then false else true.
Definition shared : list (nat * nat) := filter (fun ki => negb (mine ki)) (nodup ki_dec (used l)).
Definition left : list (nat * nat) := filter mine (nodup ki_dec (used l)).
Definition right : list (nat * nat) := map recopy left.
Lemma in_shared ki : In ki shared <-> In ki (used l) /\ In ki (used l').
Proof. unfold shared, mine. rewrite filter_In, nodup_In. destruct (in_dec ki_dec ki (used l')); cbn [negb]; intuition congruence. Qed.
Lemma in_left ki : In ki left <-> In ki (used l) /\ ~ In ki (used l').
Proof. unfold left, mine. rewrite filter_In, nodup_In. destruct (in_dec ki_dec ki (used l')); intuition congruence. Qed.
Lemma in_right ki : In ki right -> In ki (used l') /\ ~ In ki (used l).
Proof.
  intros H. apply in_map_iff in H as (a & <- & Ha). apply in_left in Ha as [Ha NB]. assert (I : In (recopy a) (used l')) by (rewrite used_renamed; apply in_map, Ha). split; [exact I|]. intros J.
  assert (F := FX _ J I). apply INJ in F; [|exact J|exact Ha]. apply NB. rewrite <- F. exact I.
Qed.
Lemma mirror_NoDup : NoDup (shared ++ left ++ right).
Proof.
  assert (N := NoDup_nodup ki_dec (used l)). apply ClassicalProofs.NoDup_app; [apply NoDup_filter, N| |].
  - apply ClassicalProofs.NoDup_app; [apply NoDup_filter, N| |].
    + apply ClassicalProofs.map_NoDup; [|apply NoDup_filter, N]. intros a b Ha Hb. apply in_left in Ha, Hb. apply INJ; tauto.
    + intros z H1 H2. apply in_left in H1. apply in_right in H2. tauto.
  - intros z H1 H2. apply in_shared in H1. apply in_app_or in H2 as [H2|H2]; [apply in_left in H2|apply in_right in H2]; tauto.
Qed.
Notation U := (shared ++ left ++ right).
Lemma uses_left q : In q l -> uses sc (shared ++ left) q.
Proof. intros H. apply (uses_used sc l q H). intros ki I. apply in_or_app. destruct (in_dec ki_dec ki (used l')); [left; apply in_shared|right; apply in_left]; auto. Qed.
Lemma uses_right q : In q l' -> uses sc (shared ++ right) q.
Proof.
  intros H. apply (uses_used sc l' q H). intros ki I. apply in_or_app. rewrite used_renamed in I. apply in_map_iff in I as (a & <- & Ha). destruct (in_dec ki_dec a (used l')) as [J|J].
  - left. rewrite (FX a Ha J). apply in_shared. auto.
  - right. apply in_map, in_left. auto.
Qed.
Lemma uses_incl cs cs' q : uses sc cs q -> incl cs cs' -> uses sc cs' q. Proof. intros H I k Hk. apply I, H, Hk. Qed.
Lemma mirror_range ki : In ki U -> fst ki < nr_sources sc.
Proof. intros H. apply RG. apply in_app_or in H as [H|H]; [apply in_shared in H; tauto|]. apply in_app_or in H as [H|H]; [apply in_left in H|apply in_right in H]; tauto. Qed.
Lemma recopy_shared : map recopy (shared ++ left) = shared ++ right.
Proof. rewrite map_app. f_equal. rewrite <- (map_id shared) at 2. apply map_ext_in. intros ki H. apply in_shared in H. apply FX; tauto. Qed.
Lemma INJ' : forall a b, In a (shared ++ left) -> In b (shared ++ left) -> recopy a = recopy b -> a = b.
Proof. assert (I : forall a, In a (shared ++ left) -> In a (used l)) by (intros a H; apply in_app_or in H as [H|H]; [apply in_shared in H|apply in_left in H]; tauto). intros a b Ha Hb. apply INJ; apply I; assumption. Qed.
Definition G (u : assignment) : C := Cmult (Cconj (Psi left u)) (places_op l (Psi (shared ++ left)) u).
Definition H (u : assignment) : C := Cmult (Cconj (Psi right u)) (places_op l' (Psi (shared ++ right)) u).
Lemma GH u u' : related tau (shared ++ left) u u' -> G u = H u'.
Proof.
  intros R. unfold G, H. f_equal.
  - f_equal. unfold right. apply (state_related sc m tau left). intros x Hx. apply R, in_or_app. right. exact Hx.
  - rewrite <- recopy_shared. apply (places_related sc m tau (shared ++ left) INJ'); [exact RN|apply uses_left|apply state_related|exact R].
Qed.
Lemma G_ext : extensional G. Proof. apply integrand_ext; [apply state_ext|apply places_ext, state_ext]. Qed.
Lemma H_ext : extensional H. Proof. apply integrand_ext; [apply state_ext|apply places_ext, state_ext]. Qed.
Lemma mean_renamed L : forall u u', (forall x, In x L -> In (copy_of x) (shared ++ left)) -> (forall x, In (copy_of x) (shared ++ left) -> ~ In x L -> u x = u' (rename x)) -> ctot D L G u = ctot D (map rename L) H u'.
Proof.
  induction L as [|x L IH]; intros u u' HL E.
  - cbn [map]. rewrite !ctot_nil. apply GH. intros x Hx. apply E; [exact Hx|intros []].
  - cbn [map]. rewrite !ctot_cons. assert (ED : D (rename x) = D x) by (destruct x; reflexivity). rewrite ED. apply Csum_ext. intros wv _. f_equal. apply IH; [intros y Hy; apply HL; right; exact Hy|].
    intros y Hy NI. unfold assign. destruct (qvar_dec y x) as [->|NE]; [destruct (qvar_dec (rename x) (rename x)); [reflexivity|congruence]|].
    destruct (qvar_dec (rename y) (rename x)) as [E'|_]; [exfalso; apply NE; apply (rename_inj tau (shared ++ left) INJ'); [exact Hy|apply HL; left; reflexivity|exact E']|]. apply E; [exact Hy|]. intros [->|I]; [congruence|contradiction].
Qed.
(** the two partial means *)
Lemma partial_means u : (forall x, ~ In x (vars shared) -> u x = 0) -> ctot D (vars left) G u = ctot D (vars right) H u.
Proof.
  intros Z. unfold right. rewrite vars_renamed. apply mean_renamed.
  - intros x Hx. apply in_variables in Hx as [Hx _]. apply in_or_app. right. exact Hx.
  - intros x Hx NI. destruct (in_dec ki_dec (copy_of x) shared) as [I|I].
    + f_equal. apply in_shared in I as [I1 I2]. assert (F := FX _ I1 I2). unfold QModelProofs4.recopy in F. destruct x as [k i|k i p]; cbn [copy_of fst snd QModelProofs4.rename] in *; congruence.
    + rewrite !Z; [reflexivity| |]; intros J; apply in_variables in J as [J _]; [|contradiction]. rewrite copy_rename in J. apply in_app_or in Hx as [Hx|Hx]; [contradiction|].
      assert (R : In (recopy (copy_of x)) right) by (apply in_map, Hx). apply in_right in R. apply in_shared in J. tauto.
Qed.
Lemma disjoint_lr : (forall ki, In ki (shared ++ left) -> In ki right -> False) /\ (forall ki, In ki (shared ++ right) -> In ki left -> False).
Proof.
  split; intros ki H1 H2; apply in_app_or in H1 as [H1|H1].
  - apply in_shared in H1. apply in_right in H2. tauto.
  - apply in_left in H1. apply in_right in H2. tauto.
  - apply in_shared in H1. apply in_left in H2. tauto.
  - apply in_right in H1. apply in_left in H2. tauto.
Qed.
Theorem mirror_nonneg : (0 <= fst (pairing sc m U (places_op l (Psi U)) (places_op l' (Psi U))))%Qc.
Proof.
  destruct disjoint_lr as [D1 D2].
  assert (E1 : forall u, places_op l (Psi U) u = Cmult (Psi right u) (places_op l (Psi (shared ++ left)) u)).
  { intros u. rewrite <- (places_factor sc m (shared ++ left) l (Psi right) (Psi (shared ++ left)) u uses_left).
    - apply places_pointwise. intros v. rewrite app_assoc, state_app. ring.
    - apply state_blind. intros ki J1 J2. exact (D1 ki J2 J1). }
  assert (E2 : forall u, places_op l' (Psi U) u = Cmult (Psi left u) (places_op l' (Psi (shared ++ right)) u)).
  { intros u. rewrite <- (places_factor sc m (shared ++ right) l' (Psi left) (Psi (shared ++ right)) u uses_right).
    - apply places_pointwise. intros v. rewrite !state_app. ring.
    - apply state_blind. intros ki J1 J2. exact (D2 ki J2 J1). }
  unfold pairing. rewrite total_is.
  rewrite (ctot_ext D (vars U) _ (fun u => Cmult (Cconj (G u)) (H u))) by (intros u; rewrite E1, E2; apply mirror_group).
  assert (BG : forall u u', (forall x, ~ In x (vars right) -> u x = u' x) -> Cconj (G u) = Cconj (G u')).
  { intros u u' E. f_equal. unfold G.
    assert (B1 : blind right (Psi left)) by (apply state_blind; intros ki J1 J2; apply (D1 ki); [apply in_or_app; right; exact J1|exact J2]).
    assert (B2 : blind right (places_op l (Psi (shared ++ left)))) by (apply (places_blind sc m (shared ++ left)); [exact D1|apply uses_left|apply state_blind, D1]).
    assert (E' : forall x, ~ In (copy_of x) right -> u x = u' x) by (intros x Hx; apply E; intros J; apply in_variables in J as [J _]; contradiction).
    rewrite (B1 u u' E'), (B2 u u' E'). reflexivity. }
  assert (BH : forall u u', (forall x, ~ In x (vars left) -> u x = u' x) -> H u = H u').
  { intros u u' E. unfold H.
    assert (B1 : blind left (Psi right)) by (apply state_blind; intros ki J1 J2; apply (D2 ki); [apply in_or_app; right; exact J1|exact J2]).
    assert (B2 : blind left (places_op l' (Psi (shared ++ right)))) by (apply (places_blind sc m (shared ++ right)); [exact D2|apply uses_right|apply state_blind, D2]).
    assert (E' : forall x, ~ In (copy_of x) left -> u x = u' x) by (intros x Hx; apply E; intros J; apply in_variables in J as [J _]; contradiction).
    rewrite (B1 u u' E'), (B2 u u' E'). reflexivity. }
  assert (EG : extensional (fun u => Cconj (G u))) by (intros u u' E; rewrite (G_ext u u' E); reflexivity).
  rewrite !flat_map_app, ctot_app.
  set (g := ctot D (vars left) G).
  rewrite (ctot_ext_in D (vars shared) _ (fun u => Cmult (Cconj (g u)) (g u)) (fun _ => 0)).
  - unfold ctot. cbn [fst]. apply (mean_nonneg m).
    + intros x wv. apply (weights_nonneg sc m QM shared). intros ki J. apply mirror_range, in_or_app. left. exact J.
    + intros u. unfold Cmult, Cconj. cbn [fst snd]. set (a := fst (g u)). set (b := snd (g u)). replace (a * a - - b * b)%Qc with (a * a + b * b)%Qc by ring. replace 0%Qc with (0 + 0)%Qc by ring. apply Qcplus_le_compat; apply ClassicalMoments.square_nonneg.
  - apply ctot_extensional. intros u u' E. rewrite (G_ext u u' E), (H_ext u u' E). reflexivity.
  - intros u u' E. unfold g. rewrite (ctot_extensional D (vars left) G G_ext u u' E). reflexivity.
  - intros u [_ R]. rewrite (ctot_product D (vars left) (vars right) (fun u => Cconj (G u)) H u EG H_ext BG BH). unfold g. rewrite <- ctot_conj. f_equal. symmetry. apply partial_means. exact R.
Qed.
End Mirror.

Section Short.
Variables (sc : scenario) (W : wf_scenario sc) (m : quantum_model) (QM : quantum_model_of sc m).
Notation n := (length (lexorder sc)).
Notation nc := (sdp_notcomm sc).
Notation qmean := (qmean sc m).
Notation place_at := (place_at sc).
Notation all_copies := (all_copies sc).
Notation used := (used_copies sc).
(** the two halves of a product *)
Lemma halves_nonneg sg h (us : list nat) : is_relabelling sc sg -> induces sc sg h -> (forall k, In k us -> k < n) ->
  (forall ki, In ki (used (map place_at us)) -> In ki (used (map place_at (map (fun i => nth i h 0) us))) -> sg (fst ki) (snd ki) = snd ki) ->
  (0 <= fst (qmean (rev (map S us) ++ map S (map (fun i => nth i h O) us))))%Qc.
Proof.
  intros R I Hu FX. assert (Lh : length h = n) by apply I. assert (PG := SymProofs.induces_perm sc sg h W R I).
  set (vs := map (fun i => nth i h 0) us) in *.
  assert (Hv : forall k, In k vs -> k < n).
  { intros k Hk. apply in_map_iff in Hk as (i & <- & Hi). assert (Q : In (nth i h 0) h) by (apply nth_In; rewrite Lh; apply Hu, Hi). apply (Permutation_in _ PG) in Q. apply in_seq in Q. lia. }
  assert (US : forall ws, (forall k, In k ws -> k < n) -> forall ki, In ki (used (map place_at ws)) -> In ki all_copies).
  { intros ws Hw ki H. apply in_used in H as (q & k & Hq & Hk & ->). apply in_map_iff in Hq as (i & <- & Hi). apply (place_uses_all sc W i (Hw i Hi) k Hk). }
  assert (RN : Forall2 (renames sc sg) (map place_at us) (map place_at vs)).
  { unfold vs. clear - I Hu W. induction us as [|i us IH]; [constructor|]. cbn [map]. constructor; [|apply IH; intros k Hk; apply Hu; right; exact Hk].
    assert (Li : i < n) by (apply Hu; left; reflexivity). destruct (place_parts sc W i Li) as (p & c & s & o & y & os & E & V & A & ->).
    destruct (proj2 I i _ _ _ _ E) as (j & Ej & Er). rewrite (nth_error_nth _ _ 0 Ej). rewrite (place_row sc j p (relabel sg c) s o y os Er A).
    unfold renames. cbn [pl_p pl_c pl_x pl_os pl_o]. repeat (split; [reflexivity|]). intros k Hk. apply SymProofs.nth_relabel. rewrite (proj1 (proj2 V)). apply (heard_copy sc p c s o k V Hk). }
  assert (INJ : forall a b, In a (used (map place_at us)) -> In b (used (map place_at us)) -> recopy sg a = recopy sg b -> a = b).
  { intros a b Ha Hb Q. apply (US us Hu) in Ha, Hb. destruct a as [k i], b as [k' i']. apply in_all in Ha, Hb. unfold recopy in Q. cbn [fst snd] in Q. assert (k = k') by congruence. subst k'. f_equal. apply (proj2 (proj2 (R k (proj1 Ha))) i i'); [apply Ha|apply Hb|congruence]. }
  assert (FX' : forall ki, In ki (used (map place_at us)) -> In ki (used (map place_at vs)) -> recopy sg ki = ki).
  { intros [k i] H1 H2. unfold recopy. rewrite (FX _ H1 H2). reflexivity. }
  assert (RG : forall ki, In ki (used (map place_at us)) \/ In ki (used (map place_at vs)) -> fst ki < nr_sources sc).
  { intros ki [H|H]; apply (all_range sc); [apply (US us Hu)|apply (US vs Hv)]; exact H. }
  assert (P := mirror_nonneg sc m QM sg (map place_at us) (map place_at vs) RN RG INJ FX'). set (U := shared _ _ _ ++ _) in P.
  assert (NU : NoDup U) by apply (mirror_NoDup sc sg _ _ RN INJ FX').
  assert (UL : forall q, In q (map place_at us) -> uses sc U q).
  { intros q Hq. apply (uses_incl sc (shared sc (map place_at us) (map place_at vs) ++ left sc (map place_at us) (map place_at vs))); [apply uses_left, Hq|]. unfold U. rewrite app_assoc. intros z Hz. apply in_or_app. left. exact Hz. }
  assert (UR : forall q, In q (map place_at vs) -> uses sc U q).
  { intros q Hq. apply (uses_incl sc (shared sc (map place_at us) (map place_at vs) ++ right sc sg (map place_at us) (map place_at vs))); [apply (uses_right sc sg _ _ RN FX'), Hq|]. unfold U. intros z Hz. apply in_app_or in Hz as [Hz|Hz]; apply in_or_app; [left; exact Hz|right; apply in_or_app; right; exact Hz]. }
  assert (IU : incl U all_copies).
  { intros ki H. unfold U in H. apply in_app_or in H as [H|H]; [apply in_shared in H; apply (US us Hu), H|]. apply in_app_or in H as [H|H]; [apply in_left in H; apply (US us Hu), H|]. apply (in_right sc sg _ _ RN INJ FX') in H. apply (US vs Hv), H. }
  rewrite <- map_rev, <- map_app. rewrite (qmean_places sc W m (rev us ++ vs)) by (intros k Hk; apply in_app_or in Hk as [Hk|Hk]; [apply in_rev in Hk; apply Hu, Hk|apply Hv, Hk]).
  rewrite (expectation_restrict sc m QM all_copies U _ (all_NoDup sc) (all_range sc) NU IU).
  - rewrite map_app, map_rev.
    change (expectation sc m U (places_op sc m (rev (map place_at us) ++ map place_at vs))) with (pairing sc m U (joint_state sc m U) (places_op sc m (rev (map place_at us) ++ map place_at vs) (joint_state sc m U))).
    rewrite places_app. rewrite <- (places_adjoint sc m QM U (map place_at us) NU); [exact P| |apply state_ext|apply places_ext, state_ext].
    intros q Hq. assert (Hq' := Hq). apply in_map_iff in Hq' as (i & Ei & Hi). split; [|split; [|apply UL, Hq]]; rewrite <- Ei; destruct (place_parts sc W i (Hu i Hi)) as (p & c & s & o & y & os & _ & V & _ & ->); cbn [pl_p pl_o]; apply V.
  - intros q Hq. rewrite map_app in Hq. apply in_app_or in Hq as [Hq|Hq]; [|apply UR, Hq]. rewrite map_rev in Hq. apply in_rev in Hq. apply UL, Hq.
Qed.
Lemma comm_two a b u v : (forall x y, nc x y = nc y x) -> comm_eq nc u v -> nc a b = true -> u = [a; b] <-> v = [a; b].
Proof.
  intros SY C HN. induction C as [w|u x y v H|u v _ IH|u v w _ IH1 _ IH2]; [tauto| |tauto|tauto].
  assert (X : forall x y, nc x y = false -> u ++ x :: y :: v = [a; b] -> False).
  { clear - HN. intros x y H E. destruct u as [|z u]; [cbn in E; assert (x = a) by congruence; assert (y = b) by congruence; subst; congruence|]. apply (f_equal (@length nat)) in E. rewrite app_length in E. cbn [length] in E. lia. }
  split; intros E; exfalso; [exact (X x y H E)|exact (X y x ltac:(rewrite SY; exact H) E)].
Qed.
Theorem short_products_nonneg arr : moments_of sc arr qmean -> nonnegative_hermitian sc 2 qmean.
Proof.
  intros MQ sg h w Lw R I OW CE. assert (GT := ScenarioProofs.scenario_good_tables sc W). assert (SY : forall x y, nc x y = nc y x) by apply (gt_nc_sym _ _ GT).
  destruct w as [|a [|b [|]]]; cbn [length] in Lw; try lia.
  - rewrite (mq_one _ _ _ MQ). discriminate.
  - apply (QMomentLengths.commuting_nonneg sc arr qmean [a] W MQ). intros x y [<-|[]] [<-|[]]. apply (gt_nc_diag _ _ GT).
  - destruct (nc a b) eqn:Q.
    + assert (IS : In (0 :: map S h) (sdp_lexorder_symmetries sc)) by (apply (PropMemo.C35_symmetries_are_relabellings sc _ W); exists sg, h; auto).
      assert (OS := ColumnProofs3.scenario_symmetries sc W). assert (Oa := OW a (or_introl eq_refl)). assert (Ob := OW b (or_intror (or_introl eq_refl))).
      assert (Q' := os_nc _ _ _ _ OS (0 :: map S h) a b IS ltac:(lia) ltac:(lia)). rewrite Q in Q'. cbn [map rev app] in CE.
      assert (E := proj1 (comm_two _ _ _ _ SY CE Q') eq_refl).
      assert (Eb : nth a (0 :: map S h) 0 = b) by congruence. assert (Ea : nth b (0 :: map S h) 0 = a) by congruence.
      destruct a as [|i]; [lia|]. destruct b as [|j]; [lia|]. assert (Lh : length h = n) by apply I. cbn [nth] in Ea, Eb.
      rewrite (nth_indep _ 0 (S 0)) in Ea by (rewrite map_length; lia). rewrite (map_nth S) in Ea. rewrite (nth_indep _ 0 (S 0)) in Eb by (rewrite map_length; lia). rewrite (map_nth S) in Eb.
      assert (Ej : nth i h 0 = j) by lia. assert (P := halves_nonneg sg h [i] R I). cbn [map rev app] in P. rewrite Ej in P. apply P; [intros k [<-|[]]; lia|].
      intros ki H1 H2. apply in_used in H1 as (q & k & [<-|[]] & Hk & ->). apply in_used in H2 as (q & k' & [<-|[]] & Hk' & E2). cbn [fst snd]. assert (k' = k) by congruence. subst k'.
      destruct (place_parts sc W i ltac:(lia)) as (p & c & s & o & y & os & Ei & V & A & Ep). destruct (proj2 I i _ _ _ _ Ei) as (j' & Ej' & Er). rewrite (nth_error_nth _ _ 0 Ej') in Ej. subst j'.
      rewrite (place_row sc j p (relabel sg c) s o y os Er A) in E2. rewrite Ep in E2, Hk |- *. cbn [pl_c pl_p] in *. assert (E3 : nth k (relabel sg c) 0 = nth k c 0) by congruence. rewrite SymProofs.nth_relabel in E3; [exact E3|]. rewrite (proj1 (proj2 V)). apply (heard_copy sc p c s o k V Hk).
    + apply (QMomentLengths.commuting_nonneg sc arr qmean [a; b] W MQ). assert (IR : forall z, nc z z = false) by apply (gt_nc_diag _ _ GT).
      intros x y [<-|[<-|[]]] [<-|[<-|[]]]; auto. rewrite SY. exact Q.
Qed.
End Short.
