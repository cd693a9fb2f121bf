(** Classical models give moments (QInflationSpec) to products of operators: the probability that all
    of the operators fire. *)
From Coq Require Import Permutation QArith Qcanon List Arith Bool Lia.
From Verif Require Import CanonModel CanonSpec ScenarioModel ScenarioSpec SymModel SymSpec KnowSpec MargModel QcSum QcArith LPSpec LPSpec2 NormSpec CausalSpec MeanProofs InflatedSpec ClassicalProofs ClassicalProofs2 QuantumSpec QuantumProofs QInflationSpec QMomentProofs QMomentProofs3 QMomentProofs7.
From Verif Require ScenarioProofs SymProofs QMomentProofs8.
Import ListNotations.
Close Scope Q_scope. Close Scope Qc_scope. Open Scope nat_scope.

Lemma square_nonneg (x : Qc) : (0 <= x * x)%Qc. Proof. qcnra. Qed.

Section Classical.
Variables (sc : scenario) (W : wf_scenario sc) (m : causal_model) (MO : model_of sc m) (AC : acyclic sc) (PS : forall k, In k (private_settings sc) -> 1 <= k).
Notation n := (length (lexorder sc)).
Notation mean := (mean var_dec (distribution_of m)).
Notation vars := (vars sc).
Notation zero := (fun _ : variable => 0).

(** does the operator with index x fire?  (index 0 is the zero operator) *)
Definition fire (u : variable -> nat) (x : nat) : bool := match x with 0 => false | S i => (i <? n) && fires sc m u i end.
Definition all_fire (u : variable -> nat) (w : word) : Qc := indicator (forallb (fire u) w).
Definition classical_mean (w : word) : C := creal (mean vars (fun u => all_fire u w) zero).

Lemma mean_cong (w w' : word) : (forall u, all_fire u w = all_fire u w') -> classical_mean w = classical_mean w'.
Proof. intros H. unfold classical_mean. f_equal. apply mean_ext, H. Qed.
Lemma all_fire_app u w w' : all_fire u (w ++ w') = (all_fire u w * all_fire u w')%Qc.
Proof. unfold all_fire, indicator. rewrite forallb_app. destruct (forallb (fire u) w), (forallb (fire u) w'); cbn [andb]; ring. Qed.
Lemma all_fire_perm u w w' : Permutation w w' -> all_fire u w = all_fire u w'.
Proof. intros P. unfold all_fire. f_equal. apply eq_true_iff_eq. rewrite !forallb_forall. split; intros H x Hx; apply H; [apply Permutation_sym in P|]; eapply Permutation_in; eassumption. Qed.
Lemma all_fire_cons u a w : all_fire u (a :: w) = (indicator (fire u a) * all_fire u w)%Qc.
Proof. unfold all_fire, indicator. cbn [forallb]. destruct (fire u a), (forallb (fire u) w); cbn [andb]; ring. Qed.
(** orthogonal operators do not both fire *)
Lemma orthogonal u a b : sdp_orthomat sc a b = true -> fire u a && fire u b = false.
Proof.
  unfold sdp_orthomat. destruct a as [|i]; [reflexivity|]. destruct b as [|j]; [intros _; apply andb_false_r|]. cbn [Nat.eqb orb]. cbn [sdp_lexorder nth_error].
  destruct (nth_error (lexorder sc) i) as [ra|] eqn:Ei; [|discriminate]. destruct (nth_error (lexorder sc) j) as [rb|] eqn:Ej; [|discriminate]. intros H. apply andb_prop in H as [H R]. apply andb_prop in H as [_ H]. apply negb_true_iff, Nat.eqb_neq in H.
  unfold row_eqb in R. destruct (list_eq_dec Nat.eq_dec (removelast ra) (removelast rb)) as [R'|]; [|discriminate]. clear R.
  assert (Li : i < n) by (apply nth_error_Some; congruence). assert (Lj : j < n) by (apply nth_error_Some; congruence).
  destruct (SymProofs.lexorder_parts sc i W Li) as (p & c & s & o & Ei' & V). destruct (SymProofs.lexorder_parts sc j W Lj) as (p' & c' & s' & o' & Ej' & V').
  assert (ra = mkrow (p + 1) c s o) by congruence. assert (rb = mkrow (p' + 1) c' s' o') by congruence. subst ra rb. rewrite !ScenarioProofs.mkrow_outcome in H.
  assert (RM : removelast (mkrow (p + 1) c s o) = (p + 1) :: c ++ [s]).
  { unfold mkrow. replace ((p + 1) :: c ++ [s; o]) with (((p + 1) :: c ++ [s]) ++ [o]) by (cbn [app]; rewrite <- app_assoc; reflexivity). apply removelast_last. }
  assert (RM' : removelast (mkrow (p' + 1) c' s' o') = (p' + 1) :: c' ++ [s']).
  { unfold mkrow. replace ((p' + 1) :: c' ++ [s'; o']) with (((p' + 1) :: c' ++ [s']) ++ [o']) by (cbn [app]; rewrite <- app_assoc; reflexivity). apply removelast_last. }
  rewrite RM, RM' in R'. assert (p' = p) by (injection R'; lia). assert (Q : c ++ [s] = c' ++ [s']) by (injection R'; auto). apply app_inj_tail in Q as [-> ->]. subst p'.
  destruct (setting_parts sc p s' ltac:(apply V)) as (x & os & A & _). cbn [fire]. rewrite (fires_row sc m u i p c' s' o x os Ei A), (fires_row sc m u j p c' s' o' x os Ej A).
  destruct (Nat.eqb_spec (response m p (fun k => u (Source k (nth k c' 0))) (u (Noise p c')) x os) o) as [E|]; [|rewrite andb_false_r; reflexivity].
  destruct (Nat.eqb_spec (response m p (fun k => u (Source k (nth k c' 0))) (u (Noise p c')) x os) o') as [E'|]; [|rewrite !andb_false_r; reflexivity]. congruence.
Qed.
Lemma all_fire_zero u w : all_fire u [0] = 0%Qc /\ (In 0 w -> all_fire u w = 0%Qc).
Proof.
  split; [reflexivity|]. intros H. unfold all_fire. destruct (forallb (fire u) w) eqn:F; [|reflexivity]. rewrite forallb_forall in F. specialize (F 0 H). discriminate.
Qed.
Lemma fire_equal u w w' : proj_eq (sdp_notcomm sc) (sdp_orthomat sc) w w' -> all_fire u w = all_fire u w'.
Proof.
  induction 1 as [w|w w' _ IH|w1 w2 w3 _ IH1 _ IH2|w a b v _|w a v|w a b v H|w v].
  - reflexivity.
  - symmetry. exact IH.
  - rewrite IH1. exact IH2.
  - apply all_fire_perm. apply Permutation_app_head. constructor.
  - rewrite !all_fire_app, !all_fire_cons. unfold indicator. destruct (fire u a); ring.
  - rewrite (proj1 (all_fire_zero u [])), !all_fire_app, !all_fire_cons. assert (Q := orthogonal u a b H). unfold indicator. destruct (fire u a), (fire u b); try discriminate Q; ring.
  - rewrite (proj1 (all_fire_zero u [])). apply all_fire_zero. apply in_or_app. right. left. reflexivity.
Qed.
(** ** Events of proper operators *)
Lemma mean_event ops : (forall k, In k ops -> k < n) -> classical_mean (map S ops) = creal (inflated sc m (event_of sc ops)).
Proof.
  intros H. unfold classical_mean. f_equal. unfold inflated. apply mean_ext. intros u. unfold all_fire. f_equal. apply eq_true_iff_eq. rewrite happens_iff, forallb_forall. split.
  - intros F i Hi. apply (event_nth sc ops H) in Hi. assert (Q := F (S i) (in_map S ops i Hi)). cbn [fire] in Q. apply andb_prop in Q. apply Q.
  - intros F x Hx. apply in_map_iff in Hx as (i & <- & Hi). cbn [fire]. rewrite (proj2 (Nat.ltb_lt i n) (H i Hi)). apply F. apply (event_nth sc ops H), Hi.
Qed.
Lemma operator_event w : operator_word sc w -> exists ops, w = map S ops /\ forall k, In k ops -> k < n.
Proof.
  intros H. exists (map pred w). split.
  - rewrite map_map. rewrite <- (map_id w) at 1. apply map_ext_in. intros x Hx. specialize (H x Hx). lia.
  - intros k Hk. apply in_map_iff in Hk as (x & <- & Hx). specialize (H x Hx). lia.
Qed.
Lemma bools_ext (v w : list bool) : length v = length w -> (forall i, nth i v false = true <-> nth i w false = true) -> v = w.
Proof.
  intros E H. apply (nth_ext v w false false E). intros i _. apply eq_true_iff_eq, H.
Qed.
Lemma classical_symmetric sg h w : is_relabelling sc sg -> induces sc sg h -> (forall x, In x w -> x <= n) -> classical_mean (map (fun x => nth x (0 :: map S h) 0) w) = classical_mean w.
Proof.
  intros R I H. assert (Lh : length h = n) by apply I. destruct (in_dec Nat.eq_dec 0 w) as [Hz|NZ].
  { unfold classical_mean. f_equal. apply mean_ext. intros u. rewrite (proj2 (all_fire_zero u w) Hz). apply all_fire_zero. apply in_map_iff. exists 0. auto. }
  assert (OW : operator_word sc w) by (intros x Hx; split; [destruct x; [contradiction|lia]|apply H, Hx]). destruct (operator_event w OW) as (ops & -> & Ho).
  assert (PG := SymProofs.induces_perm sc sg h W R I).
  assert (E : map (fun x => nth x (0 :: map S h) 0) (map S ops) = map S (map (fun i => nth i h 0) ops)).
  { rewrite !map_map. apply map_ext_in. intros i Hi. cbn [nth]. rewrite (nth_indep _ 0 (S 0)) by (rewrite map_length, Lh; apply Ho, Hi). apply (map_nth S). }
  assert (Hr : forall i, i < n -> nth i h 0 < n).
  { intros i Hi. assert (Q : In (nth i h 0) h) by (apply nth_In; lia). apply (Permutation_in _ PG) in Q. apply in_seq in Q. lia. }
  assert (Ho' : forall k, In k (map (fun i => nth i h 0) ops) -> k < n) by (intros k Hk; apply in_map_iff in Hk as (i & <- & Hi); apply Hr, Ho, Hi).
  rewrite E, (mean_event _ Ho'), (mean_event ops Ho). f_equal. rewrite <- (inflated_invariant sc W m MO sg h (event_of sc (map (fun i => nth i h 0) ops)) R I (event_length sc _)).
  f_equal. apply bools_ext; [rewrite event_length; unfold permuted; rewrite map_length; congruence|]. intros i.
  destruct (Nat.lt_ge_cases i n) as [Hi|Hi].
  2:{ rewrite !nth_overflow; [tauto|rewrite event_length; exact Hi|unfold permuted; rewrite map_length, Lh; exact Hi]. }
  rewrite nth_permuted by lia. rewrite (event_nth sc _ Ho'), (event_nth sc ops Ho). rewrite in_map_iff. split.
  - intros (j & Ej & Hj). assert (ND : NoDup h) by (eapply Permutation_NoDup; [apply Permutation_sym, PG|apply seq_NoDup]). assert (j = i); [|subst; exact Hj]. apply (proj1 (NoDup_nth h 0) ND); [rewrite Lh; apply Ho, Hj|lia|exact Ej].
  - intros Hj. exists i. auto.
Qed.
Lemma classical_independent u v : operator_word sc u -> operator_word sc v -> (forall x y, In x u -> In y v -> ~ share_copy (copies_of sc x) (copies_of sc y)) ->
  classical_mean (u ++ v) = Cmult (classical_mean u) (classical_mean v).
Proof.
  intros Ou Ov SEP. destruct (operator_event u Ou) as (a & -> & Ha). destruct (operator_event v Ov) as (b & -> & Hb). rewrite <- map_app.
  assert (Hab : forall k, In k (a ++ b) -> k < n) by (intros k Hk; apply in_app_or in Hk as [Hk|Hk]; auto).
  rewrite (mean_event _ Hab), (mean_event a Ha), (mean_event b Hb), creal_mult2. f_equal.
  assert (E : event_of sc (a ++ b) = either (event_of sc a) (event_of sc b)).
  { assert (LE : length (event_of sc a) = length (event_of sc b)) by (rewrite !event_length; reflexivity). apply bools_ext.
    - unfold either. rewrite map_length, combine_length, !event_length. lia.
    - intros i. rewrite (nth_either _ _ i LE), orb_true_iff, (event_nth sc _ Hab), (event_nth sc a Ha), (event_nth sc b Hb). apply in_app_iff. }
  rewrite E. apply (inflated_independent sc W m MO); [apply event_length|apply event_length|]. intros i j p c s o p' c' s' o' Hi Hj Ei Ej.
  apply (event_nth sc a Ha) in Hi. apply (event_nth sc b Hb) in Hj. assert (Q := SEP (S i) (S j) (in_map S a i Hi) (in_map S b j Hj)). unfold copies_of in Q. cbn [sdp_lexorder nth] in Q.
  rewrite (nth_error_nth _ _ _ Ei), (nth_error_nth _ _ _ Ej), !ScenarioProofs.mkrow_copies in Q. exact Q.
Qed.
(** ** Normalisation: one operator of each measurement fires *)
Lemma one_of_seq (f : nat -> nat) o0 k l : map f l = seq k (length l) -> sumQ (map (fun a => indicator (o0 =? f a)) l) = indicator ((k <=? o0) && (o0 <? k + length l)).
Proof.
  revert k. induction l as [|a l IH]; intros k E; cbn [map length] in *.
  - rewrite sumQ_nil. destruct (k <=? o0) eqn:Q; [|reflexivity]. apply Nat.leb_le in Q. destruct (Nat.ltb_spec o0 (k + 0)); [lia|reflexivity].
  - cbn [seq] in E. injection E as E1 E2. rewrite sumQ_cons, (IH (S k) E2), E1. unfold indicator.
    destruct (Nat.eqb_spec o0 k), (Nat.leb_spec (S k) o0), (Nat.leb_spec k o0), (Nat.ltb_spec o0 (S k + length l)), (Nat.ltb_spec o0 (k + S (length l))); cbn [andb]; try lia; ring.
Qed.
Lemma one_fires u p c s g : is_measurement sc p c s g -> sumQ (map (fun a => indicator (fire u a)) g) = 1%Qc.
Proof.
  intros [E NE]. set (k := nth p (outcomes sc) 0) in *.
  assert (Lg : length g = k) by (apply (f_equal (@length _)) in E; rewrite !map_length, seq_length in E; exact E).
  assert (Lk : 0 < k) by (destruct g; [contradiction|cbn [length] in Lg; lia]).
  assert (RW : forall a o, In a g -> nth_error (sdp_lexorder sc) a = Some (mkrow (p + 1) c s o) -> exists i, a = S i /\ nth_error (lexorder sc) i = Some (mkrow (p + 1) c s o) /\ i < n).
  { intros a o _ Ha. destruct a as [|i]; cbn [sdp_lexorder nth_error] in Ha.
    - exfalso. assert (Q : zero_row sc = mkrow (p + 1) c s o) by congruence. apply (f_equal row_party) in Q. rewrite ScenarioProofs.mkrow_party in Q. cbn in Q. lia.
    - exists i. split; [reflexivity|]. split; [exact Ha|]. apply nth_error_Some. congruence. }
  destruct g as [|a0 g'] eqn:Eg; [contradiction|]. rewrite <- Eg in *.
  assert (R0 : nth_error (sdp_lexorder sc) a0 = Some (mkrow (p + 1) c s 0)).
  { rewrite Eg in E. destruct k as [|k']; [lia|]. cbn [seq map] in E. congruence. }
  destruct (RW a0 0 (ltac:(rewrite Eg; left; reflexivity)) R0) as (i0 & _ & E0 & L0). destruct (SymProofs.lexorder_parts sc i0 W L0) as (p' & c' & s' & o' & E0' & V).
  assert (RE : mkrow (p + 1) c s 0 = mkrow (p' + 1) c' s' o') by congruence.
  assert (p' = p) by (apply (f_equal row_party) in RE; rewrite !ScenarioProofs.mkrow_party in RE; lia). assert (s' = s) by (apply (f_equal row_setting) in RE; rewrite !ScenarioProofs.mkrow_setting in RE; congruence).
  assert (c' = c) by (apply (f_equal row_copies) in RE; rewrite !ScenarioProofs.mkrow_copies in RE; congruence). subst p' s' c'.
  destruct (setting_parts sc p s ltac:(apply V)) as (x & os & A & _).
  set (o0 := response m p (fun q => u (Source q (nth q c 0))) (u (Noise p c)) x os). assert (Ho : o0 < k) by (apply (mo_range _ _ MO), V).
  set (f := fun a => row_outcome (nth a (sdp_lexorder sc) [])).
  assert (Q : forall a, In a g -> exists o, nth_error (sdp_lexorder sc) a = Some (mkrow (p + 1) c s o)).
  { intros a Ha. assert (X : In (nth_error (sdp_lexorder sc) a) (map (fun o => Some (mkrow (p + 1) c s o)) (seq 0 k))) by (rewrite <- E; apply in_map, Ha). apply in_map_iff in X as (o & X & _). exists o. symmetry. exact X. }
  assert (FS : map f g = seq 0 (length g)).
  { rewrite Lg. assert (E2 := f_equal (map (fun q => match q with Some rw => row_outcome rw | None => 0 end)) E). rewrite !map_map in E2.
    rewrite (map_ext_in f (fun a => match nth_error (sdp_lexorder sc) a with Some rw => row_outcome rw | None => 0 end)).
    - rewrite E2. rewrite <- (map_id (seq 0 k)) at 2. apply map_ext. intros o. apply ScenarioProofs.mkrow_outcome.
    - intros a Ha. destruct (Q a Ha) as (o & Eo). unfold f. rewrite (nth_error_nth _ _ _ Eo), Eo. reflexivity. }
  rewrite (sumQ_ext g (fun a => indicator (fire u a)) (fun a => indicator (o0 =? f a))).
  - rewrite (one_of_seq f o0 0 g FS), Lg. unfold indicator. cbn [Nat.leb andb]. rewrite Nat.add_0_l. rewrite (proj2 (Nat.ltb_lt _ _) Ho). reflexivity.
  - intros a Ha. destruct (Q a Ha) as (o & Eo). destruct (RW a o Ha Eo) as (i & -> & Ei & Li). f_equal. cbn [fire]. rewrite (proj2 (Nat.ltb_lt i n) Li). cbn [andb]. rewrite (fires_row sc m u i p c s o x os Ei A). unfold f. rewrite (nth_error_nth _ _ _ Eo), ScenarioProofs.mkrow_outcome. reflexivity.
Qed.
Lemma Csum_creal {A} (f : A -> Qc) l : Csum (map (fun a => creal (f a)) l) = creal (sumQ (map f l)).
Proof. induction l as [|a l IH]; [reflexivity|]. cbn [map Csum fold_right]. rewrite sumQ_cons. change (Cplus (creal (f a)) (Csum (map (fun a => creal (f a)) l)) = creal (f a + sumQ (map f l))%Qc). rewrite IH. unfold Cplus, creal. cbn [fst snd]. f_equal; ring. Qed.
Lemma classical_normalised p c s g u v : is_measurement sc p c s g -> Csum (map (fun a => classical_mean (u ++ a :: v)) g) = classical_mean (u ++ v).
Proof.
  intros Hg. unfold classical_mean. rewrite (Csum_creal (fun a => mean vars (fun e => all_fire e (u ++ a :: v)) zero)). f_equal. rewrite <- mean_sum. apply mean_ext. intros e.
  rewrite all_fire_app. transitivity (all_fire e u * all_fire e v * sumQ (map (fun a => indicator (fire e a)) g))%Qc; [|rewrite (one_fires e p c s g Hg); ring].
  clear Hg. induction g as [|a g IH]; cbn [map]; rewrite ?sumQ_nil, ?sumQ_cons; [ring|]. rewrite IH, all_fire_app, all_fire_cons. ring.
Qed.
(** ** Positivity *)
Lemma classical_positive (l : list (C * word)) :
  (0 <= fst (Csum (map (fun p => Csum (map (fun q => Cmult (Cmult (Cconj (fst p)) (fst q)) (classical_mean (rev (snd p) ++ snd q))) l)) l)))%Qc.
Proof.
  destruct (mean_mixture var_dec (distribution_of m) vars (vars_prob sc m MO) zero) as (ws & NN & _ & MIX & _).
  assert (E : fst (Csum (map (fun p => Csum (map (fun q => Cmult (Cmult (Cconj (fst p)) (fst q)) (classical_mean (rev (snd p) ++ snd q))) l)) l)) =
    sumQ (map (fun z => fst z * (sumQ (map (fun p => fst (fst p) * all_fire (snd z) (snd p)) l) * sumQ (map (fun p => fst (fst p) * all_fire (snd z) (snd p)) l) +
                                 sumQ (map (fun p => snd (fst p) * all_fire (snd z) (snd p)) l) * sumQ (map (fun p => snd (fst p) * all_fire (snd z) (snd p)) l)))%Qc ws)).
  2:{ rewrite E. clear E MIX. revert NN. induction ws as [|z ws IH]; intros NN; [apply Qcle_refl|]. cbn [map]. rewrite sumQ_cons. 
      assert (P : (0 <= fst z)%Qc) by (apply NN; left; reflexivity). specialize (IH (fun q Hq => NN q (or_intror Hq))).
      match goal with |- (0 <= fst z * (?a * ?a + ?b * ?b) + ?r)%Qc => assert (SA : (0 <= a * a)%Qc) by apply square_nonneg; assert (SB : (0 <= b * b)%Qc) by apply square_nonneg; set (A := (a * a)%Qc) in *; set (B := (b * b)%Qc) in *; set (R := r) in * end.
      assert (X : (0 <= fst z * (A + B))%Qc). { replace 0%Qc with (0 * (A + B))%Qc by ring. apply Qcmult_le_compat_r; [exact P|]. replace 0%Qc with (0 + 0)%Qc by ring. apply Qcplus_le_compat; assumption. }
      replace 0%Qc with (0 + 0)%Qc by ring. apply Qcplus_le_compat; assumption. }
  rewrite fst_Csum, map_map.
  assert (DS : forall (l1 l2 : list (C * word)) (f g : C * word -> Qc), sumQ (map (fun p => sumQ (map (fun q => f p * g q)%Qc l2)) l1) = (sumQ (map f l1) * sumQ (map g l2))%Qc).
  { clear. intros l1 l2 f g. induction l1 as [|p l1 IH]; [cbn [map]; rewrite !sumQ_nil; ring|]. cbn [map]. rewrite !sumQ_cons, IH. rewrite (sumQ_scale l2 (f p) g). ring. }
  transitivity (sumQ (map (fun p => sumQ (map (fun q => sumQ (map (fun z => fst z * ((fst (fst p) * all_fire (snd z) (snd p)) * (fst (fst q) * all_fire (snd z) (snd q)) + (snd (fst p) * all_fire (snd z) (snd p)) * (snd (fst q) * all_fire (snd z) (snd q))))%Qc ws)) l)) l)).
  - apply sumQ_ext. intros p _. rewrite fst_Csum, map_map. apply sumQ_ext. intros q _. unfold classical_mean. rewrite MIX. unfold creal, Cmult, Cconj. cbn [fst snd].
    transitivity (sumQ (map (fun z => (fst (fst p) * fst (fst q) + snd (fst p) * snd (fst q)) * (fst z * all_fire (snd z) (rev (snd p) ++ snd q)))%Qc ws)); [|apply sumQ_ext].
    + rewrite sumQ_scale. ring.
    + intros z _. rewrite all_fire_app, (all_fire_perm (snd z) (rev (snd p)) (snd p)) by (apply Permutation_sym, Permutation_rev). destruct p as [[p1 p2] pw], q as [[q1 q2] qw], z as [z1 z2]. cbn [fst snd]. ring.
  - rewrite <- (sumQ_ext l _ _ (fun p _ => sumQ_swap _ _ _)). rewrite sumQ_swap. apply sumQ_ext. intros z _.
    rewrite <- !DS. rewrite <- sumQ_add. rewrite <- sumQ_scale. apply sumQ_ext. intros p _. rewrite <- sumQ_add, <- sumQ_scale. reflexivity.
Qed.
Lemma classical_nonneg w : (0 <= fst (classical_mean w))%Qc.
Proof.
  unfold classical_mean. cbn [creal fst]. destruct (mean_mixture var_dec (distribution_of m) vars (vars_prob sc m MO) zero) as (ws & NN & _ & MIX & _). rewrite MIX. apply sumQ_nonneg. intros z Hz.
  unfold all_fire, indicator. destruct (forallb _ _); [replace (fst z * 1)%Qc with (fst z) by ring; apply NN, Hz|replace (fst z * 0)%Qc with 0%Qc by ring; apply Qcle_refl].
Qed.

Theorem classical_moments arr : (forall a x, Forall2 lt a (outcomes sc) -> Forall2 lt x (private_settings sc) -> nd_at arr (a ++ x) = observed sc m a x) -> moments_of sc arr classical_mean.
Proof.
  intros E. constructor.
  - intros u v H. apply mean_cong. intros e. apply fire_equal, H.
  - unfold classical_mean. rewrite (mean_ext var_dec (distribution_of m) vars (fun u => all_fire u [0]) (fun _ => 0%Qc) zero) by reflexivity.
    destruct (mean_mixture var_dec (distribution_of m) vars (vars_prob sc m MO) zero) as (ws & _ & _ & MIX & _). rewrite MIX. unfold creal. replace (sumQ _) with 0%Qc; [reflexivity|]. symmetry. apply sumQ_zero. intros. ring.
  - unfold classical_mean. rewrite (mean_ext var_dec (distribution_of m) vars (fun u => all_fire u []) (fun _ => 1%Qc) zero) by reflexivity.
    destruct (mean_mixture var_dec (distribution_of m) vars (vars_prob sc m MO) zero) as (ws & _ & TOT & MIX & _). rewrite MIX. unfold creal. replace (sumQ _) with 1%Qc; [reflexivity|]. transitivity (sumQ (map fst ws)); [symmetry; exact TOT|]. apply sumQ_ext. intros. ring.
  - intros w. rewrite (mean_cong (rev w) w); [unfold Cconj, classical_mean, creal; cbn [fst snd]; f_equal; ring|]. intros u. apply all_fire_perm, Permutation_sym, Permutation_rev.
  - apply classical_positive.
  - apply classical_symmetric.
  - apply classical_independent.
  - intros p c s g u v. apply classical_normalised.
  - intros ops H mon OP OC PA l x Nl Hl Lx Hx. rewrite (mean_event ops H). unfold creal. f_equal. rewrite (inflated_observed sc W m MO AC ops H OP OC PA l x Nl Hl Hx). apply sumQ_ext. intros a Ha. symmetry. apply E; [apply Hl, Ha|].
    apply (settings_in_range sc W ops H x Hx Lx PS).
Qed.
Theorem classical_nonnegative k : nonnegative_hermitian sc k classical_mean.
Proof. intros sg h w _ _ _ _ _. apply classical_nonneg. Qed.
End Classical.
