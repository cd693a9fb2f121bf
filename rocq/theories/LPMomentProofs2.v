(** The probability of an event is the product of the probabilities of its atoms. *)
From Coq Require Import List Arith Bool QArith Qcanon Lia Permutation Sorted.
From Verif Require Import CanonModel ScenarioModel ScenarioSpec SymModel SymSpec FactorModel FactorSpec MargModel QcSum LPModel LPSpec LPSpec2 InflatedSpec LPMomentModel LPMomentProofs.
From Verif Require ScenarioProofs SymProofs FactorProofs LPProofs LPProofs4 LPProofs8 LPProofs9 ClassicalProofs.
Import ListNotations.
Close Scope Q_scope. Close Scope Qc_scope. Open Scope nat_scope.

Section Product.
Variables (sc : scenario) (W : wf_scenario sc) (Hout : forall o, In o (outcomes sc) -> 1 <= o).
Notation n := (length (lexorder sc)).
Notation syms := (discover_lexorder_symmetries sc).

Lemma event_of_nth ops i : nth i (event_of sc ops) false = true <-> i < n /\ In i ops.
Proof.
  unfold event_of. split.
  - intros H. assert (K : i < n) by (destruct (Nat.lt_ge_cases i n) as [K|K]; [exact K|]; rewrite nth_overflow in H by (rewrite map_length, seq_length; exact K); discriminate).
    rewrite (nth_indep _ false (memb 0 ops)) in H by (rewrite map_length, seq_length; exact K). rewrite (map_nth (fun i => memb i ops)), seq_nth in H by exact K. split; [exact K|apply ScenarioProofs.memb_in, H].
  - intros [K H]. rewrite (nth_indep _ false (memb 0 ops)) by (rewrite map_length, seq_length; exact K). rewrite (map_nth (fun i => memb i ops)), seq_nth by exact K. apply ScenarioProofs.memb_in, H.
Qed.
Lemma event_of_length ops : length (event_of sc ops) = n.
Proof. unfold event_of. rewrite map_length, seq_length. reflexivity. Qed.
Lemma event_of_ext a b : (forall i, i < n -> (In i a <-> In i b)) -> event_of sc a = event_of sc b.
Proof.
  intros H. apply (LPProofs.bvec_ext n); [apply event_of_length..|]. intros i Hi. apply eq_true_iff_eq. rewrite !event_of_nth. specialize (H i Hi). tauto.
Qed.
Lemma event_of_flat v : length v = n -> event_of sc (flatnonzero v) = v.
Proof.
  intros L. apply (LPProofs.bvec_ext n); [apply event_of_length|exact L|]. intros i Hi. apply eq_true_iff_eq. rewrite event_of_nth, flatnonzero_in. tauto.
Qed.
Lemma event_of_app a b : either (event_of sc a) (event_of sc b) = event_of sc (a ++ b).
Proof.
  apply (LPProofs.bvec_ext n); [unfold either; rewrite map_length, combine_length, !event_of_length; lia|apply event_of_length|].
  intros i Hi. apply eq_true_iff_eq. rewrite (ClassicalProofs.nth_either) by (rewrite !event_of_length; reflexivity). rewrite orb_true_iff, !event_of_nth, in_app_iff. tauto.
Qed.
Lemma event_of_blank : event_of sc [] = blank n.
Proof.
  apply (LPProofs.bvec_ext n); [apply event_of_length|apply repeat_length|]. intros i Hi. unfold blank. rewrite nth_repeat.
  destruct (nth i (event_of sc []) false) eqn:E; [|reflexivity]. apply event_of_nth in E as [_ []].
Qed.
Lemma copies_row i p c s o : nth_error (lexorder sc) i = Some (mkrow p c s o) -> copies sc i = c.
Proof. intros E. unfold copies. rewrite (nth_error_nth _ _ _ E), ScenarioProofs.mkrow_copies. reflexivity. Qed.

(** ** Representatives *)
Definition rep_key (k : bvec) : bvec := if length syms =? 1 then k else LPProofs9.top n syms k.
Definition rep (f : list nat) : list nat := flatnonzero (rep_key (key_of n f)).
Definition good_cache (c : acache) : Prop := forall k m, In (k, m) c -> length k = n /\ m = flatnonzero (rep_key k).
Lemma rep_step f c : good_cache c -> StronglySorted lt f -> (forall i, In i f -> i < n) ->
  fst (atomic_monomial n syms f c) = rep f /\ good_cache (snd (atomic_monomial n syms f c)).
Proof.
  intros G Sf B. destruct (LPProofs8.scenario_symmetries sc W Hout true). unfold atomic_monomial. destruct (LPModel.afind c (key_of n f)) as [m|] eqn:E.
  - apply LPProofs9.afind_in in E. cbn [fst snd]. split; [apply G in E as [_ ->]; reflexivity|exact G].
  - destruct (length syms =? 1) eqn:E1; cbn [fst snd].
    + assert (Ef : f = rep f) by (unfold rep, rep_key; rewrite E1; symmetry; apply flat_of_sorted; assumption). split; [exact Ef|].
      intros k m [H|H]; [|apply G, H]. assert (k = key_of n f) by congruence. assert (m = f) by congruence. subst k m. split; [apply LPProofs9.key_length|exact Ef].
    + fold (LPProofs9.top n syms (key_of n f)). assert (Er : flatnonzero (LPProofs9.top n syms (key_of n f)) = rep f) by (unfold rep, rep_key; rewrite E1; reflexivity).
      split; [exact Er|]. rewrite Er.
      assert (Q : forall vs c, good_cache c -> (forall v, In v vs -> length v = n /\ rep f = flatnonzero (rep_key v)) -> good_cache (fold_left (fun c k => (k, rep f) :: c) vs c)).
      { induction vs as [|v vs IH]; intros c' C' Hv; cbn [fold_left]; [exact C'|]. apply IH; [|intros u Hu; apply Hv; right; exact Hu].
        intros k m [H|H]; [|apply C', H]. assert (k = v) by congruence. assert (m = rep f) by congruence. subst k m. apply Hv. left. reflexivity. }
      apply Q; [exact G|]. intros v Hv. apply in_map_iff in Hv as (g & <- & Hg). assert (L : length (vtake (key_of n f) g) = n) by (unfold vtake; rewrite map_length; apply sg_range, Hg).
      split; [exact L|]. unfold rep, rep_key. rewrite E1. f_equal. apply (LPProofs9.top_same n syms); auto; [apply LPProofs9.key_length|]. exists g. auto.
Qed.
Lemma rep_related f : LPProofs4.related syms (event_of sc f) (event_of sc (rep f)).
Proof.
  destruct (LPProofs8.scenario_symmetries sc W Hout true). pose proof (LPProofs8.scenario_syms_ne sc) as Hs.
  assert (L : length (rep_key (key_of n f)) = n /\ LPProofs4.related syms (key_of n f) (rep_key (key_of n f))).
  { unfold rep_key. destruct (length syms =? 1).
    - split; [apply LPProofs9.key_length|]. exists (seq 0 n). split; [apply (LPProofs4.id_in n syms); auto|]. apply (LPProofs4.vtake_id n), LPProofs9.key_length.
    - assert (R : LPProofs4.related syms (key_of n f) (LPProofs9.top n syms (key_of n f))) by (apply LPProofs9.top_related; auto; apply LPProofs9.key_length). split; [|exact R].
      eapply LPProofs4.related_length; [exact sg_range|exact R]. }
  destruct L as [L R]. change (event_of sc f) with (key_of n f). unfold rep. rewrite event_of_flat by exact L. exact R.
Qed.
(** the representative is the same for events related by a symmetry *)
Lemma rep_same f f' : LPProofs4.related syms (event_of sc f) (event_of sc f') -> rep f = rep f'.
Proof.
  destruct (LPProofs8.scenario_symmetries sc W Hout true). pose proof (LPProofs8.scenario_syms_ne sc) as Hs. change (event_of sc f) with (key_of n f). change (event_of sc f') with (key_of n f'). intros R.
  unfold rep, rep_key. destruct (length syms =? 1) eqn:E1.
  - f_equal. destruct R as (g & Hg & <-). apply Nat.eqb_eq in E1. assert (I : In (seq 0 n) syms) by (apply (LPProofs4.id_in n syms); auto). destruct syms as [|h [|h' l]]; try discriminate.
    destruct Hg as [<-|[]]. destruct I as [ -> |[]]. symmetry. apply (LPProofs4.vtake_id n), LPProofs9.key_length.
  - f_equal. apply (LPProofs9.top_same n syms); auto; apply LPProofs9.key_length.
Qed.
Lemma rep_range f i : In i (rep f) -> i < n.
Proof.
  intros H. unfold rep in H. apply flatnonzero_in in H. destruct (Nat.lt_ge_cases i n) as [K|K]; [exact K|]. rewrite nth_overflow in H; [discriminate|].
  assert (L : length (rep_key (key_of n f)) = n); [|lia]. unfold rep_key. destruct (length syms =? 1); [apply LPProofs9.key_length|].
  destruct (LPProofs8.scenario_symmetries sc W Hout true). pose proof (LPProofs8.scenario_syms_ne sc) as Hs. eapply LPProofs4.related_length; [exact sg_range|]. apply LPProofs9.top_related; auto; apply LPProofs9.key_length.
Qed.
Lemma rep_sorted f : StronglySorted lt (rep f).
Proof. apply flatnonzero_sorted. Qed.
Lemma rep_nonempty f : f <> [] -> (forall i, In i f -> i < n) -> rep f <> [].
Proof.
  intros NE B E. destruct (rep_related f) as (g & Hg & R). rewrite E, event_of_blank in R. destruct (LPProofs8.scenario_symmetries sc W Hout true). destruct f as [|k f]; [congruence|]. assert (Hk := B k (or_introl eq_refl)).
  destruct (sg_range g Hg) as (Lg & Rg & Ng). assert (P : Permutation g (seq 0 n)).
  { apply NoDup_Permutation_bis; [exact Ng|rewrite seq_length; lia|]. intros x Hx. apply in_seq. specialize (Rg x Hx). lia. }
  assert (Ik : In k g) by (apply (Permutation_in k (Permutation_sym P)), in_seq; lia). apply (In_nth _ _ 0) in Ik as (j & Hj & Ej).
  assert (Q := f_equal (fun l => nth j l false) R). cbn beta in Q. change (nth j (permuted (event_of sc (k :: f)) g) false = nth j (blank n) false) in Q.
  rewrite ClassicalProofs.nth_permuted in Q by exact Hj. rewrite Ej in Q. rewrite (proj2 (event_of_nth (k :: f) k)) in Q by (split; [exact Hk|left; reflexivity]).
  unfold blank in Q. rewrite nth_repeat in Q. discriminate.
Qed.

(** ** The atoms of the columns *)
Lemma atoms_of_factors_rep fs : forall c, good_cache c -> (forall f, In f fs -> StronglySorted lt f /\ forall i, In i f -> i < n) ->
  fst (atoms_of_factors sc fs c) = map rep fs /\ good_cache (snd (atoms_of_factors sc fs c)).
Proof.
  induction fs as [|f fs IH]; intros c G H; cbn [atoms_of_factors map]; [auto|]. destruct (rep_step f c G) as [E1 G1]; [apply H; left; reflexivity|apply H; left; reflexivity|].
  destruct (atomic_monomial n syms f c) as [a c1]. cbn [fst snd] in E1, G1. destruct (IH c1 G1) as [E2 G2]; [intros f' Hf'; apply H; right; exact Hf'|].
  destruct (atoms_of_factors sc fs c1) as [l c2]. cbn [fst snd] in *. split; [congruence|exact G2].
Qed.
Definition small (v : bvec) : Prop := distinct_copies sc (flatnonzero v) <= 255.
Lemma flat_range v i : length v = n -> In i (flatnonzero v) -> i < n.
Proof. intros L H. apply flatnonzero_in in H. destruct (Nat.lt_ge_cases i n) as [K|K]; [exact K|]. rewrite nth_overflow in H by lia. discriminate. Qed.
Lemma factors_ok v : length v = n -> small v -> (exists fs, factorize_monomial_1d sc (flatnonzero v) = Some fs) /\ factor_facts sc (flatnonzero v) (factors sc (flatnonzero v)).
Proof. intros L S'. apply (factors_facts sc W); [apply flatnonzero_sorted|intros k; apply flat_range, L|exact S']. Qed.
Lemma all_atoms_rep vs : forall c, good_cache c -> (forall v, In v vs -> length v = n /\ small v) ->
  exists c', all_atoms sc vs c = Some (map (fun v => map rep (factors sc (flatnonzero v))) vs, c') /\ good_cache c'.
Proof.
  induction vs as [|v vs IH]; intros c G H; cbn [all_atoms map]; [exists c; auto|]. destruct (H v (or_introl eq_refl)) as [L S']. destruct (factors_ok v L S') as [(fs & E) F].
  unfold monomial_atoms. rewrite E. assert (EF : filter (fun f => negb (length f =? 0)) fs = factors sc (flatnonzero v)) by (unfold factors; rewrite E; reflexivity). rewrite EF.
  destruct (atoms_of_factors_rep (factors sc (flatnonzero v)) c G) as [E1 G1].
  { intros f Hf. split; [apply (ff_sorted _ _ _ F), Hf|]. intros i Hi. apply (flat_range v i L). apply (ff_in _ _ _ F). eauto. }
  destruct (atoms_of_factors sc (factors sc (flatnonzero v)) c) as [a c1]. cbn [fst snd] in E1, G1. destruct (IH c1 G1) as (c2 & E2 & G2); [intros u Hu; apply H; right; exact Hu|].
  rewrite E2. exists c2. split; [rewrite E1; reflexivity|exact G2].
Qed.

(** ** Probabilities *)
Section Prob.
Variables (P : list bool -> Qc).
Hypotheses (B : scenario_behaviour sc P) (I : relabelling_invariant sc P).
Hypothesis (IND : forall v w, length v = n -> length w = n -> measurable_event sc (either v w) -> separate sc v w -> P (either v w) = (P v * P w)%Qc).
Lemma related_prob v u : length v = n -> LPProofs4.related syms v u -> P u = P v.
Proof. intros L (g & Hg & <-). apply SymProofs.discover_exact in Hg as (sg & R & J); [|exact W]. apply (I sg g v R J L). Qed.
Lemma prob_blank : P (blank n) = 1%Qc.
Proof.
  assert (J : jointly_measurable sc []) by (split; [intros m []|intros m m' []]). destruct (B [] J) as (ws & [_ D] & _ & H). rewrite H.
  - unfold prob. rewrite <- D. apply sumQ_ext. intros q _. assert (K : happens (snd q) (blank n) = true); [|rewrite K; ring].
    apply ClassicalProofs.happens_iff. intros i Hi. unfold blank in Hi. rewrite nth_repeat in Hi. discriminate.
  - apply repeat_length.
  - intros i Hi. unfold blank in Hi. rewrite nth_repeat in Hi. discriminate.
Qed.
Lemma prob_nonneg v : length v = n -> measurable_event sc v -> (0 <= P v)%Qc.
Proof.
  intros L (ms & J & Hm). destruct (B ms J) as (ws & [D _] & _ & H). rewrite (H v L Hm). unfold prob. apply sumQ_nonneg. intros q Hq. specialize (D q Hq).
  destruct (happens (snd q) v); [replace (fst q * 1)%Qc with (fst q) by ring; exact D|replace (fst q * 0)%Qc with 0%Qc by ring; apply Qcle_refl].
Qed.
Lemma measurable_sub v u : measurable_event sc v -> (forall i, nth i u false = true -> nth i v false = true) -> measurable_event sc u.
Proof. intros (ms & J & H) K. exists ms. split; [exact J|]. intros i Hi. apply H, K, Hi. Qed.
Lemma prob_product fs : (forall i j k k', i < length fs -> j < length fs -> In k (nth i fs []) -> In k' (nth j fs []) -> share_copy (copies sc k) (copies sc k') -> i = j) ->
  measurable_event sc (event_of sc (concat fs)) -> P (event_of sc (concat fs)) = prodQ (map (fun f => P (event_of sc f)) fs).
Proof.
  induction fs as [|f fs IH]; intros A M; cbn [concat map]; [rewrite event_of_blank; apply prob_blank|]. rewrite prodQ_cons. rewrite <- event_of_app.
  rewrite IND; [|apply event_of_length|apply event_of_length| |].
  - f_equal. apply IH.
    + intros i j k k' Hi Hj Hk Hk' SH. assert (Q : S i = S j); [|lia]. apply (A (S i) (S j) k k'); cbn [length nth]; auto; lia.
    + apply (measurable_sub _ _ M). intros i Hi. apply event_of_nth in Hi as [Hi H]. apply event_of_nth. split; [exact Hi|]. cbn [concat]. apply in_or_app. right. exact H.
  - rewrite event_of_app. exact M.
  - intros i j p c s o p' c' s' o' Hi Hj Ei Ej SH. apply event_of_nth in Hi as [_ Hi]. apply event_of_nth in Hj as [_ Hj]. apply in_concat in Hj as (f' & Hf' & Hj). apply (In_nth _ _ []) in Hf' as (q & Hq & <-).
    assert (Q : 0 = S q); [|discriminate]. apply (A 0 (S q) i j); cbn [length nth]; auto; try lia. rewrite (copies_row i _ _ _ _ Ei), (copies_row j _ _ _ _ Ej). exact SH.
Qed.
Lemma column_prob v : length v = n -> small v -> measurable_event sc v -> P v = prodQ (map (fun a => P (event_of sc a)) (map rep (factors sc (flatnonzero v)))).
Proof.
  intros L S' M. destruct (factors_ok v L S') as [_ F]. assert (E : event_of sc (concat (factors sc (flatnonzero v))) = v).
  { rewrite <- (event_of_flat v L) at 2. apply event_of_ext. intros i _. rewrite (ff_in _ _ _ F), in_concat. tauto. }
  rewrite <- E at 1. rewrite prob_product; [|apply (ff_apart _ _ _ F)|rewrite E; exact M].
  rewrite map_map. f_equal. apply map_ext. intros f. symmetry. apply related_prob; [apply event_of_length|apply rep_related].
Qed.
End Prob.
End Product.
