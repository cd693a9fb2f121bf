(** Quantum models: means of products of operators of the inflation are normalised, symmetric and
    independent. *)
From Coq Require Import Permutation QArith Qcanon List Arith Bool Lia.
From Verif Require Import CanonModel CanonSpec ScenarioModel ScenarioSpec SymSpec MargModel QcSum CausalSpec MeanProofs QuantumSpec QuantumProofs QInflationSpec NormSpec QModelSpec QMomentProofs QModelProofs QModelProofs2 QModelProofs3 QModelProofs4.
From Verif Require ScenarioProofs ClassicalProofs SymProofs ClassicalMoments MargProofs.
Import ListNotations.
Close Scope Q_scope. Close Scope Qc_scope. Open Scope nat_scope.
Add Ring CringQM5 : C_ring.

Section Places.
Variables (sc : scenario) (W : wf_scenario sc) (m : quantum_model) (QM : quantum_model_of sc m).
Notation N := (nr_parties sc).
Notation n := (length (lexorder sc)).
Notation D := (weights m).
Notation qmean := (qmean sc m).
Notation all_copies := (all_copies sc).
Notation pact := (pact sc m).
Notation places_op := (places_op sc m).
Notation Psi := (joint_state sc m).
Notation vars := (flat_map (copy_variables sc)).
Definition place_at (i : nat) : place :=
  let r := nth i (lexorder sc) [] in
  match assoc (effective_to_parent sc (row_party r - 1)) (row_setting r) with
  | Some (y :: os) => {| pl_p := row_party r - 1; pl_c := row_copies r; pl_x := y; pl_os := os; pl_o := row_outcome r |}
  | _ => {| pl_p := 0; pl_c := []; pl_x := 0; pl_os := []; pl_o := 0 |}
  end.
Lemma place_row i p c s o y os : nth_error (lexorder sc) i = Some (mkrow (p + 1) c s o) -> assoc (effective_to_parent sc p) s = Some (y :: os) ->
  place_at i = {| pl_p := p; pl_c := c; pl_x := y; pl_os := os; pl_o := o |}.
Proof.
  intros E A. unfold place_at. rewrite (nth_error_nth _ _ _ E), ScenarioProofs.mkrow_party, ScenarioProofs.mkrow_setting, ScenarioProofs.mkrow_copies, ScenarioProofs.mkrow_outcome. replace (p + 1 - 1) with p by lia. rewrite A. reflexivity.
Qed.
Lemma place_parts i : i < n -> exists p c s o y os, nth_error (lexorder sc) i = Some (mkrow (p + 1) c s o) /\ valid_operator sc p c s o /\ assoc (effective_to_parent sc p) s = Some (y :: os) /\
  place_at i = {| pl_p := p; pl_c := c; pl_x := y; pl_os := os; pl_o := o |}.
Proof.
  intros Li. destruct (SymProofs.lexorder_parts sc i W Li) as (p & c & s & o & E & V). destruct (ClassicalProofs.setting_parts sc p s ltac:(apply V)) as (y & os & A & _).
  exists p, c, s, o, y, os. split; [exact E|]. split; [exact V|]. split; [exact A|]. apply (place_row i p c s o y os E A).
Qed.
Lemma op_place i F : i < n -> op sc m (S i) F = pact (place_at i) F.
Proof. intros Li. destruct (place_parts i Li) as (p & c & s & o & y & os & E & V & A & ->). rewrite (op_row sc m i p c s o y os F E A). reflexivity. Qed.
Lemma word_places ops F : (forall k, In k ops -> k < n) -> word_op sc m (map S ops) F = places_op (map place_at ops) F.
Proof.
  intros H. induction ops as [|i ops IH]; [reflexivity|]. cbn [map]. change (op sc m (S i) (word_op sc m (map S ops) F) = pact (place_at i) (places_op (map place_at ops) F)).
  rewrite IH by (intros k Hk; apply H; right; exact Hk). apply op_place, H. left. reflexivity.
Qed.
Lemma qmean_places ops : (forall k, In k ops -> k < n) -> qmean (map S ops) = expectation sc m all_copies (places_op (map place_at ops)).
Proof. intros H. unfold QModelProofs3.qmean, expectation. rewrite (word_places ops _ H). reflexivity. Qed.
Lemma heard_copy p c s o k : valid_operator sc p c s o -> In k (heard sc p) -> k < nr_sources sc /\ 1 <= nth k c 0 <= nth k (levels sc) 0.
Proof.
  intros V Hk. apply filter_In in Hk as [Lk G]. apply in_seq in Lk. unfold nr_sources in *. destruct (nth_error (sources sc) k) as [src|] eqn:Es; [|apply nth_error_None in Es; lia]. split; [lia|].
  apply (proj1 (proj2 (proj2 V)) k src Es). apply (ScenarioProofs.hypergraph_reaches sc k p src Es), G.
Qed.
Lemma place_uses_all i : i < n -> uses sc all_copies (place_at i).
Proof.
  intros Li. destruct (place_parts i Li) as (p & c & s & o & y & os & E & V & A & ->). intros k Hk. cbn [pl_p pl_c] in *. apply in_all. exact (heard_copy p c s o k V Hk).
Qed.
Lemma all_range ki : In ki all_copies -> fst ki < nr_sources sc.
Proof. destruct ki as [k i]. intros H. apply in_all in H. apply H. Qed.
Lemma qmean_one : qmean [] = C1.
Proof. change (expectation sc m all_copies (places_op []) = C1). apply (expectation_norm sc m QM); [apply all_NoDup|apply all_range]. Qed.

(** copies that are not used do not matter *)
Definition ki_dec : forall a b : nat * nat, {a = b} + {a <> b}. Proof. decide equality; apply Nat.eq_dec. Defined.
Definition used_copies (l : list place) : list (nat * nat) := flat_map (fun q => map (fun k => (k, nth k (pl_c q) 0)) (heard sc (pl_p q))) l.
Lemma uses_used l q : In q l -> forall cs, incl (used_copies l) cs -> uses sc cs q.
Proof. intros H cs I k Hk. apply I. unfold used_copies. apply in_flat_map. exists q. split; [exact H|]. apply in_map_iff. exists k. auto. Qed.
Lemma expectation_restrict cs A l : NoDup cs -> (forall ki, In ki cs -> fst ki < nr_sources sc) -> NoDup A -> incl A cs -> (forall q, In q l -> uses sc A q) ->
  expectation sc m cs (places_op l) = expectation sc m A (places_op l).
Proof.
  intros ND R NA I U. set (B := filter (fun ki => if in_dec ki_dec ki A then false else true) cs).
  assert (P : Permutation cs (A ++ B)).
  { apply NoDup_Permutation; [exact ND| |].
    - apply ClassicalProofs.NoDup_app; [exact NA|apply NoDup_filter, ND|]. intros z H H'. apply filter_In in H' as [_ H']. destruct (in_dec ki_dec z A); [discriminate|contradiction].
    - intros z. rewrite in_app_iff. unfold B. rewrite filter_In. split.
      + intros H. destruct (in_dec ki_dec z A); [left; assumption|right; auto].
      + intros [H|[H _]]; [apply I, H|exact H]. }
  assert (E := expectation_split sc m cs A B l [] ND P U ltac:(intros q [])). rewrite app_nil_r in E. rewrite E.
  rewrite (expectation_norm sc m QM B); [ring|apply NoDup_filter, ND|]. intros ki H. apply filter_In in H as [H _]. apply R, H.
Qed.
Lemma qmean_independent u v : operator_word sc u -> operator_word sc v -> (forall x y, In x u -> In y v -> ~ share_copy (copies_of sc x) (copies_of sc y)) ->
  qmean (u ++ v) = Cmult (qmean u) (qmean v).
Proof.
  intros Ou Ov SH. destruct (ClassicalMoments.operator_event sc u Ou) as (us & -> & Hu). destruct (ClassicalMoments.operator_event sc v Ov) as (vs & -> & Hv).
  rewrite <- map_app. rewrite (qmean_places (us ++ vs)) by (intros k Hk; apply in_app_iff in Hk as [Hk|Hk]; auto). rewrite (qmean_places us Hu), (qmean_places vs Hv), map_app.
  set (A := filter (fun ki => if in_dec ki_dec ki (used_copies (map place_at us)) then true else false) all_copies).
  set (B := filter (fun ki => negb (if in_dec ki_dec ki (used_copies (map place_at us)) then true else false)) all_copies).
  assert (ND : NoDup all_copies) by apply all_NoDup.
  assert (UA : forall q, In q (map place_at us) -> uses sc A q).
  { intros q Hq k Hk. assert (Hq' := Hq). apply in_map_iff in Hq' as (i & Ei & Hi). apply filter_In. split; [rewrite <- Ei in Hk |- *; apply (place_uses_all i (Hu i Hi)); exact Hk|].
    destruct (in_dec ki_dec (k, nth k (pl_c q) 0) (used_copies (map place_at us))) as [_|X]; [reflexivity|]. exfalso. apply X. exact (uses_used _ q Hq _ (incl_refl _) k Hk). }
  assert (UB : forall q, In q (map place_at vs) -> uses sc B q).
  { intros q Hq k Hk. apply in_map_iff in Hq as (j & <- & Hj). apply filter_In. split; [apply (place_uses_all j (Hv j Hj)); exact Hk|].
    destruct (in_dec ki_dec (k, nth k (pl_c (place_at j)) 0) (used_copies (map place_at us))) as [X|_]; [|reflexivity]. exfalso.
    unfold used_copies in X. apply in_flat_map in X as (q & Hq & X). apply in_map_iff in Hq as (i & <- & Hi). apply in_map_iff in X as (k' & X & Hk').
    destruct (place_parts i (Hu i Hi)) as (p & c & s & o & y & os & E & V & _ & Ep). destruct (place_parts j (Hv j Hj)) as (p' & c' & s' & o' & y' & os' & E' & V' & _ & Ep').
    rewrite Ep in X, Hk'. rewrite Ep' in X, Hk. cbn [pl_p pl_c] in *. assert (k' = k) by congruence. subst k'.
    assert (B1 := heard_copy p c s o k V Hk'). assert (B2 := heard_copy p' c' s' o' k V' Hk).
    apply (SH (S i) (S j)); [apply in_map, Hi|apply in_map, Hj|]. unfold copies_of, sdp_lexorder. cbn [nth]. rewrite (nth_error_nth _ _ _ E), (nth_error_nth _ _ _ E'), !ScenarioProofs.mkrow_copies.
    exists k. split; [lia|]. congruence. }
  assert (P : Permutation all_copies (A ++ B)) by (apply Permutation_sym, MargProofs.filter_partition).
  rewrite (expectation_split sc m all_copies A B _ _ ND P UA UB).
  rewrite (expectation_restrict all_copies A (map place_at us) ND all_range (NoDup_filter _ ND) ltac:(apply incl_filter) UA).
  rewrite (expectation_restrict all_copies B (map place_at vs) ND all_range (NoDup_filter _ ND) ltac:(apply incl_filter) UB). reflexivity.
Qed.
Lemma expectation_perm cs cs' l : NoDup cs -> Permutation cs cs' -> expectation sc m cs (places_op l) = expectation sc m cs' (places_op l).
Proof.
  intros ND P. unfold expectation. rewrite !total_is. rewrite (ctot_ext D (vars cs) _ (fun u => Cmult (Cconj (Psi cs' u)) (places_op l (Psi cs') u))).
  - apply ctot_perm_ext; [|apply Permutation_flat_map, P|apply variables_NoDup, ND]. apply integrand_ext; [apply state_ext|apply places_ext, state_ext].
  - intros u. rewrite (state_perm sc m cs cs' u P). f_equal. apply places_pointwise. intros u'. apply state_perm, P.
Qed.
Lemma qmean_has_zero w : In 0 w -> qmean w = C0.
Proof.
  intros H. apply in_split in H as (a & b & ->). transitivity (qmean [0]); [|apply qmean_zero]. rewrite !qmean_is. apply (pairing_agrees sc m QM); try apply state_ext; try (apply word_ext; [exact W|apply state_ext]); [intros u _; reflexivity|].
  rewrite word_app. intros u O. transitivity (vzero u).
  - apply (word_zero sc W m a); [|exact O]. intros u' _. reflexivity.
  - reflexivity.
Qed.
Lemma qmean_symmetric sg h w : is_relabelling sc sg -> induces sc sg h -> (forall x, In x w -> x <= n) -> qmean (map (fun x => nth x (0 :: map S h) 0) w) = qmean w.
Proof.
  intros R I H. assert (Lh : length h = n) by apply I. destruct (in_dec Nat.eq_dec 0 w) as [Hz|NZ].
  { rewrite (qmean_has_zero w Hz). apply qmean_has_zero. apply in_map_iff. exists 0. auto. }
  assert (OW : operator_word sc w) by (intros x Hx; split; [destruct x; [contradiction|lia]|apply H, Hx]). destruct (ClassicalMoments.operator_event sc w OW) as (ops & -> & Ho).
  assert (PG := SymProofs.induces_perm sc sg h W R I).
  assert (E : map (fun x => nth x (0 :: map S h) 0) (map S ops) = map S (map (fun i => nth i h 0) ops)).
  { rewrite !map_map. apply map_ext_in. intros i Hi. cbn [nth]. rewrite (nth_indep _ 0 (S 0)) by (rewrite map_length, Lh; apply Ho, Hi). apply (map_nth S). }
  assert (Hr : forall i, i < n -> nth i h 0 < n).
  { intros i Hi. assert (Q : In (nth i h 0) h) by (apply nth_In; lia). apply (Permutation_in _ PG) in Q. apply in_seq in Q. lia. }
  assert (Ho' : forall k, In k (map (fun i => nth i h 0) ops) -> k < n) by (intros k Hk; apply in_map_iff in Hk as (i & <- & Hi); apply Hr, Ho, Hi).
  rewrite E, (qmean_places _ Ho'), (qmean_places ops Ho). symmetry.
  assert (INJ : forall a b, In a all_copies -> In b all_copies -> recopy sg a = recopy sg b -> a = b).
  { intros [k i] [k' i'] Ha Hb Q. apply in_all in Ha, Hb. unfold recopy in Q. cbn [fst snd] in Q. assert (k = k') by congruence. subst k'. f_equal. apply (proj2 (proj2 (R k (proj1 Ha))) i i'); [apply Ha|apply Hb|congruence]. }
  rewrite (expectation_renamed sc m sg all_copies INJ (map place_at ops) (map place_at (map (fun i => nth i h 0) ops))).
  - apply expectation_perm.
    + apply ClassicalProofs.map_NoDup; [exact INJ|apply all_NoDup].
    + apply NoDup_Permutation_bis; [apply ClassicalProofs.map_NoDup; [exact INJ|apply all_NoDup]|rewrite map_length; apply le_n|]. intros ki Hk. apply in_map_iff in Hk as ([k i] & <- & Hk). apply in_all in Hk as [Hk Hi]. unfold recopy. cbn [fst snd]. apply in_all. split; [exact Hk|]. apply (R k Hk), Hi.
  - clear - I Ho Ho' W. induction ops as [|i ops IH]; [constructor|]. cbn [map] in *. constructor; [|apply IH; [intros k Hk; apply Ho; right; exact Hk|intros k Hk; apply Ho'; right; exact Hk]].
    assert (Li : i < n) by (apply Ho; left; reflexivity). destruct (place_parts i Li) as (p & c & s & o & y & os & E & V & A & ->).
    destruct (proj2 I i _ _ _ _ E) as (j & Ej & Er). rewrite (nth_error_nth _ _ 0 Ej). rewrite (place_row j p (relabel sg c) s o y os Er A).
    unfold renames. cbn [pl_p pl_c pl_x pl_os pl_o]. repeat (split; [reflexivity|]). intros k Hk. apply SymProofs.nth_relabel. rewrite (proj1 (proj2 V)). apply (heard_copy p c s o k V Hk).
  - intros q Hq. apply in_map_iff in Hq as (i & <- & Hi). apply place_uses_all, Ho, Hi.
Qed.
End Places.
