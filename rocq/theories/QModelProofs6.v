(** Quantum models: parts of the inflation that are copies of the original scenario. *)
From Coq Require Import Permutation QArith Qcanon List Arith Bool Lia.
From Verif Require Import CanonModel CanonSpec ScenarioModel ScenarioSpec SymSpec KnowSpec MargModel QcSum CausalSpec MeanProofs QuantumSpec QuantumProofs QInflationSpec NormSpec QModelSpec QMomentProofs QModelProofs QModelProofs2 QModelProofs3 QModelProofs4 QModelProofs5.
From Verif Require ScenarioProofs ClassicalProofs ClassicalProofs2 SymProofs ClassicalMoments MargProofs.
Import ListNotations.
Close Scope Q_scope. Close Scope Qc_scope. Open Scope nat_scope.
Add Ring CringQM6 : C_ring.

Lemma Csum_filter {A} (b : A -> bool) (f : A -> C) l : Csum (map f (filter b l)) = Csum (map (fun a => if b a then f a else C0) l).
Proof. induction l as [|a l IH]; [reflexivity|]. cbn [filter map]. destruct (b a); cbn [map]; rewrite !Csum_cons, IH; ring. Qed.
Lemma Csum_perm l l' : Permutation l l' -> Csum l = Csum l'.
Proof. intros P. rewrite !Csum_pair. f_equal; apply sumQ_perm, Permutation_map, P. Qed.

Section Original.
Variables (sc : scenario) (W : wf_scenario sc) (m : quantum_model) (QM : quantum_model_of sc m).
Notation N := (nr_parties sc).
Notation n := (length (lexorder sc)).
Notation D := (weights m).
Notation qmean := (qmean sc m).
Notation pact := (pact sc m).
Notation places_op := (places_op sc m).
Notation Psi := (joint_state sc m).
Notation vars := (flat_map (copy_variables sc)).
Notation ok := (ok sc m).

(** ** Operators of different parties commute *)
Lemma different_parties q q' F u : pl_p q <> pl_p q' -> extensional F -> pact q (pact q' F) u = pact q' (pact q F) u.
Proof.
  intros NE EF. unfold QModelProofs4.pact. apply act_commute; [|exact EF]. intros z H H'. apply in_systems in H as (k & _ & ->). apply in_systems in H' as (k' & _ & E). congruence.
Qed.
Lemma places_perm l l' : Permutation l l' -> NoDup (map pl_p l) -> forall F, extensional F -> forall u, places_op l F u = places_op l' F u.
Proof.
  induction 1 as [|q l l' P IH|q q' l|l l' l'' P IH P' IH']; intros ND F EF u.
  - reflexivity.
  - cbn [map] in ND. inversion ND; subst. apply (pact_pointwise sc m q (places_op l F) (places_op l' F)). apply IH; assumption.
  - change (pact q' (pact q (places_op l F)) u = pact q (pact q' (places_op l F)) u). cbn [map] in ND. inversion ND as [|? ? X _]; subst. apply different_parties; [|apply places_ext, EF]. intros E. apply X. left. congruence.
  - rewrite (IH ND F EF u). apply IH'; [|exact EF]. eapply Permutation_NoDup; [apply Permutation_map, P|exact ND].
Qed.
Lemma expectation_places_perm cs l l' : Permutation l l' -> NoDup (map pl_p l) -> expectation sc m cs (places_op l) = expectation sc m cs (places_op l').
Proof. intros P ND. unfold expectation. rewrite !total_is. apply ctot_ext. intros u. f_equal. apply places_perm; [exact P|exact ND|apply state_ext]. Qed.

(** ** Their products have real means *)
Definition proper_place (cs : list (nat * nat)) (q : place) : Prop := pl_p q < N /\ pl_o q < nth (pl_p q) (outcomes sc) 0 /\ uses sc cs q.
Lemma pact_adjoint cs q F G : NoDup cs -> proper_place cs q -> extensional F -> extensional G -> pairing sc m cs (pact q F) G = pairing sc m cs F (pact q G).
Proof.
  intros ND (Hp & Ho & U) EF EG. unfold pairing. rewrite !total_is. apply (act_adjoint sc m QM); try assumption; [apply variables_NoDup, ND| |apply ok_zero, QM].
  intros z Hz. apply in_variables. assert (Hz' := Hz). apply systems_copies in Hz' as (k & Hk & E). rewrite E. split; [apply U, Hk|]. apply in_systems in Hz as (k' & Hk' & ->). apply in_held in Hk' as [_ G']. apply in_holders. auto.
Qed.
Lemma places_adjoint cs l : NoDup cs -> (forall q, In q l -> proper_place cs q) -> forall F G, extensional F -> extensional G -> pairing sc m cs (places_op l F) G = pairing sc m cs F (places_op (rev l) G).
Proof.
  intros NC. induction l as [|q l IH]; intros U F G EF EG; [reflexivity|]. change (places_op (q :: l) F) with (pact q (places_op l F)). cbn [rev]. rewrite places_app. change (places_op [q] G) with (pact q G).
  rewrite (pact_adjoint cs q) by (try assumption; try (apply U; left; reflexivity); apply places_ext, EF). rewrite IH; [reflexivity|intros x Hx; apply U; right; exact Hx|exact EF|apply act_ext, EG].
Qed.
Lemma expectation_real cs l : NoDup cs -> (forall q, In q l -> proper_place cs q) -> NoDup (map pl_p l) -> snd (expectation sc m cs (places_op l)) = 0%Qc.
Proof.
  intros NC U ND. assert (E : expectation sc m cs (places_op l) = Cconj (expectation sc m cs (places_op l))).
  { change (expectation sc m cs (places_op l)) with (pairing sc m cs (Psi cs) (places_op l (Psi cs))) at 2. rewrite pairing_conj. rewrite (places_adjoint cs l NC U) by apply state_ext. apply (expectation_places_perm cs l (rev l)); [apply Permutation_rev|exact ND]. }
  apply (f_equal snd) in E. unfold Cconj in E. cbn [snd] in E. set (y := snd _) in *. clearbody y.
  assert (H : ((1 + 1) * y = 0)%Qc) by (transitivity (y + y)%Qc; [ring|]; rewrite E at 1; ring).
  apply Qcmult_integral in H as [H|H]; [discriminate|exact H].
Qed.

(** ** The original scenario *)
Definition originals : list (nat * nat) := map (fun k => (k, 0)) (seq 0 (nr_sources sc)).
Lemma originals_NoDup : NoDup originals. Proof. apply ClassicalProofs.map_NoDup; [congruence|apply seq_NoDup]. Qed.
Lemma originals_range ki : In ki originals -> fst ki < nr_sources sc. Proof. intros H. apply in_map_iff in H as (k & <- & H). apply in_seq in H. cbn. lia. Qed.
Definition in_original (q : place) : place := {| pl_p := pl_p q; pl_c := []; pl_x := pl_x q; pl_os := pl_os q; pl_o := pl_o q |}.
Lemma original_uses q : pl_c q = [] -> uses sc originals q.
Proof. intros E k Hk. rewrite E. destruct k; cbn [nth]; (apply in_map_iff; eexists; split; [reflexivity|]; apply filter_In in Hk; apply Hk). Qed.
Lemma in_used l ki : In ki (used_copies sc l) <-> exists q k, In q l /\ In k (heard sc (pl_p q)) /\ ki = (k, nth k (pl_c q) 0).
Proof.
  unfold used_copies. rewrite in_flat_map. split.
  - intros (q & Hq & H). apply in_map_iff in H as (k & <- & Hk). exists q, k. auto.
  - intros (q & k & Hq & Hk & ->). exists q. split; [exact Hq|]. apply in_map_iff. exists k. auto.
Qed.
Lemma to_original l cs : NoDup cs -> (forall ki, In ki cs -> fst ki < nr_sources sc) -> (forall q, In q l -> uses sc cs q) ->
  (forall q q' k, In q l -> In q' l -> In k (heard sc (pl_p q)) -> In k (heard sc (pl_p q')) -> nth k (pl_c q) 0 = nth k (pl_c q') 0) ->
  expectation sc m cs (places_op l) = expectation sc m originals (places_op (map in_original l)).
Proof.
  intros ND R U OC. set (A := nodup ki_dec (used_copies sc l)).
  assert (IA : forall ki, In ki A <-> In ki (used_copies sc l)) by (intros ki; apply nodup_In).
  assert (UA : forall q, In q l -> uses sc A q) by (intros q Hq; apply (uses_used sc l q Hq); intros ki; apply IA).
  assert (AC : incl A cs). { intros ki H. apply IA, in_used in H as (q & k & Hq & Hk & ->). apply (U q Hq k Hk). }
  rewrite (expectation_restrict sc m QM cs A l ND R (NoDup_nodup _ _) AC UA).
  set (tau := fun _ _ : nat => 0).
  assert (INJ : forall a b, In a A -> In b A -> recopy tau a = recopy tau b -> a = b).
  { intros a b Ha Hb E. apply IA, in_used in Ha as (q & k & Hq & Hk & ->). apply IA, in_used in Hb as (q' & k' & Hq' & Hk' & ->). unfold recopy in E. cbn [fst snd] in E. assert (k = k') by congruence. subst k'. f_equal. apply OC; assumption. }
  rewrite (expectation_renamed sc m tau A INJ l (map in_original l)); [|  |exact UA].
  - symmetry. apply (expectation_restrict sc m QM); [apply originals_NoDup|apply originals_range|apply ClassicalProofs.map_NoDup; [exact INJ|apply NoDup_nodup]| |].
    + intros ki H. apply in_map_iff in H as (a & <- & Ha). unfold recopy, tau. apply in_map_iff. exists (fst a). split; [reflexivity|]. apply in_seq. assert (Q := R a (AC a Ha)). lia.
    + intros q' Hq'. apply in_map_iff in Hq' as (q & <- & Hq). intros k Hk. cbn [in_original pl_p pl_c] in *. apply in_map_iff. exists (k, nth k (pl_c q) 0). split; [unfold recopy, tau; cbn [fst snd]; destruct k; reflexivity|apply (UA q Hq k Hk)].
  - clear. induction l as [|q l IH]; [constructor|]. cbn [map]. constructor; [|exact IH]. unfold renames, in_original. cbn [pl_p pl_c pl_x pl_os pl_o]. repeat (split; [reflexivity|]). intros k _. destruct k; reflexivity.
Qed.

(** ** Summing over the outcomes of parties *)
Variables (AC : acyclic sc) (x : list nat).
Definition party_place (al : nat -> nat) (p : nat) : place := {| pl_p := p; pl_c := []; pl_x := nth p x 0; pl_os := map al (nth p (parents sc) []); pl_o := al p |}.
Definition joint (al : nat -> nat) (T : list nat) : C := expectation sc m originals (places_op (map (party_place al) T)).
Lemma joint_all a : joint (fun p => nth p a 0) (seq 0 N) = expectation sc m originals (all_outcomes sc m a x).
Proof.
  unfold joint, expectation. f_equal. unfold all_outcomes. generalize (seq 0 N). intros l. set (F := Psi originals). clearbody F.
  enough (E : places_op (map (party_place (fun p => nth p a 0)) l) F = fold_right (fun p G => apply_effect sc m p [] (nth p x 0) (map (fun q => nth q a 0) (nth p (parents sc) [])) (nth p a 0) G) F l) by (rewrite E; reflexivity).
  induction l as [|p l IH]; [reflexivity|]. cbn [fold_right map]. rewrite <- IH. reflexivity.
Qed.
Lemma parties_of al T : map pl_p (map (party_place al) T) = T.
Proof. rewrite map_map. apply map_id. Qed.
Definition set_outcome (al : nat -> nat) (p o : nat) (q : nat) : nat := if q =? p then o else al q.
Definition closed (T : list nat) : Prop := forall p q, In p T -> In q (nth p (parents sc) []) -> In q T.
Lemma place_ext al be p : al p = be p -> (forall q, In q (nth p (parents sc) []) -> al q = be q) -> party_place al p = party_place be p.
Proof. intros E H. unfold party_place. rewrite E. f_equal. apply map_ext_in, H. Qed.
Lemma joint_sum al T p : p < N -> ~ In p T -> closed T -> (forall q, In q (nth p (parents sc) []) -> q <> p) ->
  joint al T = Csum (map (fun o => joint (set_outcome al p o) (p :: T)) (seq 0 (nth p (outcomes sc) 0))).
Proof.
  intros Hp NI CT NP.
  assert (ET : forall o, map (party_place (set_outcome al p o)) T = map (party_place al) T).
  { intros o. apply map_ext_in. intros q Hq. apply place_ext.
    - unfold set_outcome. destruct (Nat.eqb_spec q p); [subst; contradiction|reflexivity].
    - intros r Hr. unfold set_outcome. destruct (Nat.eqb_spec r p); [subst; exfalso; apply NI, (CT q p Hq Hr)|reflexivity]. }
  assert (EO : forall o, map al (nth p (parents sc) []) = map (set_outcome al p o) (nth p (parents sc) [])).
  { intros o. apply map_ext_in. intros r Hr. unfold set_outcome. destruct (Nat.eqb_spec r p); [exfalso; apply (NP r Hr); assumption|reflexivity]. }
  unfold joint, expectation. rewrite total_is.
  set (F := places_op (map (party_place al) T) (Psi originals)). assert (EF : extensional F) by (apply places_ext, state_ext).
  transitivity (Csum (map (fun o => ctot D (vars originals) (fun u => Cmult (Cconj (Psi originals u)) (apply_effect sc m p [] (nth p x 0) (map al (nth p (parents sc) [])) o F u)) (fun _ => 0)) (seq 0 (nth p (outcomes sc) 0)))).
  - rewrite <- ctot_sum. apply ctot_ext_in.
    + apply integrand_ext; [apply state_ext|exact EF].
    + intros u u' E. apply Csum_ext. intros o _. rewrite (state_ext sc m originals u u' E), (act_ext sc m p [] _ _ o F EF u u' E). reflexivity.
    + intros u R. assert (O : ok u) by (eapply ok_ranges; [apply ok_zero, QM|exact R]). rewrite Csum_scale, (act_complete sc m QM p [] _ _ F u Hp EF O). reflexivity.
  - apply Csum_ext. intros o _. rewrite total_is. apply ctot_ext. intros u. cbn [map]. rewrite (ET o). fold F. rewrite (EO o). unfold party_place at 1.
    change (places_op ({| pl_p := p; pl_c := []; pl_x := nth p x 0; pl_os := map (set_outcome al p o) (nth p (parents sc) []); pl_o := set_outcome al p o p |} :: map (party_place al) T) (Psi originals) u)
      with (apply_effect sc m p [] (nth p x 0) (map (set_outcome al p o) (nth p (parents sc) [])) (set_outcome al p o p) F u).
    unfold set_outcome at 3. rewrite Nat.eqb_refl. reflexivity.
Qed.
Definition extends (al : nat -> nat) (T : list nat) (a : list nat) : bool := forallb (fun p => nth p a 0 =? al p) T.
Lemma sum_out : forall k T al, N - length T = k -> NoDup T -> closed T -> (forall p, In p T -> p < N /\ al p < nth p (outcomes sc) 0) ->
  joint al T = Csum (map (fun a => joint (fun p => nth p a 0) (seq 0 N)) (filter (extends al T) (ndindex (outcomes sc)))).
Proof.
  destruct AC as (rank & RK). assert (PR := ClassicalProofs2.parents_range sc W).
  induction k as [|k IH]; intros T al Ek ND CT RT.
  - (* all parties *)
    assert (P : Permutation T (seq 0 N)).
    { apply NoDup_Permutation_bis; [exact ND|rewrite seq_length; lia|]. intros p Hp. apply in_seq. assert (Q := RT p Hp). lia. }
    set (a := map al (seq 0 N)).
    assert (Na : forall p, p < N -> nth p a 0 = al p). { intros p Hp. unfold a. rewrite (nth_indep _ 0 (al 0)) by (rewrite map_length, seq_length; exact Hp). rewrite map_nth, seq_nth by exact Hp. reflexivity. }
    assert (La : length a = N) by (unfold a; rewrite map_length; apply seq_length).
    assert (IT : forall p, p < N -> In p T) by (intros p Hp; apply (Permutation_in p (Permutation_sym P)), in_seq; lia).
    assert (Ra : Forall2 lt a (outcomes sc)).
    { apply (MargProofs.Forall2_nth_iff lt a (outcomes sc) 0 0). split; [exact La|]. intros p Hp. rewrite La in Hp. rewrite (Na p Hp). apply RT, IT, Hp. }
    assert (PF : Permutation (filter (extends al T) (ndindex (outcomes sc))) [a]).
    { apply NoDup_Permutation; [apply NoDup_filter, ndindex_nodup|constructor; [intros []|constructor]|].
      intros b. rewrite filter_In, in_ndindex. unfold extends. rewrite forallb_forall. split.
      - intros [Rb Eb]. left. assert (Lb := ScenarioProofs.Forall2_len _ _ _ Rb). apply SymProofs.list_ext; [rewrite La, Lb; reflexivity|]. intros p Hp. rewrite La in Hp. rewrite (Na p Hp). symmetry. apply Nat.eqb_eq, Eb, IT, Hp.
      - intros [<-|[]]. split; [exact Ra|]. intros p Hp. apply Nat.eqb_eq, Na, RT, Hp. }
    rewrite (Csum_perm _ _ (Permutation_map _ PF)).
    cbn [map]. rewrite Csum_cons, Csum_nil. transitivity (joint (fun p => nth p a 0) (seq 0 N)); [|ring]. apply expectation_places_perm.
    + rewrite (map_ext_in (party_place (fun p => nth p a 0)) (party_place al)); [apply Permutation_map, P|]. intros p Hp. apply in_seq in Hp. apply place_ext; [apply Na; lia|]. intros q Hq. apply Na, (PR p q Hq).
    + rewrite parties_of. exact ND.
  - (* a missing party of least rank *)
    set (missing := filter (fun p => negb (existsb (Nat.eqb p) T)) (seq 0 N)).
    assert (IM : forall p, In p missing <-> p < N /\ ~ In p T).
    { intros p. unfold missing. rewrite filter_In, in_seq, negb_true_iff. split; intros [H1 H2]; (split; [lia|]).
      - intros H. assert (X : existsb (Nat.eqb p) T = true); [|congruence]. apply existsb_exists. exists p. split; [exact H|apply Nat.eqb_refl].
      - destruct (existsb (Nat.eqb p) T) eqn:E; [|reflexivity]. exfalso. apply H2. apply existsb_exists in E as (q & Hq & E). apply Nat.eqb_eq in E. subst q. exact Hq. }
    assert (NEM : exists p, In p missing).
    { destruct missing as [|p ms] eqn:Em; [exfalso|exists p; left; reflexivity]. assert (I : incl (seq 0 N) T). { intros p Hp. apply in_seq in Hp. destruct (in_dec Nat.eq_dec p T); [assumption|]. exfalso. apply (IM p). split; [lia|assumption]. }
      apply NoDup_incl_length in I; [|apply seq_NoDup]. rewrite seq_length in I. lia. }
    assert (MIN : exists p, In p missing /\ forall q, In q missing -> rank p <= rank q).
    { clear - NEM. destruct NEM as (p & Hp). assert (G : forall r p, In p missing -> rank p <= r -> exists p, In p missing /\ forall q, In q missing -> rank p <= rank q).
      { induction r as [|r IHr]; intros p0 H0 Hr.
        - exists p0. split; [exact H0|]. intros q _. lia.
        - destruct (existsb (fun q => rank q <? rank p0) missing) eqn:E.
          + apply existsb_exists in E as (q & Hq & E). apply Nat.ltb_lt in E. apply (IHr q Hq). lia.
          + exists p0. split; [exact H0|]. intros q Hq. destruct (Nat.lt_ge_cases (rank q) (rank p0)) as [X|X]; [|exact X]. exfalso. assert (Y : existsb (fun q => rank q <? rank p0) missing = true); [|congruence]. apply existsb_exists. exists q. split; [exact Hq|]. apply Nat.ltb_lt, X. }
      exact (G (rank p) p Hp (le_n _)). }
    destruct MIN as (p & Hp & MIN). apply IM in Hp as [Hp NI].
    assert (PP : forall q, In q (nth p (parents sc) []) -> In q T).
    { intros q Hq. destruct (in_dec Nat.eq_dec q T) as [I|I]; [exact I|]. exfalso. assert (Q := RK p q Hp Hq). assert (Q' := MIN q ltac:(apply IM; split; [apply (PR p q Hq)|exact I])). lia. }
    rewrite (joint_sum al T p Hp NI CT) by (intros q Hq E; subst q; assert (Q := RK p p Hp Hq); lia).
    transitivity (Csum (map (fun o => Csum (map (fun a => if extends (set_outcome al p o) (p :: T) a then joint (fun p => nth p a 0) (seq 0 N) else C0) (ndindex (outcomes sc)))) (seq 0 (nth p (outcomes sc) 0)))).
    + apply Csum_ext. intros o Ho. apply in_seq in Ho. rewrite <- Csum_filter. apply IH.
      * cbn [length]. lia.
      * constructor; assumption.
      * intros q r [<-|Hq] Hr; [right; apply PP, Hr|right; apply (CT q r Hq Hr)].
      * intros q Hq. unfold set_outcome. destruct (Nat.eqb_spec q p) as [->|NE]; [split; [exact Hp|lia]|]. destruct Hq as [Hq|Hq]; [congruence|]. apply RT, Hq.
    + rewrite Csum_swap, Csum_filter. apply Csum_ext. intros a Ha. apply in_ndindex in Ha.
      rewrite (Csum_ext (seq 0 (nth p (outcomes sc) 0)) _ (fun o => if Nat.eq_dec (nth p a 0) o then (if extends al T a then joint (fun p => nth p a 0) (seq 0 N) else C0) else C0)).
      * apply (Csum_single Nat.eq_dec (seq 0 (nth p (outcomes sc) 0)) (nth p a 0) (fun _ => if extends al T a then joint (fun p => nth p a 0) (seq 0 N) else C0)); [apply seq_NoDup|]. apply in_seq. assert (Lp : p < length a) by (rewrite (ScenarioProofs.Forall2_len _ _ _ Ha); exact Hp).
        assert (Q := proj2 (proj1 (MargProofs.Forall2_nth_iff lt a (outcomes sc) 0 0) Ha) p Lp). lia.
      * intros o _. unfold extends. cbn [forallb]. unfold set_outcome at 1. rewrite Nat.eqb_refl.
        assert (E : forallb (fun q => nth q a 0 =? set_outcome al p o q) T = forallb (fun q => nth q a 0 =? al q) T).
        { apply eq_true_iff_eq. rewrite !forallb_forall. split; intros H q Hq; specialize (H q Hq); unfold set_outcome in *; (destruct (Nat.eqb_spec q p) as [Eq|_]; [rewrite Eq in Hq; contradiction|exact H]). }
        rewrite E. destruct (Nat.eq_dec (nth p a 0) o) as [->|NE]; [rewrite Nat.eqb_refl; reflexivity|]. apply Nat.eqb_neq in NE. rewrite NE. reflexivity.
Qed.

(** ** Copies of the original scenario *)
Variables (ops : list nat) (Hops : forall k, In k ops -> k < n).
Let mon := map (fun k => nth k (lexorder sc) []) ops.
Hypotheses (OP : one_operator_per_party mon) (OC : one_copy_per_source mon) (PA : parents_agree sc mon).
Variables (l : list (list nat)) (Nl : NoDup l).
Hypothesis Hl : forall a, In a l <-> Forall2 lt a (outcomes sc) /\ forall p c s o, In (mkrow (p + 1) c s o) mon -> nth p a 0 = o.
Hypothesis Hx : forall p, p < N ->
  (forall c s o y os, In (mkrow (p + 1) c s o) mon -> assoc (effective_to_parent sc p) s = Some (y :: os) -> nth p x 0 = y) /\
  ((forall c s o, ~ In (mkrow (p + 1) c s o) mon) -> nth p x 0 = 0).
Notation place_at := (place_at sc).
Definition party_at (i : nat) : nat := pl_p (place_at i).
(** the outcomes of the operators *)
Definition outcome_at (p : nat) : nat := match find (fun i => party_at i =? p) ops with Some i => pl_o (place_at i) | None => 0 end.
Lemma at_parts i : In i ops -> exists p c s o y os, nth_error (lexorder sc) i = Some (mkrow (p + 1) c s o) /\ valid_operator sc p c s o /\ In (mkrow (p + 1) c s o) mon /\ assoc (effective_to_parent sc p) s = Some (y :: os) /\
  place_at i = {| pl_p := p; pl_c := c; pl_x := y; pl_os := os; pl_o := o |}.
Proof.
  intros Hi. destruct (place_parts sc W i (Hops i Hi)) as (p & c & s & o & y & os & E & V & A & E'). exists p, c, s, o, y, os. repeat (split; [assumption|]). split; [|split; assumption].
  unfold mon. apply in_map_iff. exists i. split; [apply nth_error_nth, E|exact Hi].
Qed.
Lemma outcome_row p c s o : In (mkrow (p + 1) c s o) mon -> outcome_at p = o /\ In p (map party_at ops).
Proof.
  intros H. destruct (ClassicalProofs2.row_mon sc W ops Hops _ H) as (i & p' & c' & s' & o' & Hi & E & Ei & V). apply ScenarioProofs.mkrow_inj in E as (E1 & <- & <- & <-). assert (p' = p) by lia. subst p'.
  destruct (at_parts i Hi) as (q & d & t & o' & y & os & E2 & _ & _ & _ & E3). rewrite Ei in E2. assert (E4 : mkrow (p + 1) c s o = mkrow (q + 1) d t o') by congruence. apply ScenarioProofs.mkrow_inj in E4 as (E4 & <- & <- & <-). assert (q = p) by lia. subst q.
  assert (Pi : party_at i = p) by (unfold party_at; rewrite E3; reflexivity). split; [|apply in_map_iff; exists i; auto].
  unfold outcome_at. destruct (find (fun i => party_at i =? p) ops) as [j|] eqn:F.
  - apply find_some in F as [Hj F]. apply Nat.eqb_eq in F. destruct (at_parts j Hj) as (q' & d' & t' & o2 & y' & os' & E6 & _ & Hm & _ & E5). unfold party_at in F. rewrite E5 in F |- *. cbn [pl_p pl_o] in *. subst q'.
    symmetry. apply (ClassicalProofs2.same_party sc ops OP _ _ _ _ _ _ _ H Hm).
  - exfalso. assert (X := find_none _ _ F i Hi). cbn beta in X. rewrite Pi, Nat.eqb_refl in X. discriminate.
Qed.
Lemma place_is i : In i ops -> in_original (place_at i) = party_place outcome_at (party_at i).
Proof.
  intros Hi. destruct (at_parts i Hi) as (p & c & s & o & y & os & E & V & Hm & A & E'). unfold party_at. rewrite E'. unfold in_original, party_place. cbn [pl_p pl_c pl_x pl_os pl_o].
  rewrite (proj1 (Hx p ltac:(apply V)) c s o y os Hm A), (proj1 (outcome_row p c s o Hm)). f_equal.
  destruct (PA p c s o Hm) as (y' & os' & A' & Lo & P). assert (os' = os) by congruence. subst os'. apply SymProofs.list_ext; [rewrite map_length; exact Lo|]. intros j Hj.
  destruct (nth_error (nth p (parents sc) []) j) as [q|] eqn:Eq; [|apply nth_error_None in Eq; lia]. destruct (P j q Eq) as (c' & s' & Hq).
  rewrite (nth_error_nth _ j 0 (map_nth_error outcome_at j _ Eq)). symmetry. apply (outcome_row q c' s' _ Hq).
Qed.
Lemma parties_NoDup : NoDup (map party_at ops).
Proof.
  apply NoDup_nth_error. intros i j Li E. rewrite map_length in Li. destruct (nth_error ops i) as [a|] eqn:Ea; [|apply nth_error_None in Ea; lia]. rewrite (map_nth_error _ _ _ Ea) in E.
  symmetry in E. assert (Lj : j < length ops) by (rewrite <- (map_length party_at); apply nth_error_Some; congruence). destruct (nth_error ops j) as [b|] eqn:Eb; [|apply nth_error_None in Eb; lia]. rewrite (map_nth_error _ _ _ Eb) in E.
  destruct (at_parts a (nth_error_In _ _ Ea)) as (p & c & s & o & y & os & E1 & _ & _ & _ & F1). destruct (at_parts b (nth_error_In _ _ Eb)) as (p' & c' & s' & o' & y' & os' & E2 & _ & _ & _ & F2).
  unfold party_at in E. rewrite F1, F2 in E. cbn [pl_p] in E. assert (p' = p) by congruence. subst p'.
  apply (OP i j (p + 1) c s o c' s' o'); unfold mon; [rewrite (map_nth_error _ _ _ Ea), (nth_error_nth _ _ _ E1)|rewrite (map_nth_error _ _ _ Eb), (nth_error_nth _ _ _ E2)]; reflexivity.
Qed.
Lemma qmean_original : qmean (map S ops) = joint outcome_at (map party_at ops).
Proof.
  rewrite (qmean_places sc W m ops Hops). rewrite (to_original (map place_at ops) (all_copies sc)).
  - unfold joint. rewrite !map_map. rewrite (map_ext_in (fun i => in_original (place_at i)) (fun i => party_place outcome_at (party_at i)) ops place_is). reflexivity.
  - apply all_NoDup.
  - apply all_range.
  - intros q Hq. apply in_map_iff in Hq as (i & <- & Hi). apply (place_uses_all sc W), Hops, Hi.
  - intros q q' k Hq Hq' Hk Hk'. apply in_map_iff in Hq as (i & <- & Hi). apply in_map_iff in Hq' as (j & <- & Hj).
    destruct (at_parts i Hi) as (p & c & s & o & y & os & _ & V & Hm & _ & E). destruct (at_parts j Hj) as (p' & c' & s' & o' & y' & os' & _ & V' & Hm' & _ & E'). rewrite E in *. rewrite E' in *. cbn [pl_p pl_c] in *.
    assert (B1 := heard_copy sc p c s o k V Hk). assert (B2 := heard_copy sc p' c' s' o' k V' Hk'). apply (OC _ _ _ _ _ _ _ _ k Hm Hm'); lia.
Qed.
Lemma qmean_observed : qmean (map S ops) = (sumQ (map (fun a => quantum_observed sc m a x) l), 0%Qc).
Proof.
  assert (RT : forall p, In p (map party_at ops) -> p < N /\ outcome_at p < nth p (outcomes sc) 0).
  { intros p H. apply in_map_iff in H as (i & <- & Hi). destruct (at_parts i Hi) as (p & c & s & o & y & os & _ & V & Hm & _ & E). unfold party_at. rewrite E. cbn [pl_p]. rewrite (proj1 (outcome_row p c s o Hm)). split; apply V. }
  apply injective_projections; cbn [fst snd].
  - rewrite qmean_original. rewrite (sum_out (N - length (map party_at ops)) (map party_at ops) outcome_at eq_refl parties_NoDup).
    + rewrite Csum_pair. cbn [fst]. rewrite map_map. rewrite (map_ext _ (fun a => quantum_observed sc m a x)) by (intros a; rewrite joint_all; reflexivity).
      apply sumQ_perm, Permutation_map. apply NoDup_Permutation; [apply NoDup_filter, ndindex_nodup|exact Nl|]. intros a. rewrite filter_In, in_ndindex, Hl. unfold extends. rewrite forallb_forall. split; intros [Ra H]; (split; [exact Ra|]).
      * intros p c s o Hm. destruct (outcome_row p c s o Hm) as [<- I]. apply Nat.eqb_eq, H, I.
      * intros p I. apply in_map_iff in I as (i & <- & Hi). destruct (at_parts i Hi) as (p & c & s & o & y & os & _ & V & Hm & _ & E). unfold party_at. rewrite E. cbn [pl_p]. rewrite (proj1 (outcome_row p c s o Hm)). apply Nat.eqb_eq, (H p c s o Hm).
    + intros p q I Hq. apply in_map_iff in I as (i & <- & Hi). destruct (at_parts i Hi) as (p & c & s & o & y & os & _ & V & Hm & _ & E). unfold party_at in Hq. rewrite E in Hq. cbn [pl_p] in Hq.
      destruct (PA p c s o Hm) as (y' & os' & A' & Lo & P). apply In_nth_error in Hq as (j & Hj). destruct (P j q Hj) as (c' & s' & Hq'). apply (outcome_row q c' s' _ Hq').
    + exact RT.
  - rewrite qmean_original. unfold joint. apply expectation_real.
    + apply originals_NoDup.
    + intros q Hq. apply in_map_iff in Hq as (p & <- & Hp). split; [apply RT, Hp|]. split; [apply RT, Hp|]. apply original_uses. reflexivity.
    + rewrite parties_of. apply parties_NoDup.
Qed.
End Original.

Theorem quantum_moments sc m arr : wf_scenario sc -> acyclic sc -> (forall k, In k (private_settings sc) -> 1 <= k) -> quantum_model_of sc m ->
  (forall a x, Forall2 lt a (outcomes sc) -> Forall2 lt x (private_settings sc) -> nd_at arr (a ++ x) = quantum_observed sc m a x) -> moments_of sc arr (qmean sc m).
Proof.
  intros W AC PS QM E. constructor.
  - apply (qmean_equal sc W m QM).
  - apply qmean_zero.
  - apply (qmean_one sc m QM).
  - apply (qmean_conjugate sc W m QM).
  - apply (qmean_positive sc W m QM).
  - apply (qmean_symmetric sc W m QM).
  - apply (qmean_independent sc W m QM).
  - intros p c s g u v. apply (qmean_normalised sc W m QM).
  - intros ops H mon OP OC PA l x Nl Hl Lx Hx. rewrite (qmean_observed sc W m QM AC x ops H OP OC PA l Nl Hl Hx). f_equal. apply sumQ_ext. intros a Ha. symmetry. apply E; [apply Hl, Ha|].
    apply (ClassicalProofs2.settings_in_range sc W ops H x Hx Lx PS).
Qed.
