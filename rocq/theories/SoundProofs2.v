(** The values that set_distribution derives hold at the moments of an inflation. *)
From Coq Require Import List Arith Bool QArith Qcanon Lia Permutation Sorted.
From Verif Require Import CanonModel ScenarioModel ScenarioSpec SymModel SymSpec KnowModel KnowSpec FactorModel FactorSpec MargModel QcSum LPModel LPSpec LPSpec2 InflatedSpec ProgramModel ProgramSpec ProgramProofs ProgramProofs2 ProgramProofs3 LPSolveModel LPSolveSpec LPSolveProofs ProgramLP ProgramLPProofs LPMomentModel LPMomentProofs LPMomentProofs2 ColumnsFacts SoundProofs.
From Verif Require ScenarioProofs SymProofs FactorProofs KnowProofs PropMarg PropProgram ColumnProofs2.
Import ListNotations.
Close Scope Q_scope. Close Scope Qc_scope. Open Scope nat_scope.

(** the probability of the outcomes of [ops], summed from the distribution *)
Definition marginal_of (sc : scenario) (arr : ndarray) (ops : list nat) : Qc :=
  sumQ (map (fun a => nd_at arr (a ++ settings_of sc ops)) (agreeing sc ops)).

Lemma sorted_le (l : list nat) : StronglySorted lt l -> StronglySorted le l.
Proof. induction 1 as [|a l _ IH H]; constructor; [exact IH|]. eapply Forall_impl; [|exact H]. cbn. intros b. lia. Qed.
Section Values.
Variables (sc : scenario) (W : wf_scenario sc) (Hout : forall o, In o (outcomes sc) -> 1 <= o) (Hset : forall k, In k (private_settings sc) -> 1 <= k).
Notation n := (length (lexorder sc)).
Hypothesis FC : few_copies sc.
Variables (ao sup : bool) (r : relaxation) (G : generate sc ao sup = Some r).
Notation atoms := (r_atoms r).
Notation c := (r_context r).

Lemma some_atom i : i < length atoms -> nth i atoms [] <> [] /\ StronglySorted lt (nth i atoms []) /\ forall k, In k (nth i atoms []) -> k < n.
Proof.
  intros Hi. destruct (generate_is sc W Hout FC ao sup r G) as (prog & E & _ & _ & EA & _). rewrite EA in *. apply (atom_facts sc W Hout FC prog ao E), nth_In, Hi.
Qed.
Lemma knowable_is i : is_knowable c i = true <-> atom_is_knowable sc (nth i atoms []) = Some true.
Proof.
  destruct (generate_is sc W Hout FC ao sup r G) as (prog & E & _ & _ & EA & _ & _ & _ & _ & _ & _ & _ & EK & _). rewrite EK, EA. destruct (atom_is_knowable sc _) as [[|]|]; split; congruence.
Qed.
Lemma marginal_computed arr i : nd_shape arr = outcomes sc ++ private_settings sc -> i < length atoms -> is_knowable c i = true ->
  atom_compute_marginal sc arr (nth i atoms []) = Some (marginal_of sc arr (nth i atoms [])).
Proof.
  intros Sh Hi K. apply knowable_is in K. destruct (some_atom i Hi) as (NE & SS & R). set (ops := nth i atoms []) in *.
  destruct (PropMarg.C16_knowable_moment_value sc ops arr W R NE (sorted_le _ SS) K Sh Hset) as (v & Ev & Hv). rewrite Ev. f_equal.
  destruct (KnowProofs.atom_is_knowable_correct sc ops W R) as (b & Eb & Hb). rewrite K in Eb. injection Eb as <-. destruct (proj1 Hb eq_refl) as (OP & _).
  destruct (settings_ok sc W ops R OP) as [L S']. apply Hv; [apply agreeing_nodup|intros o; apply (agreeing_in sc W ops R)|exact L|exact S'].
Qed.
Lemma values_exist arr : nd_shape arr = outcomes sc ++ private_settings sc -> exists values, distribution_values sc r arr = Some values /\
  values = map (fun i => ([i], Some (marginal_of sc arr (nth i atoms [])))) (filter (is_knowable c) (seq 0 (length atoms))).
Proof.
  intros Sh. unfold distribution_values. destruct (list_eq_dec _ _ _) as [_|N]; [|contradiction]. eexists. split; [|reflexivity]. apply ScenarioProofs.map_opt_some.
  assert (H : forall i, In i (filter (is_knowable c) (seq 0 (length atoms))) -> i < length atoms /\ is_knowable c i = true) by (intros i Hi; apply filter_In in Hi as [Hi K]; apply in_seq in Hi; split; [lia|exact K]).
  induction (filter (is_knowable c) (seq 0 (length atoms))) as [|i l IH]; constructor; [|apply IH; intros j Hj; apply H; right; exact Hj].
  destruct (H i (or_introl eq_refl)) as [Hi K]. rewrite (marginal_computed arr i Sh Hi K). reflexivity.
Qed.
Lemma given_is arr values m v : distribution_values sc r arr = Some values -> given values m = Some v ->
  exists i, i < length atoms /\ is_knowable c i = true /\ m = [i] /\ v = marginal_of sc arr (nth i atoms []).
Proof.
  intros E. assert (Sh : nd_shape arr = outcomes sc ++ private_settings sc) by (unfold distribution_values in E; destruct (list_eq_dec _ _ _) as [Sh|]; [exact Sh|discriminate]).
  destruct (values_exist arr Sh) as (values' & E' & EV'). assert (EV : values = map (fun i => ([i], Some (marginal_of sc arr (nth i atoms [])))) (filter (is_knowable c) (seq 0 (length atoms)))) by (rewrite <- EV'; congruence). clear values' E' EV'. unfold given. destruct (find _ _) as [[m' o]|] eqn:F; [|discriminate].
  apply find_some in F as [F C]. intros ->. apply andb_prop in C as [C _]. cbn [fst] in C. destruct (meq m' m) as [->|]; [|discriminate]. apply in_rev in F. rewrite EV in F.
  apply in_map_iff in F as (i & Q & Hi). apply filter_In in Hi as [Hi K]. apply in_seq in Hi. exists i. split; [lia|]. split; [exact K|]. split; congruence.
Qed.
Lemma given_knowable arr values i : distribution_values sc r arr = Some values -> i < length atoms -> is_knowable c i = true -> given values [i] = Some (marginal_of sc arr (nth i atoms [])).
Proof.
  intros E Hi K. assert (Sh : nd_shape arr = outcomes sc ++ private_settings sc) by (unfold distribution_values in E; destruct (list_eq_dec _ _ _) as [Sh|]; [exact Sh|discriminate]).
  destruct (values_exist arr Sh) as (values' & E' & EV'). assert (EV : values = map (fun i => ([i], Some (marginal_of sc arr (nth i atoms [])))) (filter (is_knowable c) (seq 0 (length atoms)))) by (rewrite <- EV'; congruence). clear values' E' EV'.
  destruct (given values [i]) as [v|] eqn:Gv.
  - destruct (given_is arr values [i] v E Gv) as (j & _ & _ & Ej & ->). assert (j = i) by congruence. subst j. reflexivity.
  - exfalso. unfold given in Gv. destruct (find _ _) as [[m' o]|] eqn:F.
    + apply find_some in F as [_ C]. apply andb_prop in C as [_ C]. cbn [snd] in C. rewrite Gv in C. discriminate.
    + assert (I : In ([i], Some (marginal_of sc arr (nth i atoms []))) (rev values)).
      { apply -> in_rev. rewrite EV. apply (in_map (fun i => ([i], Some (marginal_of sc arr (nth i atoms []))))). apply filter_In. split; [apply in_seq; lia|exact K]. }
      apply (find_none _ _ F) in I. cbn [fst snd is_some] in I. destruct (meq [i] [i]); [discriminate|congruence].
Qed.
Lemma base_is arr values m v : distribution_values sc r arr = Some values -> base lp c values m = Some v ->
  (exists i, i < length atoms /\ is_knowable c i = true /\ m = [i] /\ v = marginal_of sc arr (nth i atoms [])) \/ (m = One /\ v = 1%Qc).
Proof.
  intros E H. unfold base in H. destruct (given values m) as [u|] eqn:Gv.
  - left. assert (u = v) by congruence. subst u. apply (given_is arr values m v E Gv).
  - right. destruct (meq m One); [|discriminate]. split; congruence.
Qed.
Lemma atom_value_is arr values i v : distribution_values sc r arr = Some values -> atom_value lp c values i = Some v ->
  i < length atoms /\ is_knowable c i = true /\ v = marginal_of sc arr (nth i atoms []).
Proof.
  intros E H. unfold atom_value in H. destruct (generate_is sc W Hout FC ao sup r G) as (prog & _ & _ & _ & _ & _ & _ & _ & _ & ED & _). rewrite ED in H.
  assert (K : base lp c values [i] = Some v) by (destruct (base lp c values [i]); congruence).
  destruct (base_is arr values [i] v E K) as [(j & Hj & Kj & Ej & ->)|[Q _]]; [|discriminate]. assert (j = i) by congruence. subst j. auto.
Qed.
Lemma dagger_ok : dagger_involutive c.
Proof. destruct (generate_is sc W Hout FC ao sup r G) as (prog & _ & _ & _ & _ & _ & _ & _ & _ & ED & _). intros a. rewrite ED. reflexivity. Qed.

(** ** One inflation *)
Section One.
Variables (arr : ndarray) (P : list bool -> Qc) (IO : inflation_of sc arr P).
Definition the_atom (i : nat) : Qc := P (event_of sc (nth i atoms [])).
Notation y := (moment_at the_atom).
Lemma the_factorising : factorising c the_atom.
Proof.
  destruct (generate_is sc W Hout FC ao sup r G) as (prog & _ & _ & _ & _ & _ & _ & _ & _ & ED & EZ & E1 & _). unfold factorising. rewrite ED, EZ, E1. split; [reflexivity|]. split; discriminate.
Qed.
Lemma the_marginal i : i < length atoms -> is_knowable c i = true -> the_atom i = marginal_of sc arr (nth i atoms []).
Proof.
  intros Hi K. apply knowable_is in K. destruct (some_atom i Hi) as (NE & SS & R). unfold the_atom. set (ops := nth i atoms []) in *.
  destruct (KnowProofs.atom_is_knowable_correct sc ops W R) as (b & Eb & Hb). rewrite K in Eb. injection Eb as <-. destruct (proj1 Hb eq_refl) as (OP & OC & PA).
  destruct (settings_ok sc W ops R OP) as [L S']. apply (io_observed _ _ _ IO ops R OP OC PA); [apply agreeing_nodup|intros o; apply (agreeing_in sc W ops R)|exact L|exact S'].
Qed.
Lemma the_values values i v : distribution_values sc r arr = Some values -> atom_value lp c values i = Some v -> the_atom i = v.
Proof. intros E H. destruct (atom_value_is arr values i v E H) as (Hi & K & ->). apply the_marginal; assumption. Qed.
Lemma the_base values m v : distribution_values sc r arr = Some values -> base lp c values m = Some v -> y m = v.
Proof.
  intros E H. destruct (base_is arr values m v E H) as [(i & Hi & K & -> & ->)|[-> ->]]; [|reflexivity].
  rewrite <- (the_marginal i Hi K). unfold moment_at. cbn. ring.
Qed.
(** everything except the values *)
Lemma the_constraints :
  (forall i, i < c_rows (minimal_sparse_equalities (r_programme r)) -> entry_sum (minimal_sparse_equalities (r_programme r)) i (fun j => y (nth j (columns (r_programme r)) [])) = 0%Qc) /\
  (forall i, i < c_rows (minimal_sparse_inequalities (r_programme r)) -> (0 <= entry_sum (minimal_sparse_inequalities (r_programme r)) i (fun j => y (nth j (columns (r_programme r)) [])))%Qc) /\
  (forall m, In m (columns (r_programme r)) -> (0 <= y m)%Qc) /\ y One = 1%Qc.
Proof.
  destruct (generate_is sc W Hout FC ao sup r G) as (prog & E & _ & _ & EA & EC & EE & EI & _). rewrite EE, EI, EC.
  assert (EY : the_atom = atom_probability sc prog P) by (unfold the_atom, atom_probability; rewrite EA; reflexivity). rewrite EY. destruct IO as [B Iv IND _].
  destruct (minimal_constraints sc W Hout FC prog ao E P B Iv IND) as [M1 M2]. split; [|split; [|split]].
  - intros i Hi. cbn [rows_matrix c_rows] in Hi. rewrite entry_rows by exact Hi. apply M1, nth_In, Hi.
  - intros i Hi. cbn [rows_matrix c_rows] in Hi. rewrite entry_rows by exact Hi. apply M2, nth_In, Hi.
  - apply (moment_nonneg sc W Hout FC prog ao E P B Iv IND).
  - reflexivity.
Qed.
End One.

(** ** The state *)
Lemma set_state values lpi only s s' : set_values lp c values lpi only s = Some s' -> sup = false ->
  lower s' = lower s /\ upper s' = upper s /\ extra_equalities s' = [] /\ extra_inequalities s' = [] /\ wf s' /\ ProgramModel.objective s' = ProgramModel.objective s.
Proof.
  intros E SP. pose proof (wf_set lp c values lpi only s s' E) as Wf. destruct (generate_is sc W Hout FC ao sup r G) as (prog & _ & _ & _ & _ & _ & _ & _ & _ & _ & _ & _ & _ & ES). rewrite SP in ES.
  rewrite set_values_is in E. cbn [cleanup] in E. unfold cleanup_lp, supports_step in E. rewrite ES in E. injection E as <-. repeat (split; [reflexivity|]). split; [exact Wf|reflexivity].
Qed.
Lemma supports_is : supports_problem c = sup.
Proof. destruct (generate_is sc W Hout FC ao sup r G) as (prog & _ & _ & _ & _ & _ & _ & _ & _ & _ & _ & _ & _ & ES). exact ES. Qed.
(** A distribution with an inflation gives a feasible programme, with the moments of the inflation. *)
Theorem inflation_is_a_point arr P lpi only s s' : inflation_of sc arr P -> sup = false ->
  set_distribution sc r (Some arr) lpi only s = Some s' ->
  (* a product of probabilities that is smaller than the tolerance is zero *)
  (lpi = true -> only = false -> forall m v, In (m, v) (known s') -> isclose0 v = true -> v = 0%Qc) ->
  (forall m v, In (m, v) (lower s) -> (v <= moment_at (the_atom P) m)%Qc) -> (forall m v, In (m, v) (upper s) -> (moment_at (the_atom P) m <= v)%Qc) ->
  lp_point (r_programme r) true s' (moment_at (the_atom P)).
Proof.
  intros IO SP E TINY LO UP. unfold set_distribution in E. destruct (distribution_values sc r arr) as [values|] eqn:EV; [|discriminate].
  destruct (set_state values lpi only s s' E SP) as (EL & EU & EX & EX' & Wf & _). destruct (the_constraints arr P IO) as (C1 & C2 & C3 & C4). pose proof supports_is as SI. rewrite SP in SI.
  assert (KV : forall m v, In (m, v) (known s') -> moment_at (the_atom P) m = v).
  { intros m v Hm. pose proof (in_get meq m v (known s') (wf_known _ Wf) Hm) as Gm. destruct only.
    - destruct (PropProgram.C22_only_specified lp c values lpi s s' SI E) as [_ K]. rewrite K in Gm. apply (the_base arr P IO values); assumption.
    - destruct values as [|q values'] eqn:EQ.
      + destruct (PropProgram.C22_without_values lp c lpi false s s' SI E) as [_ K]. rewrite K in Gm. apply (the_base arr P IO []); assumption.
      + rewrite <- EQ in *. assert (NE : values <> []) by (rewrite EQ; discriminate). apply (PropProgram.C22_known_exactly lp c values lpi s s' dagger_ok SI NE E) in Gm as (_ & KV).
        unfold known_value in KV. destruct ((2 <=? length m) && _) eqn:D; [|apply (the_base arr P IO values); assumption].
        assert (v = coefficient lp c values m) as -> by congruence. rewrite (moment_splits lp c values (the_atom P) m (fun i v => the_values arr P IO values i v EV)).
        apply andb_prop in D as (_ & D). apply orb_prop in D as [F|D].
        * assert (U : unvalued lp c values m = []). { unfold unvalued. clear - F. induction m as [|a m IH]; [reflexivity|]. cbn [forallb filter] in *. apply andb_prop in F as (-> & F). cbn. auto. }
          rewrite U. unfold moment_at. cbn. ring.
        * apply andb_prop in D as (D & C0). apply andb_prop in D as (D & _). rewrite (TINY D eq_refl m _ Hm C0). ring. }
  constructor.
  - exact C1.
  - exact C2.
  - rewrite EX. intros d [].
  - rewrite EX'. intros d [].
  - intros m k u Hm. pose proof (in_get meq m (k, u) (semiknown s') (wf_semi _ Wf) Hm) as Gm. destruct only.
    + destruct (PropProgram.C22_only_specified lp c values lpi s s' SI E) as [K _]. rewrite K in Hm. destruct Hm.
    + destruct values as [|q values'] eqn:EQ.
      * destruct (PropProgram.C22_without_values lp c lpi false s s' SI E) as [K _]. rewrite K in Hm. destruct Hm.
      * rewrite <- EQ in *. assert (NE : values <> []) by (rewrite EQ; discriminate).
        destruct (PropProgram.C22_values_are_correct lp c values lpi s s' (the_atom P) dagger_ok SI NE E (the_factorising P) (fun i v => the_values arr P IO values i v EV)) as (_ & _ & K). apply K, Gm.
  - exact KV.
  - rewrite EL. exact LO.
  - rewrite EU. exact UP.
  - intros _. exact C3.
Qed.
End Values.
