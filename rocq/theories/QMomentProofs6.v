(** Moments, known values and semi-known values of the generated programme at the means of an inflation. *)
From Coq Require Import Permutation QArith Qcanon List Arith Bool Lia Sorted.
From Verif Require Import CanonModel CanonSpec MomentModel MomentSpec OrbitModel ScenarioModel ScenarioSpec SymModel SymSpec KnowModel KnowSpec FactorModel FactorSpec
  MargModel ColumnModel ColumnSpec MemoModel MemoSpec NameModel NameSpec ProgramModel ProgramSpec ProgramProofs ProgramProofs2 LPMomentModel QuantumSpec QuantumProofs QInflationSpec SDPMomentModel SoundProofs QMomentProofs QMomentProofs2 QMomentProofs3 QMomentProofs4 QMomentProofs5.
From Verif Require ScenarioProofs CanonProofs2 ColumnProofs ColumnProofs2 ColumnProofs3 MemoProofs PropOrbit PropCanon PropProgram.
Import ListNotations.
Close Scope Q_scope. Close Scope Qc_scope. Open Scope nat_scope.

(** the value of a moment: the real part of the product of the means of its factors *)
Definition moment_mean (r : SDPMomentModel.relaxation) (L : word -> C) (m : moment) : Qc := cmoment (fun a => L (nth a (SDPMomentModel.r_atoms r) [])) m.

Section Generated.
Variables (sc : scenario) (W : wf_scenario sc) (FC : few_copies sc).
Notation n := (length (lexorder sc)).
Notation nc := (sdp_notcomm sc).
Notation ortho := (sdp_orthomat sc).
Notation syms := (sdp_lexorder_symmetries sc).
Notation oc := (operators_commute sc).
Variables (cols : list word) (GC : good_columns nc ortho (S n) cols).
Notation N := (length cols).
Variables (hc : list bool) (sup : bool) (r : SDPMomentModel.relaxation) (GE : SDPMomentModel.generate sc hc sup cols = Some r).
Notation atoms := (SDPMomentModel.r_atoms r).
Notation c := (SDPMomentModel.r_context r).
Notation M := (r_matrix r).
Notation comp := (r_moments r).

Lemma zero_atom : In [0] atoms.
Proof. destruct (parts sc W FC cols GC hc sup r GE) as (ob & co & lists & eqs & EM & HL & F & EA & _). rewrite EA. apply atoms_in. left. reflexivity. Qed.
Lemma dagger_ok : dagger_involutive c.
Proof.
  destruct (parts sc W FC cols GC hc sup r GE) as (ob & co & lists & eqs & EM & HL & F & EA & _). destruct (generate_is sc cols hc sup r GE) as (_ & _ & _ & _ & _ & _ & _ & _ & _ & _ & _ & _ & _ & _ & ED & _).
  intros a. rewrite ED, EA. apply (dagger_twice sc W _ HL).
Qed.
Lemma keys_nodup : NoDup (map fst comp).
Proof.
  destruct (parts sc W FC cols GC hc sup r GE) as (ob & co & lists & eqs & EM & HL & F & EA & ER & _). rewrite ER. unfold made_of. rewrite map_app, map_map. cbn [fst].
  destruct (PropOrbit.C06_scenario_moment_matrix sc oc cols W (comm_flag sc W) GC) as (M' & ob' & co' & E' & _ & _ & ND & _). rewrite EM in E'. assert (co' = co) by congruence. subst co'.
  assert (EK : map fst lists = map fst co) by (clear - F; induction F as [|q l co lists (H & _) _ IH]; [reflexivity|cbn [map]; rewrite H, IH; reflexivity]).
  assert (ND' : NoDup (map (fun q : nat * list word => fst q) lists)) by (change (NoDup (map fst lists)); rewrite EK; exact ND).
  destruct (has_zero cols M); [|exact ND']. cbn [map app]. constructor; [|exact ND']. change (~ In 0 (map fst lists)). rewrite EK. intros H. apply in_map_iff in H as ([k w] & E & H). cbn [fst] in E. subst k. destruct (corresp_words sc W cols GC _ _ _ EM 0 w H) as [H0 _]. congruence.
Qed.
Lemma moments_are : moments c = map snd comp.
Proof. destruct (generate_is sc cols hc sup r GE) as (_ & _ & _ & _ & _ & _ & _ & _ & _ & _ & _ & _ & E & _). exact E. Qed.
Lemma moments_nodup : NoDup (moments c).
Proof. rewrite moments_are. destruct (generate_is sc cols hc sup r GE) as (_ & _ & _ & _ & _ & _ & _ & _ & _ & _ & E & _). exact E. Qed.

Section Mean.
Variables (arr : ndarray) (L : word -> C) (MQ : moments_of sc arr L).
Notation y := (moment_mean r L).
Notation z := (fun a => L (nth a atoms [])).
Lemma cf : cfactorising c z.
Proof.
  destruct (parts sc W FC cols GC hc sup r GE) as (ob & co & lists & eqs & EM & HL & F & EA & ER & _). destruct (generate_is sc cols hc sup r GE) as (_ & _ & _ & _ & _ & _ & _ & _ & _ & _ & _ & _ & _ & _ & ED & EZ & E1 & _).
  assert (Q := atom_mean_factorising sc W (map snd lists) HL arr L MQ c). unfold atom_mean in Q. rewrite <- EA in Q. apply (Q ED E1 EZ).
Qed.
(** every moment is zero or the mean of a product *)
Lemma moment_word k m : In (k, m) comp -> (k = 0 /\ m = [number atoms [0]] /\ y m = 0%Qc) \/
  (exists w, operator_word sc w /\ y m = fst (L w) /\ (forall a, In a m -> a < length atoms) /\ exists ob co, symmetrized_moment_matrix nc ortho oc cols syms = Some (M, ob, co) /\ In (k, w) co).
Proof.
  destruct (parts sc W FC cols GC hc sup r GE) as (ob & co & lists & eqs & EM & HL & F & EA & ER & _). rewrite ER. unfold made_of. intros H. apply in_app_or in H as [H|H].
  - left. destruct (has_zero cols M); [|destruct H]. destruct H as [H|[]]. assert (k = 0) by congruence. assert (m = [number atoms [0]]) by congruence. subst k m. split; [reflexivity|]. split; [reflexivity|].
    unfold moment_mean, cmoment. cbn [map]. assert (Z0 := zero_atom). rewrite EA in *. rewrite (proj2 (number_ok sc (map snd lists) [0] Z0)), (mq_zero _ _ _ MQ), cprod_cons. unfold Cmult, C0. cbn [fst snd]. rewrite cprod_nil. cbn [fst snd C1]. ring.
  - right. apply in_map_iff in H as ([k' l] & E & H). cbn [fst snd] in E. assert (k' = k) by congruence. subst k'. assert (Em : m = ProgramModel.monomial_from_atoms (atom_context sc atoms) (map (number atoms) l)) by congruence. clear E.
    assert (FI : exists w, In (k, w) co /\ forall arr L, moments_of sc arr L -> cprod (map L l) = L w).
    { clear - F H. induction F as [|[q w] [q' l'] co lists (H1 & _ & H3) _ IH]; [destruct H|]. cbn [fst snd] in *. destruct H as [H|H]; [|destruct (IH H) as (w' & A & B); exists w'; split; [right; exact A|exact B]].
      assert (q' = k) by congruence. assert (l' = l) by congruence. subst. exists w. split; [left; reflexivity|exact H3]. }
    destruct FI as (w & Hw & Hm). destruct (corresp_words sc W cols GC _ _ _ EM k w Hw) as (_ & RD & OW). exists w. split; [exact OW|].
    assert (IN : forall a, In a l -> In a atoms).
    { intros a Ha. rewrite EA. apply atoms_in. right. left. exists l. split; [|exact Ha]. apply in_map_iff. exists (k, l). auto. }
    assert (CA : cfactorising (atom_context sc atoms) z).
    { assert (Q := atom_mean_factorising sc W (map snd lists) HL arr L MQ (atom_context sc atoms)). unfold atom_mean in Q. rewrite <- EA in Q. apply Q; reflexivity. }
    split; [|split].
    + unfold moment_mean. rewrite Em, (cmoment_from_atoms _ _ CA). unfold cmoment.
      assert (Q := mean_of_list sc (map snd lists) L l). rewrite <- EA in Q. unfold atom_mean in Q. rewrite <- EA in Q. rewrite (Q IN), (Hm arr L MQ). reflexivity.
    + assert (B : forall a, In a (map (number atoms) l) -> a < length atoms).
      { intros a Ha. apply in_map_iff in Ha as (b & <- & Hb). assert (Q := number_ok sc (map snd lists) b). rewrite <- EA in Q. apply (Q (IN b Hb)). }
      assert (D : forall a, a < length atoms -> dagger_of sc atoms a < length atoms).
      { intros a Ha. assert (Q := dagger_in sc W (map snd lists) HL a). rewrite <- EA in Q. apply (Q Ha). }
      intros a. rewrite Em. unfold ProgramModel.monomial_from_atoms. cbn [atom_context ProgramModel.is_zero ProgramModel.dagger is_one].
      set (l0 := match find _ _ with Some x => [x] | None => filter _ _ end). assert (B0 : forall a, In a l0 -> a < length atoms).
      { subst l0. destruct (find _ _) as [x|] eqn:Fd; [apply find_some in Fd as [Fd _]; intros b [<-|[]]; apply B, Fd|intros b Hb; apply filter_In in Hb as [Hb _]; apply B, Hb]. }
      destruct (ProgramModel.lex_lt _ _); intros Ha.
      * apply (Permutation_in _ (sort_atoms_perm _)) in Ha. apply in_map_iff in Ha as (b & <- & Hb). apply (Permutation_in _ (sort_atoms_perm _)) in Hb. apply D, B0, Hb.
      * apply (Permutation_in _ (sort_atoms_perm _)) in Ha. apply B0, Ha.
    + exists ob, co. split; [exact EM|exact Hw].
Qed.
(** the entries of the matrix *)
Lemma same_mean u v : MomentSpec.same_moment nc ortho u v -> fst (L u) = fst (L v).
Proof. intros [H|H]; rewrite (mq_equal _ _ _ MQ _ _ H); [reflexivity|]. rewrite (mq_conjugate _ _ _ MQ). reflexivity. Qed.
Lemma entry_moment i j : i < N -> j < N -> exists m, In (M i j, m) comp /\ y m = fst (L (entry cols i j)).
Proof.
  intros Hi Hj. destruct (parts sc W FC cols GC hc sup r GE) as (ob & co & lists & eqs & EM & HL & F & EA & ER & _).
  destruct (PropOrbit.C06_scenario_moment_matrix sc oc cols W (comm_flag sc W) GC) as (M' & ob' & co' & E' & Z & _ & ND & A & _). rewrite EM in E'. assert (co' = co) by congruence. assert (M' = M) by congruence. subst co' M'. clear E'.
  assert (EQ : exists m, In (M i j, m) comp).
  { rewrite ER. unfold made_of. destruct (Nat.eq_dec (M i j) 0) as [E0|N0].
    - assert (HZ : has_zero cols M = true).
      { unfold has_zero. apply ScenarioProofs.memb_in. apply ColumnProofs2.ravel_in. exists i, j. auto. }
      rewrite HZ, E0. eexists. left. reflexivity.
    - destruct (A i j Hi Hj N0) as (w & g & Ew & _). assert (Iw : In (M i j, w) co).
      { clear - Ew. induction co as [|[k v] co IH]; [discriminate|]. cbn [assoc] in Ew. destruct (Nat.eqb_spec k (M i j)) as [E|E]; [|right; apply IH, Ew]. assert (v = w) by congruence. subst v. left. rewrite E. reflexivity. }
      assert (Il : exists l, In (M i j, l) lists).
      { clear - F Iw. induction F as [|[q v] [q' l'] co lists (H1 & _) _ IH]; [destruct Iw|]. cbn [fst] in H1. destruct Iw as [H|H]; [exists l'; left; congruence|]. destruct (IH H) as (l & Hl). exists l. right. exact Hl. }
      destruct Il as (l & Hl). eexists. apply in_or_app. right. apply in_map_iff. exists (M i j, l). cbn [fst snd]. split; [reflexivity|exact Hl]. }
  destruct EQ as (m & Hm). exists m. split; [exact Hm|]. destruct (moment_word _ _ Hm) as [(E0 & _ & ->)|(w & OW & -> & _ & ob2 & co2 & EM2 & Hw)].
  - apply (Z i j Hi Hj) in E0. rewrite (mq_equal _ _ _ MQ _ _ E0), (mq_zero _ _ _ MQ). reflexivity.
  - rewrite EM in EM2. assert (co2 = co) by congruence. subst co2. destruct (corresp_words sc W cols GC _ _ _ EM _ w Hw) as (N0 & _). destruct (A i j Hi Hj N0) as (w' & g & Ew & Hg & _ & SM).
    rewrite (ColumnProofs2.assoc_unique _ _ _ ND Hw) in Ew. assert (w' = w) by congruence. subst w'. rewrite <- (same_mean _ _ SM). rewrite (L_sym sc W arr L MQ g _ Hg (ranged_entry sc cols GC i j)). reflexivity.
Qed.
(** *** Values *)
Hypothesis Hset : forall k, In k (private_settings sc) -> 1 <= k.
Hypothesis Sh : nd_shape arr = outcomes sc ++ private_settings sc.
Section Given.
Variables (values : list (moment * option Qc)) (EV : values = [] \/ distribution_values sc r arr = Some values).
Lemma single_from_atoms a b : ProgramModel.monomial_from_atoms c [a] = [b] -> b = a \/ b = ProgramModel.dagger c a.
Proof.
  unfold ProgramModel.monomial_from_atoms. cbn [find filter]. destruct (ProgramModel.is_zero c a); [|destruct (is_one c a)]; cbn [negb sort_atoms fold_right insert_atom map]; destruct (ProgramModel.lex_lt _ _); intros E; try discriminate; (left; congruence) || (right; congruence).
Qed.
Lemma given_is m v : given values m = Some v -> exists a, z a = creal v /\ m = ProgramModel.monomial_from_atoms c [a].
Proof.
  unfold given. destruct (find _ _) as [[m' o]|] eqn:Fd; [|discriminate]. intros ->. apply find_some in Fd as [Fd Q]. cbn [fst snd] in Q. apply andb_prop in Q as [Q _]. destruct (meq m' m) as [->|]; [|discriminate]. clear Q.
  apply in_rev in Fd. destruct EV as [EV2|EV2]; [rewrite EV2 in Fd; destruct Fd|]. unfold distribution_values in EV2. apply ScenarioProofs.map_opt_some in EV2.
  assert (X : exists a, In a (knowable_atoms r) /\ match SDPMomentModel.atom_value sc arr (nth a atoms []) with Some v => Some (ProgramModel.monomial_from_atoms c [a], Some v) | None => None end = Some (m, Some v)).
  { clear - EV2 Fd. revert Fd. induction EV2 as [|a q l l' H _ IH]; [intros []|]. intros [->|Fd]; [exists a; split; [left; reflexivity|exact H]|]. destruct (IH Fd) as (b & Hb & Eb). exists b. split; [right; exact Hb|exact Eb]. }
  destruct X as (a & Ha & Ea). unfold knowable_atoms in Ha. apply filter_In in Ha as [Ha K]. apply in_seq in Ha. apply andb_prop in K as [_ K].
  destruct (parts sc W FC cols GC hc sup r GE) as (ob & co & lists & eqs & EM & HL & F & EA & ER & _). destruct (generate_is sc cols hc sup r GE) as (_ & _ & _ & _ & _ & _ & _ & _ & _ & _ & _ & _ & _ & EK & _).
  rewrite EK in K. assert (Q := atom_value_ok sc W (map snd lists) HL Hset arr L a MQ Sh). rewrite <- EA in Q. unfold atom_mean in Q. rewrite <- EA in Q. destruct (Q ltac:(lia) K) as (v' & E1 & E2). rewrite E1 in Ea.
  exists a. split; [|congruence]. assert (v' = v) by congruence. subst v'. exact E2.
Qed.
Lemma zero_mean : z (number atoms [0]) = C0.
Proof.
  destruct (parts sc W FC cols GC hc sup r GE) as (ob & co & lists & eqs & EM & HL & F & EA & ER & _). assert (Q := number_ok sc (map snd lists) [0]). rewrite <- EA in Q.
  cbv beta. rewrite (proj2 (Q zero_atom)). apply (mq_zero _ _ _ MQ).
Qed.
Lemma zero_is x : zero_moment c = Some x -> x = [number atoms [0]].
Proof. destruct (generate_is sc cols hc sup r GE) as (_ & _ & _ & _ & _ & _ & _ & _ & _ & _ & _ & _ & _ & _ & _ & _ & _ & _ & EZ & _). rewrite EZ. destruct (has_zero cols M); congruence. Qed.
Lemma cmoment_one a v : z a = creal v -> cmoment z [a] = v.
Proof. intros E. unfold cmoment. cbn [map]. rewrite cprod_cons, cprod_nil. rewrite E, creal_mult. cbn [fst C1]. ring. Qed.
Lemma base_value m v : base sdp c values m = Some v -> y m = v.
Proof.
  unfold base. destruct (given values m) as [u|] eqn:Gv.
  - intros E. assert (u = v) by congruence. subst u. destruct (given_is m v Gv) as (a & Ea & ->). unfold moment_mean. rewrite (cmoment_from_atoms _ _ cf). apply cmoment_one, Ea.
  - destruct (meq m One) as [->|]; [intros E; assert (v = 1%Qc) as -> by congruence; reflexivity|]. destruct (zero_moment c) as [x|] eqn:EZ; [|discriminate]. destruct (meq m x) as [->|]; [|discriminate].
    intros E. assert (v = 0%Qc) as -> by congruence. rewrite (zero_is x EZ). apply cmoment_one. rewrite zero_mean. reflexivity.
Qed.
Lemma base_atom a v : base sdp c values [a] = Some v -> z a = creal v.
Proof.
  unfold base. destruct (given values [a]) as [u|] eqn:Gv.
  - intros E. assert (u = v) by congruence. subst u. destruct (given_is [a] v Gv) as (b & Eb & E'). destruct (single_from_atoms b a (eq_sym E')) as [->| -> ]; [exact Eb|].
    rewrite (proj1 cf b), Eb. unfold Cconj, creal. cbn [fst snd]. apply injective_projections; cbn [fst snd]; ring.
  - destruct (meq [a] One) as [E|]; [discriminate E|]. destruct (zero_moment c) as [x|] eqn:EZ; [|discriminate]. destruct (meq [a] x) as [E'|]; [|discriminate]. rewrite (zero_is x EZ) in E'. assert (a = number atoms [0]) as -> by congruence.
    intros E. assert (v = 0%Qc) as -> by congruence. exact zero_mean.
Qed.
Lemma atom_value_mean a v : ProgramSpec.atom_value sdp c values a = Some v -> z a = creal v.
Proof.
  unfold ProgramSpec.atom_value. destruct (base sdp c values [ProgramModel.dagger c a]) as [u|] eqn:B; [|apply base_atom]. intros E. assert (u = v) by congruence. subst u. apply base_atom in B. rewrite (proj1 cf a) in B.
  apply (f_equal Cconj) in B. rewrite conj_conj in B. rewrite B. unfold Cconj, creal. cbn [fst snd]. apply injective_projections; cbn [fst snd]; ring.
Qed.
End Given.
Lemma known_values (given_arr : option ndarray) lpi shared s s' : sup = false -> (forall x, given_arr = Some x -> x = arr) -> SDPMomentModel.set_distribution sc r given_arr lpi shared s = Some s' ->
  (lpi = true -> shared = false -> forall m v, In (m, v) (known s') -> isclose0 v = true -> v = 0%Qc) ->
  (forall m v, In (m, v) (known s') -> y m = v) /\ (forall m k u, In (m, (k, u)) (semiknown s') -> y m = (k * y u)%Qc).
Proof.
  intros ES GA E TV. unfold SDPMomentModel.set_distribution in E. destruct (match given_arr with Some a => distribution_values sc r a | None => Some [] end) as [values|] eqn:EV0; [|discriminate].
  assert (EV : values = [] \/ distribution_values sc r arr = Some values) by (destruct given_arr as [x|]; [right; rewrite <- (GA x eq_refl); exact EV0|left; congruence]).
  assert (SPc : supports_problem c = false) by (destruct (generate_is sc cols hc sup r GE) as (_ & _ & _ & _ & _ & _ & _ & _ & _ & _ & _ & _ & _ & _ & _ & _ & _ & _ & _ & EX & _); congruence).
  assert (WF := wf_set sdp c values lpi shared s s' E). destruct WF as [N1 N2 _].
  assert (GK : forall m v, In (m, v) (known s') -> get meq m (known s') = Some v) by (intros m v; apply (in_get meq), N1).
  assert (GS : forall m v, In (m, v) (semiknown s') -> get meq m (semiknown s') = Some v) by (intros m v; apply (in_get meq), N2).
  destruct values as [|p0 values0] eqn:Evs; [|rewrite <- Evs in *; destruct shared].
  - destruct (PropProgram.C22_without_values sdp c lpi shared s s' SPc E) as [S0 KB]. split; [|rewrite S0; intros m k u []]. intros m v Hm. apply GK in Hm. rewrite KB in Hm. apply (base_value [] EV m v Hm).
  - destruct (PropProgram.C22_only_specified sdp c values lpi s s' SPc E) as [S0 KB]. split; [|rewrite S0; intros m k u []]. intros m v Hm. apply GK in Hm. rewrite KB in Hm. apply (base_value values EV m v Hm).
  - assert (NE : values <> []) by (rewrite Evs; discriminate). split.
    + intros m v Hm. apply GK in Hm. apply (cknown c z sdp values (atom_value_mean values EV) lpi s s' dagger_ok SPc (base_value values EV) NE E); [|exact Hm]. intros EL m' v' H'. apply (TV EL eq_refl m' v'). apply (get_some_in meq), H'.
    + intros m k u Hm. apply GS in Hm. apply (csemiknown c z cf sdp values (atom_value_mean values EV) lpi s s' dagger_ok SPc NE E m k u Hm).
Qed.
End Mean.
End Generated.
