(** Equalities, positivity and bounds of the generated programme at the means of an inflation. *)
From Coq Require Import Permutation QArith Qcanon List Arith Bool Lia Sorted.
From Verif Require Import CanonModel CanonSpec MomentModel MomentSpec OrbitModel ScenarioModel ScenarioSpec SymModel SymSpec KnowModel KnowSpec FactorModel FactorSpec
  MargModel QcSum ColumnModel ColumnSpec MemoModel MemoSpec NormModel NormSpec NameModel NameSpec ProgramModel ProgramSpec ProgramProofs ProgramProofs2 ProgramProofs3 LPMomentModel QuantumSpec QuantumProofs QInflationSpec SDPMomentModel SoundProofs QMomentProofs QMomentProofs2 QMomentProofs3 QMomentProofs4 QMomentProofs5 QMomentProofs6.
From Verif Require CanonProofs ScenarioProofs CanonProofs2 ColumnProofs ColumnProofs2 ColumnProofs3 MemoProofs NormProofs3 NormProofs2 PropOrbit PropCanon PropProgram PropNorm.
Import ListNotations.
Close Scope Q_scope. Close Scope Qc_scope. Open Scope nat_scope.

Lemma fst_Csum l : fst (Csum l) = sumQ (map fst l).
Proof. induction l as [|a l IH]; [reflexivity|]. cbn [Csum fold_right map]. rewrite sumQ_cons. unfold Cplus. cbn [fst]. f_equal. exact IH. Qed.

Section Generated.
Variables (sc : scenario) (W : wf_scenario sc) (FC : few_copies sc).
Notation n := (length (lexorder sc)).
Notation nc := (sdp_notcomm sc).
Notation ortho := (sdp_orthomat sc).
Notation syms := (sdp_lexorder_symmetries sc).
Notation oc := (operators_commute sc).
Variables (cols : list word) (GC : good_columns nc ortho (S n) cols).
Notation N := (length cols).
Variables (hc : list bool) (sup : bool) (r : SDPMomentModel.relaxation) (GE : SDPMomentModel.generate sc hc sup cols = Some r).
Notation atoms := (SDPMomentModel.r_atoms r).
Notation c := (SDPMomentModel.r_context r).
Notation M := (r_matrix r).
Notation comp := (r_moments r).

Lemma comp_unique k m m' : In (k, m) comp -> In (k, m') comp -> m = m'.
Proof.
  intros H H'. assert (ND := keys_nodup sc W FC cols GC hc sup r GE). assert (A := ColumnProofs2.assoc_unique _ _ _ ND H). assert (B := ColumnProofs2.assoc_unique _ _ _ ND H'). congruence.
Qed.
Lemma comp_injective k k' m : In (k, m) comp -> In (k', m) comp -> k = k'.
Proof.
  intros H H'. assert (ND := moments_nodup sc cols hc sup r GE). rewrite (moments_are sc cols hc sup r GE) in ND. revert ND H H'. generalize comp. clear. induction l as [|[a b] l IH]; intros ND H H'; [destruct H|].
  cbn [map snd] in ND. inversion ND as [|x y NI ND']; subst. destruct H as [H|H], H' as [H'|H'].
  - congruence.
  - exfalso. apply NI. assert (b = m) by congruence. subst b. apply in_map_iff. exists (k', m). auto.
  - exfalso. apply NI. assert (b = m) by congruence. subst b. apply in_map_iff. exists (k, m). auto.
  - apply (IH ND' H H').
Qed.
Lemma comp_in k m : assoc comp k = Some m -> In (k, m) comp.
Proof.
  generalize comp. induction l as [|[a b] l IH]; [discriminate|]. cbn [assoc]. destruct (Nat.eqb_spec a k) as [->|]; [|right; auto]. intros E. left. congruence.
Qed.
(** the matrix of indices is symmetric *)
Lemma matrix_symmetric i j : i < N -> j < N -> M i j = M j i.
Proof.
  intros Hi Hj. destruct (parts sc W FC cols GC hc sup r GE) as (ob & co & lists & eqs & EM & _).
  destruct (PropOrbit.C06_scenario_moment_matrix sc oc cols W (comm_flag sc W) GC) as (M' & ob' & co' & E' & Z & SS & _). rewrite EM in E'. assert (M' = M) by congruence. subst M'. clear E' EM ob ob' co co'.
  pose proof (ScenarioProofs.scenario_good_tables sc W) as G. pose proof (ColumnProofs3.scenario_symmetries sc W) as OS.
  assert (RV : forall a b, entry cols b a = rev (entry cols a b)) by (intros a b; unfold entry; rewrite rev_app_distr, rev_involutive; reflexivity).
  assert (ZZ : forall a b, a < N -> b < N -> M a b = 0 -> M b a = 0).
  { intros a b Ha Hb E0. apply (Z b a Hb Ha). apply (Z a b Ha Hb) in E0. unfold is_zero_product in *. rewrite RV. apply (CanonProofs2.pe_rev nc ortho G) in E0. exact E0. }
  destruct (Nat.eq_dec (M i j) 0) as [E0|N0]; [rewrite E0, (ZZ i j Hi Hj E0); reflexivity|]. destruct (Nat.eq_dec (M j i) 0) as [E0|N0']; [elim N0; apply (ZZ j i Hj Hi E0)|].
  apply (SS i j j i Hi Hj Hj Hi N0 N0'). exists (seq 0 (S n)). split; [apply (ColumnProofs.id_in nc ortho (S n) syms OS)|]. 
  assert (AI : forall w, in_range (S n) w -> apply_lexsym (seq 0 (S n)) w = w) by (intros w Hw; apply MemoProofs.apply_id, Hw).
  split.
  - intros w Hw. exists w. split; [exact Hw|]. rewrite AI; [apply ce_refl|]. intros x Hx; apply (gcol_range _ _ _ _ GC w x Hw Hx).
  - rewrite AI by apply (ranged_entry sc cols GC). right. rewrite (RV j i). apply pe_refl.
Qed.

Section Mean.
Variables (arr : ndarray) (L : word -> C) (MQ : moments_of sc arr L).
Notation y := (moment_mean r L).
(** the entry of the moment matrix *)
Lemma entry_value i j m : i < N -> j < N -> In (M i j, m) comp -> y m = fst (L (entry cols i j)).
Proof. intros Hi Hj Hm. destruct (entry_moment sc W FC cols GC hc sup r GE arr L MQ i j Hi Hj) as (m' & Hm' & E). rewrite (comp_unique _ _ _ Hm Hm'). exact E. Qed.
(** ** Equalities *)
Lemma mean_normalised : normalised sc (fun w => fst (L w)).
Proof. intros p cc s g u v Ms. rewrite <- (mq_normalised _ _ _ MQ p cc s g u v Ms), fst_Csum, map_map. reflexivity. Qed.
Lemma equality_form (Hout : forall o, In o (outcomes sc) -> 1 <= o) d : In d (minimal_equalities c) -> NoDup (keys d) /\ (forall m, In m (keys d) -> In m (moments c)) /\ expr_at y d = 0%Qc.
Proof.
  destruct (parts sc W FC cols GC hc sup r GE) as (ob & co & lists & eqs & EM & _ & _ & _ & _ & EE & EQ). rewrite EQ. intros Hd. unfold equalities_of in EE. destruct (negb (is_network sc) || sup).
  2:{ assert (X : eqs = []) by congruence. rewrite X in Hd. destruct Hd. }
  destruct (discover_normalization_eqns sc hc cols) as [ces|] eqn:ED; [|discriminate]. apply ScenarioProofs.map_opt_some in EE.
  assert (X : exists e, In e (construct_normalization_eqs N M ces) /\ equality_of comp e = Some d).
  { clear - EE Hd. induction EE as [|e d' l l' H _ IH]; [destruct Hd|]. destruct Hd as [->|Hd]; [exists e; split; [left; reflexivity|exact H]|]. destruct (IH Hd) as (e' & H' & E'). exists e'. split; [right; exact H'|exact E']. }
  destruct X as ([k l] & He & Ed). unfold equality_of in Ed. cbn [fst snd] in Ed. destruct (Nat.ltb_spec (length l) 2) as [|L2]; [discriminate|].
  destruct (assoc comp k) as [mk|] eqn:Ek; [|discriminate]. destruct (map_opt (assoc comp) l) as [ml|] eqn:El; [|discriminate].
  set (mval := fun i => match assoc comp i with Some m => y m | None => 0%Qc end).
  assert (HS : mval k = sumQ (map mval l)).
  { apply (PropNorm.C30_equalities_hold sc hc cols M ces (fun w => fst (L w)) mval W Hout ED mean_normalised); [|exact He]. intros i j Hi Hj. destruct (entry_moment sc W FC cols GC hc sup r GE arr L MQ i j Hi Hj) as (m & Hm & E).
    unfold mval. rewrite (ColumnProofs2.assoc_unique _ _ _ (keys_nodup sc W FC cols GC hc sup r GE) Hm). exact E. }
  assert (ND : NoDup (k :: l)).
  { destruct (NormProofs2.construct_spec N M ces) as (_ & CS & _). destruct (CS k l He) as (e & i & He' & Hi & NZ & Ek' & El').
    destruct (NormProofs3.summands_distinct sc W Hout oc hc cols M ob co ces e i (comm_flag sc W) GC EM ED He' Hi NZ) as [ND NI].
    assert (PM : Permutation (map (M i) (snd e)) l) by (rewrite El'; apply CanonProofs.np_sort_perm). constructor; [|eapply Permutation_NoDup; eassumption].
    intros Hk. apply NI; [rewrite <- (map_length (M i)), (Permutation_length PM); exact L2|]. rewrite <- Ek'. eapply Permutation_in; [apply Permutation_sym, PM|exact Hk]. }
  apply ScenarioProofs.map_opt_some in El.
  assert (NDm : NoDup (mk :: ml)).
  { assert (F2 : Forall2 (fun a b => assoc comp a = Some b) (k :: l) (mk :: ml)) by (constructor; assumption). revert ND F2. generalize (k :: l), (mk :: ml). clear - W FC GC GE. intros l l' ND F. revert ND.
    induction F as [|a b l l' H F IH]; intros ND; constructor; inversion ND as [|? ? NI ND']; subst; [|apply IH, ND'].
    intros Hb. assert (X : exists a', In a' l /\ assoc comp a' = Some b). { clear - F Hb. induction F as [|a b' l l' H _ IH]; [destruct Hb|]. destruct Hb as [->|Hb]; [exists a; split; [left; reflexivity|exact H]|]. destruct (IH Hb) as (a' & A & B). exists a'. split; [right; exact A|exact B]. }
    destruct X as (a' & Ha' & E'). apply NI. rewrite (comp_injective a a' b); [exact Ha'|apply comp_in, H|apply comp_in, E']. }
  assert (Ed' : d = (mk, 1%Qc) :: map (fun m => (m, (- (1))%Qc)) ml).
  { rewrite NormProofs3.update_fresh in Ed; [cbn [app] in Ed; congruence|]. cbn [keys map app fst]. unfold keys. rewrite map_map. cbn [fst]. rewrite map_id. exact NDm. }
  rewrite Ed'. split; [unfold keys; cbn [map fst]; rewrite map_map; cbn [fst]; rewrite map_id; exact NDm|].
  split.
  { intros m Hm. unfold keys in Hm. cbn [map fst] in Hm. rewrite map_map in Hm. cbn [fst] in Hm. rewrite map_id in Hm. rewrite (moments_are sc cols hc sup r GE). apply in_map_iff. destruct Hm as [<-|Hm]; [exists (k, mk); split; [reflexivity|apply comp_in, Ek]|].
    clear - El Hm. induction El as [|a b l l' H _ IH]; [destruct Hm|]. destruct Hm as [->|Hm]; [exists (a, m); split; [reflexivity|apply comp_in, H]|apply IH, Hm]. }
  unfold expr_at. cbn [map fst snd]. rewrite sumQ_cons, map_map. cbn [fst snd].
  assert (E1 : mval k = y mk) by (unfold mval; rewrite Ek; reflexivity).
  assert (E2 : sumQ (map mval l) = sumQ (map y ml)). { clear - El. subst mval. induction El as [|a b l l' H _ IH]; [reflexivity|]. cbn [map]. rewrite !sumQ_cons, H, IH. reflexivity. }
  assert (E3 : sumQ (map (fun m => (- (1) * y m)%Qc) ml) = (- sumQ (map y ml))%Qc). { clear. induction ml as [|a l IH]; [reflexivity|]. cbn [map]. rewrite !sumQ_cons, IH. ring. }
  rewrite E3, <- E1, HS, E2. ring.
Qed.
(** ** The moment matrix is positive *)
Lemma positive_entries (v : nat -> Qc) : (0 <= sumQ (map (fun i => sumQ (map (fun j => v i * fst (L (entry cols i j)) * v j) (seq 0 N))) (seq 0 N)))%Qc.
Proof.
  assert (P := mq_positive _ _ _ MQ (map (fun i => (creal (v i), nth i cols [])) (seq 0 N))). rewrite fst_Csum in P. rewrite !map_map in P. cbn [fst snd] in P.
  match goal with |- (0 <= ?a)%Qc => match type of P with (0 <= ?b)%Qc => replace a with b; [exact P|] end end.
  f_equal. apply map_ext. intros i. rewrite fst_Csum. f_equal. rewrite !map_map. apply map_ext. intros j. cbn [fst snd]. unfold entry, creal, Cconj, Cmult. cbn [fst snd]. ring.
Qed.
Lemma entries_symmetric i j : fst (L (entry cols i j)) = fst (L (entry cols j i)).
Proof. replace (entry cols i j) with (rev (entry cols j i)) by (unfold entry; rewrite rev_app_distr, rev_involutive; reflexivity). rewrite (mq_conjugate _ _ _ MQ). reflexivity. Qed.
End Mean.
End Generated.
