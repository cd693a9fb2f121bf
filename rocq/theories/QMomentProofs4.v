(** The generated programme: atoms, moments and the entries of the moment matrix at the means of an inflation. *)
From Coq Require Import Permutation QArith Qcanon List Arith Bool Lia Sorted.
From Verif Require Import CanonModel CanonSpec MomentModel MomentSpec OrbitModel ScenarioModel ScenarioSpec SymModel SymSpec KnowModel KnowSpec FactorModel FactorSpec
  MargModel ColumnModel ColumnSpec MemoModel MemoSpec NameModel NameSpec ProgramModel ProgramSpec ProgramProofs LPMomentModel QuantumSpec QuantumProofs QInflationSpec SDPMomentModel SoundProofs QMomentProofs QMomentProofs2 QMomentProofs3.
From Verif Require ScenarioProofs UniqueProofs FactorProofs KnowProofs CanonProofs CanonProofs2 ColumnProofs ColumnProofs2 ColumnProofs3 MemoProofs PropOrbit PropCanon PropMarg SoundProofs2.
Import ListNotations.
Close Scope Q_scope. Close Scope Qc_scope. Open Scope nat_scope.
Add Ring Cring5 : C_ring.

(** ** The list of atoms *)
Section Atoms.
Variables (sc : scenario) (W : wf_scenario sc) (ls : list (list word)) (HL : forall l a, In l ls -> In a l -> atom_word sc a).
Notation atoms := (all_atoms sc ls).
Lemma atoms_in a : In a atoms <-> a = [0] \/ (exists l, In l ls /\ In a l) \/ (exists l b, In l ls /\ In b l /\ a = conjugate sc b).
Proof.
  unfold all_atoms. assert (P := SoundProofs.sig_sort_perm (nodup (list_eq_dec Nat.eq_dec) ([0] :: concat ls ++ map (conjugate sc) (concat ls)))).
  split.
  - intros H. apply (Permutation_in _ P), nodup_In in H. destruct H as [<-|H]; [left; reflexivity|right]. apply in_app_or in H as [H|H]; [left; apply in_concat; exact H|right].
    apply in_map_iff in H as (b & <- & H). apply in_concat in H as (l & H1 & H2). eauto.
  - intros H. apply (Permutation_in _ (Permutation_sym P)), nodup_In. destruct H as [->|[(l & H1 & H2)|(l & b & H1 & H2 & ->)]]; [left; reflexivity|right; apply in_or_app; left; apply in_concat; eauto|].
    right. apply in_or_app. right. apply in_map, in_concat. eauto.
Qed.
Lemma atoms_nodup : NoDup atoms.
Proof. unfold all_atoms. eapply Permutation_NoDup; [apply Permutation_sym, SoundProofs.sig_sort_perm|]. apply NoDup_nodup. Qed.
Lemma number_ok a : In a atoms -> number atoms a < length atoms /\ nth (number atoms a) atoms [] = a.
Proof. intros H. apply (UniqueProofs.index_of_in row_eqb FactorProofs.row_eqb_true). exact H. Qed.
Lemma number_nth i : i < length atoms -> number atoms (nth i atoms []) = i.
Proof. intros H. apply (UniqueProofs.index_of_nth row_eqb FactorProofs.row_eqb_true); [apply atoms_nodup|exact H]. Qed.
Lemma atoms_are a : In a atoms -> a = [0] \/ atom_word sc a.
Proof.
  intros H. apply atoms_in in H as [->|[(l & H1 & H2)|(l & b & H1 & H2 & ->)]]; [left; reflexivity|right; apply (HL l a H1 H2)|right]. apply (conjugate_atom sc W b (HL l b H1 H2)).
Qed.
Lemma atoms_usable a : In a atoms -> usable sc a.
Proof. intros H. destruct (atoms_are a H) as [->|A]; [right; left; reflexivity|left; exact A]. Qed.
Lemma atoms_conj a : In a atoms -> In (conjugate sc a) atoms.
Proof.
  intros H. apply atoms_in in H as [->|[(l & H1 & H2)|(l & b & H1 & H2 & ->)]]; apply atoms_in; [left; reflexivity|right; right; eauto|right; left].
  rewrite (proj2 (proj2 (conjugate_atom sc W b (HL l b H1 H2)))). eauto.
Qed.
Lemma dagger_in a : a < length atoms -> dagger_of sc atoms a = number atoms (conjugate sc (nth a atoms [])) /\ dagger_of sc atoms a < length atoms /\ nth (dagger_of sc atoms a) atoms [] = conjugate sc (nth a atoms []).
Proof.
  intros Ha. unfold dagger_of. rewrite (nth_error_nth' atoms [] Ha). split; [reflexivity|]. apply number_ok, atoms_conj, nth_In, Ha.
Qed.
Lemma dagger_out a : length atoms <= a -> dagger_of sc atoms a = a.
Proof. intros Ha. unfold dagger_of. rewrite (proj2 (nth_error_None _ _) Ha). reflexivity. Qed.
Lemma dagger_twice a : dagger_of sc atoms (dagger_of sc atoms a) = a.
Proof.
  destruct (Nat.lt_ge_cases a (length atoms)) as [Ha|Ha]; [|rewrite !dagger_out by (try rewrite dagger_out; assumption); reflexivity].
  destruct (dagger_in a Ha) as (_ & D1 & D2). destruct (dagger_in _ D1) as (-> & _). rewrite D2, (proj2 (conjugate_usable sc W _ (atoms_usable _ (nth_In _ _ Ha)))). apply number_nth, Ha.
Qed.
Section L.
Variables (arr : ndarray) (L : word -> C) (MQ : moments_of sc arr L).
Definition atom_mean (a : nat) : C := L (nth a atoms []).
Lemma atom_mean_factorising c : dagger c = dagger_of sc atoms -> is_one c = is_one (atom_context sc atoms) -> is_zero c = is_zero (atom_context sc atoms) -> cfactorising c atom_mean.
Proof.
  intros ED E1 E0. unfold cfactorising. rewrite ED, E1, E0. cbn [atom_context is_one is_zero]. unfold atom_mean. split; [|split].
  - intros a. destruct (Nat.lt_ge_cases a (length atoms)) as [Ha|Ha].
    + destruct (dagger_in a Ha) as (_ & _ & ->). apply (L_conjugate sc W arr L MQ), atoms_usable, nth_In, Ha.
    + rewrite dagger_out by exact Ha. rewrite nth_overflow by exact Ha. rewrite (mq_one _ _ _ MQ). symmetry. apply conj_1.
  - intros a H. destruct (nth_error atoms a) as [[|x w]|] eqn:E; try discriminate. rewrite (nth_error_nth _ _ _ E). apply (mq_one _ _ _ MQ).
  - intros a H. destruct (Nat.lt_ge_cases a (length atoms)) as [Ha|Ha]; [|rewrite nth_overflow in H by exact Ha; discriminate].
    destruct (atoms_are _ (nth_In (A := word) atoms [] Ha)) as [E0'|(_ & R & _)]; [exact (eq_trans (f_equal L E0') (mq_zero _ _ _ MQ))|]. exfalso. unfold NameModel.is_zero in H. apply negb_true_iff in H.
    assert (forallb (fun x => negb (x =? 0)) (nth a atoms []) = true); [|congruence]. apply forallb_forall. intros x Hx. specialize (R x Hx). destruct x; [lia|reflexivity].
Qed.
Lemma mean_of_list l : (forall a, In a l -> In a atoms) -> map atom_mean (map (number atoms) l) = map L l.
Proof. intros H. rewrite map_map. apply map_ext_in. intros a Ha. unfold atom_mean. rewrite (proj2 (number_ok a (H a Ha))). reflexivity. Qed.
End L.
(** *** Knowable atoms *)
Hypothesis Hset : forall k, In k (private_settings sc) -> 1 <= k.
Lemma rows_are w : operator_word sc w -> rows_of sc w = map (fun k => nth k (lexorder sc) []) (map pred w).
Proof. intros R. unfold rows_of. rewrite map_map. apply map_ext_in. intros x Hx. specialize (R x Hx). unfold sdp_lexorder. destruct x; [lia|]. reflexivity. Qed.
Lemma knowable_word w : operator_word sc w -> NameModel.is_knowable sc w = Some true -> w <> [] -> atom_is_knowable sc (map pred w) = Some true.
Proof.
  intros R K NE. assert (HV : forall k, In k (map pred w) -> k < length (lexorder sc)) by (intros k Hk; apply in_map_iff in Hk as (x & <- & Hx); specialize (R x Hx); lia).
  destruct (KnowProofs.atom_is_knowable_correct sc (map pred w) W HV) as (b & Eb & Hb). set (mon := map (fun k => nth k (lexorder sc) []) (map pred w)) in *. rewrite Eb. f_equal. apply Hb. clear b Eb Hb.
  assert (V : forall r, In r mon -> exists p c s o, r = mkrow (p + 1) c s o /\ valid_operator sc p c s o).
  { intros r Hr. apply in_map_iff in Hr as (k & <- & Hk). destruct (SymProofs.lexorder_parts sc k W (HV k Hk)) as (p & c & s & o & E & Vo). exists p, c, s, o. split; [apply nth_error_nth, E|exact Vo]. }
  assert (Z : NameModel.is_zero w = false).
  { unfold NameModel.is_zero. apply negb_false_iff, forallb_forall. intros x Hx. specialize (R x Hx). destruct x; [lia|reflexivity]. }
  assert (AK : atomic_knowable_q sc mon = Some true).
  { unfold NameModel.is_knowable in K. destruct w as [|x w0] eqn:Ew; [contradiction|]. rewrite <- Ew in *. rewrite Z, (rows_are w R) in K. destruct (_ && _) in K; [|discriminate]. unfold mon. rewrite <- Ew. exact K. }
  unfold atomic_knowable_q in AK. destruct (nb_is_knowable (nr_sources sc) mon) eqn:NK; [|discriminate]. cbn [negb] in AK.
  destruct (proj1 (KnowProofs.nb_is_knowable_spec sc mon V) NK) as [K1 K2]. split; [exact K1|]. split; [exact K2|]. destruct (is_network sc) eqn:N.
  - apply KnowProofs.network_parents_agree; assumption.
  - destruct (KnowProofs.non_networks_spec sc mon V K1) as (b & E & B). rewrite E in AK. apply B. congruence.
Qed.
Lemma atom_sorted w : atom_word sc w -> atom_is_knowable sc (map pred w) = Some true -> StronglySorted le (map pred w).
Proof.
  intros (NE & R & Rep & Red) K. apply (PropMarg.C16_canonical_knowable_sorted sc w W R); [|exact K].
  assert (G := ScenarioProofs.scenario_good_tables sc W). assert (NS : good_comm (sdp_notcomm sc)) by exact (gt_nc_sym _ _ G).
  destruct (PropCanon.C01_canonical_form_sound (sdp_notcomm sc) w NS) as (r & E & CE). rewrite E. f_equal.
  destruct (PropCanon.C02_canonical_form_lex_least (sdp_notcomm sc) w r w NS E) as [_ LL]. specialize (LL (ce_refl _ _)).
  destruct Rep as [_ Rep]. assert (OS := ColumnProofs3.scenario_symmetries sc W). specialize (Rep (seq 0 (S (length (lexorder sc)))) r (ColumnProofs.id_in _ _ _ _ OS)).
  rewrite MemoProofs.apply_id in Rep by (intros x Hx; specialize (R x Hx); lia). specialize (Rep CE). apply CanonProofs.lex_antisym; assumption.
Qed.
Lemma atom_value_ok arr L a : moments_of sc arr L -> nd_shape arr = outcomes sc ++ private_settings sc -> a < length atoms -> knowable_of sc atoms a = true ->
  exists v, SDPMomentModel.atom_value sc arr (nth a atoms []) = Some v /\ atom_mean L a = creal v.
Proof.
  intros MQ Sh Ha K. unfold SDPMomentModel.atom_value, atom_mean. destruct (atoms_are _ (nth_In (A := word) atoms [] Ha)) as [E|A].
  - rewrite E. cbn [NameModel.is_zero forallb Nat.eqb negb andb]. exists 0%Qc. split; [reflexivity|]. apply (mq_zero _ _ _ MQ).
  - unfold knowable_of in K. set (w := nth a atoms []) in *. assert (A' := A). destruct A' as (NE & R & _). assert (Z : NameModel.is_zero w = false).
    { unfold NameModel.is_zero. apply negb_false_iff, forallb_forall. intros x Hx. specialize (R x Hx). destruct x; [lia|reflexivity]. }
    assert (K' : NameModel.is_knowable sc w = Some true) by (destruct (NameModel.is_knowable sc w) as [[|]|]; congruence). assert (K2 := knowable_word w R K' NE).
    assert (HV : forall k, In k (map pred w) -> k < length (lexorder sc)) by (intros k Hk; apply in_map_iff in Hk as (x & <- & Hx); specialize (R x Hx); lia).
    assert (NE' : map pred w <> []) by (destruct w; [contradiction|discriminate]).
    rewrite Z. destruct (PropMarg.C16_knowable_moment_value sc (map pred w) arr W HV NE' (atom_sorted w A K2) K2 Sh Hset) as (v & Ev & Hv). exists v. split; [exact Ev|].
    destruct (KnowProofs.atom_is_knowable_correct sc (map pred w) W HV) as (b & Eb & Hb). rewrite K2 in Eb. injection Eb as <-. destruct (proj1 Hb eq_refl) as (OP & OC & PA).
    destruct (settings_ok sc W (map pred w) HV OP) as [LS S']. rewrite <- (pred_S sc w R).
    rewrite (mq_observed _ _ _ MQ (map pred w) HV OP OC PA (agreeing sc (map pred w)) (settings_of sc (map pred w)) (agreeing_nodup sc (map pred w)) (agreeing_in sc W (map pred w) HV) LS S').
    unfold creal. f_equal. symmetry. apply Hv; [apply agreeing_nodup|intros o; apply (agreeing_in sc W (map pred w) HV)|exact LS|exact S'].
Qed.
End Atoms.
