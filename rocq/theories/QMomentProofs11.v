(** The means of an inflation are a point of the semidefinite programme. *)
From Coq Require Import Permutation QArith Qcanon List Arith Bool Lia Sorted String Ascii.
From Verif Require Import CanonModel CanonSpec MomentModel MomentSpec OrbitModel ScenarioModel ScenarioSpec SymModel SymSpec KnowModel KnowSpec FactorModel FactorSpec
  MargModel QcSum QcArith ColumnModel ColumnSpec MemoModel MemoSpec NormModel NormSpec NameModel NameSpec ProgramModel ProgramSpec ProgramProofs ProgramProofs2 ProgramProofs3 LPMomentModel QuantumSpec QuantumProofs QInflationSpec SDPMomentModel SDPRunSpec SoundProofs QMomentProofs QMomentProofs2 QMomentProofs3 QMomentProofs4 QMomentProofs5 QMomentProofs6 QMomentProofs7 QMomentLengths QMomentProofs8 QMomentProofs9 QMomentProofs10.
From Verif Require CanonProofs ScenarioProofs ColumnProofs2 PropProgram ProgramLPProofs SDPSolveModel SDPSolveSpec PropSDP Duality PropSound.
Import ListNotations.
Close Scope Q_scope. Close Scope Qc_scope. Open Scope string_scope. Open Scope nat_scope. Open Scope list_scope.

Section Generated.
Variables (sc : scenario) (W : wf_scenario sc) (FC : few_copies sc) (Hout : forall o, In o (outcomes sc) -> 1 <= o) (Hset : forall x, In x (private_settings sc) -> 1 <= x).
Notation n := (List.length (lexorder sc)).
Notation nc := (sdp_notcomm sc).
Notation ortho := (sdp_orthomat sc).
Notation oc := (operators_commute sc).
Variables (cols : list word) (GC : good_columns nc ortho (S n) cols).
Notation N := (List.length cols).
Variables (hc : list bool) (r : SDPMomentModel.relaxation) (GE : SDPMomentModel.generate sc hc false cols = Some r).
Notation atoms := (SDPMomentModel.r_atoms r).
Notation c := (SDPMomentModel.r_context r).
Notation M := (r_matrix r).
Notation comp := (r_moments r).
Variables (nm : moment -> SDPSolveModel.name) (before : list op) (arr : option ndarray) (lpi shared : bool) (after : list op) (feas : bool) (s : state) (a : SDPSolveModel.sdp_args).
Variable RUN : sdp_run sc hc cols nm before arr lpi shared after feas r s a.
(** the point of the moments of a distribution [arr0] *)
Variables (arr0 : ndarray) (L : word -> C) (MQ : moments_of sc arr0 L) (NH : nonnegative_hermitian sc (2 * longest cols) L).
Notation y := (moment_mean r L).

Definition candidates : list moment := moments c ++ keys (processed s) ++ map (fun q => snd (snd q)) (semiknown s) ++ [One].
Definition the_point (k : SDPSolveModel.name) : Qc :=
  if String.eqb k constant_term then 1%Qc else match find (fun m => String.eqb (nm m) k) candidates with Some m => y m | None => 0%Qc end.
Lemma candidates_proper m : In m candidates -> proper_moment r m.
Proof.
  unfold candidates. rewrite !in_app_iff. intros [H|[H|[H|[<-|[]]]]].
  - apply (moments_proper sc W FC cols GC hc r GE m H).
  - apply (processed_proper sc W FC cols GC hc r GE nm before arr lpi shared after feas s a RUN m H).
  - apply in_map_iff in H as ([m' [k u]] & <- & H). apply (target_proper sc W FC cols GC hc r GE nm before arr lpi shared after feas s a RUN m' k u H).
  - apply one_proper.
Qed.
Lemma point_at m : In m candidates -> the_point (nm m) = y m.
Proof.
  intros H. assert (P := candidates_proper m H). unfold the_point.
  destruct (String.eqb_spec (nm m) constant_term) as [E|_]; [elim (not_constant sc cols hc r nm before arr lpi shared after feas s a RUN m P E)|].
  destruct (find _ candidates) as [m'|] eqn:Fd.
  - apply find_some in Fd as [H' E]. apply String.eqb_eq in E. rewrite (nm_inj sc cols hc r nm before arr lpi shared after feas s a RUN m' m (candidates_proper m' H') P E). reflexivity.
  - assert (X := find_none _ _ Fd m H). cbv beta in X. rewrite String.eqb_refl in X. discriminate.
Qed.
Lemma point_constant : the_point constant_term = 1%Qc.
Proof. unfold the_point. rewrite String.eqb_refl. reflexivity. Qed.
Lemma in_moments m : In m (moments c) -> In m candidates.
Proof. intros H. unfold candidates. apply in_or_app. left. exact H. Qed.
Lemma y_one : y One = 1%Qc.
Proof. reflexivity. Qed.
Notation facts := (run_facts sc cols hc r GE nm before arr lpi shared after feas s a RUN).
Notation is_args := (args_are sc cols hc r GE nm before arr lpi shared after feas s a RUN).
Lemma expr_named d : (forall m, In m (keys d) -> In m candidates) -> SDPSolveSpec.expr the_point (named_dict nm d) = expr_at y d.
Proof.
  intros H. unfold SDPSolveSpec.expr, named_dict, expr_at. rewrite map_map. f_equal. apply map_ext_in. intros [m v] Hm. cbn [fst snd]. rewrite point_at; [reflexivity|]. apply H. apply in_map_iff. exists (m, v). auto.
Qed.
Lemma named_row_is d : named_row nm (named d) = named_dict nm d.
Proof. unfold named_row, named, named_dict. rewrite map_map. reflexivity. Qed.

Lemma one_term (l : list (nat * moment)) i m : NoDup (map fst l) -> In (i, m) l -> sumQ (map (fun q => (the_point (nm (snd q)) * (if i =? fst q then 1%Qc else 0%Qc))%Qc) l) = the_point (nm m).
Proof.
  induction l as [|[k m'] l IH]; intros ND H; [destruct H|]. cbn [map fst snd]. rewrite sumQ_cons. cbn [map fst] in ND. inversion ND as [|? ? NI ND']; subst. destruct H as [H|H].
  - assert (k = i) by congruence. assert (m' = m) by congruence. subst k m'. rewrite Nat.eqb_refl.
    assert (Z : sumQ (map (fun q => (the_point (nm (snd q)) * (if i =? fst q then 1%Qc else 0%Qc))%Qc) l) = 0%Qc); [|rewrite Z; ring].
    revert NI. clear. induction l as [|[k m'] l IH]; intros NI; [reflexivity|]. cbn [map fst snd]. rewrite sumQ_cons. destruct (Nat.eqb_spec i k) as [->|]; [elim NI; left; reflexivity|]. rewrite IH by (intros Q; apply NI; right; exact Q). ring.
  - destruct (Nat.eqb_spec i k) as [->|]; [elim NI; apply in_map_iff; exists (k, m); auto|]. rewrite (IH ND' H). ring.
Qed.
Lemma matrix_is i j : i < N -> j < N -> SDPSolveSpec.moment_matrix a the_point i j = fst (L (entry cols i j)).
Proof.
  intros Hi Hj. destruct (entry_moment sc W FC cols GC hc false r GE arr0 L MQ i j Hi Hj) as (m & Hm & <-).
  unfold SDPSolveSpec.moment_matrix. rewrite is_args. cbn [SDPSolveModel.mask_matrices]. rewrite map_app, sumQ_app, map_map. cbn [map].
  rewrite (one_term comp (M i j) m (keys_nodup sc W FC cols GC hc false r GE) Hm). rewrite sumQ_cons, sumQ_nil. rewrite point_at; [ring|]. apply in_moments. rewrite (moments_are sc cols hc false r GE). apply in_map_iff. exists (M i j, m). auto.
Qed.
Lemma linear_rest : (forall d, In d (SDPSolveModel.equalities a) -> SDPSolveSpec.expr the_point d = 0%Qc) /\ (forall d, In d (SDPSolveModel.inequalities a) -> (0 <= SDPSolveSpec.expr the_point d)%Qc).
Proof.
  destruct facts as (R & (DL & DU) & KM & _). rewrite is_args. cbn [SDPSolveModel.equalities SDPSolveModel.inequalities]. split.
  - intros d H. apply in_map_iff in H as (e & <- & He). rewrite named_row_is. destruct (equality_form sc W FC cols GC hc false r GE arr0 L MQ Hout e He) as (_ & IM & E). rewrite expr_named; [exact E|]. intros m Hm. apply in_moments, IM, Hm.
  - intros d H. apply in_map_iff in H as (m & <- & Hm). apply in_map_iff in Hm as ([m' v] & E & Hm). cbn [fst] in E. subst m'. destruct (DL m v Hm) as [_ Hh].
    unfold SDPSolveSpec.expr. cbn [map]. rewrite sumQ_cons, sumQ_nil. assert (I : In m (moments c)).
    { destruct (generate_is sc cols hc false r GE) as (_ & _ & _ & _ & _ & _ & _ & _ & _ & _ & _ & _ & _ & _ & _ & _ & _ & EH & _). rewrite EH in Hh. destruct oc; [exact Hh|]. apply filter_In in Hh. apply Hh. }
    rewrite (point_at m (in_moments m I)). assert (P := hermitian_nonneg sc W FC cols GC hc false r GE arr0 L MQ NH m Hh). replace (1 * y m + 0)%Qc with (y m) by ring. exact P.
Qed.
Lemma sumn_seq f k : Duality.sumn k f = sumQ (map f (seq 0 k)).
Proof.
  reflexivity.
Qed.
Lemma sumQ_in (l : list nat) f g : (forall i, In i l -> f i = g i) -> sumQ (map f l) = sumQ (map g l).
Proof. intros H. f_equal. apply map_ext_in, H. Qed.
Lemma psd_holds l : l = 0%Qc -> SDPSolveSpec.psd (SDPSolveModel.mat_dim a) (fun i j => (SDPSolveSpec.moment_matrix a the_point i j - (if Nat.eqb i j then l else 0))%Qc).
Proof.
  intros ->. assert (EN : SDPSolveModel.mat_dim a = N) by (rewrite is_args; reflexivity). rewrite EN. split.
  - intros i j Hi Hj. rewrite !matrix_is by assumption. rewrite (entries_symmetric sc cols arr0 L MQ i j), (Nat.eqb_sym i j). reflexivity.
  - intros v. assert (P := positive_entries sc cols arr0 L MQ v). rewrite sumn_seq.
    rewrite (sumQ_in (seq 0 N) _ (fun i => sumQ (map (fun j => (v i * fst (L (entry cols i j)) * v j)%Qc) (seq 0 N)))); [exact P|].
    intros i Hi. apply in_seq in Hi. rewrite sumn_seq. apply sumQ_in. intros j Hj. apply in_seq in Hj. rewrite matrix_is by lia. destruct (i =? j); ring.
Qed.
(** when [arr0] is the distribution that was given, or none was *)
Section Same.
Variables (EA : forall x, arr = Some x -> x = arr0) (Sh : nd_shape arr0 = outcomes sc ++ private_settings sc).
Variable NT : PropSound.no_tiny_values lpi shared s.
Lemma values_hold : (forall m v, In (m, v) (known s) -> y m = v) /\ (forall m k u, In (m, (k, u)) (semiknown s) -> y m = (k * y u)%Qc).
Proof.
  destruct facts as (_ & _ & _ & s1 & s2 & E & EK & ES). rewrite EK, ES.
  apply (known_values sc W FC cols GC hc false r GE arr0 L MQ Hset Sh arr lpi shared s1 s2 eq_refl EA E). rewrite <- EK. exact NT.
Qed.
Lemma linear_holds : SDPSolveSpec.linear_part a the_point.
Proof.
  destruct facts as (R & (DL & DU) & KM & _). destruct values_hold as [VK VS]. destruct linear_rest as [LE LI].
  unfold SDPSolveSpec.linear_part. split; [|split; [|split; [exact LE|split; [exact LI|rewrite is_args; discriminate]]]].
  - rewrite is_args. cbn [SDPSolveModel.known_vars]. intros k v H. apply in_app_or in H as [H|[H|[]]].
    + apply in_map_iff in H as ([m v'] & E & H). cbn [fst snd] in E. assert (k = nm m) as -> by congruence. assert (v' = v) by congruence. subst v'. rewrite point_at; [apply VK, H|]. apply in_moments, KM. apply in_map_iff. exists (m, v). auto.
    + assert (k = constant_term) as -> by congruence. assert (v = 1%Qc) as -> by congruence. apply point_constant.
  - rewrite is_args. cbn [SDPSolveModel.semiknown_vars]. intros k q k2 H. apply in_map_iff in H as ([m [q' u]] & E & H). cbn [fst snd] in E. assert (k = nm m) as -> by congruence. assert (k2 = nm u) as -> by congruence. assert (q' = q) by congruence. subst q'.
    rewrite !point_at; [apply VS, H| |].
    + unfold candidates. apply in_or_app. right. apply in_or_app. right. apply in_or_app. left. apply in_map_iff. exists (m, (q, u)). auto.
    + apply in_moments. apply (semi_moment sc cols hc r GE nm before arr lpi shared after feas s a RUN). apply in_map_iff. exists (m, (q, u)). auto.
Qed.
Theorem point_feasible0 : SDPSolveSpec.feasible a the_point.
Proof.
  split; [apply linear_holds|]. destruct (psd_holds 0%Qc eq_refl) as [S1 S2]. split.
  - intros i j Hi Hj. specialize (S1 i j Hi Hj). cbv beta in S1. rewrite (Nat.eqb_sym j i) in S1. destruct (i =? j); 
    match type of S1 with (?p - 0)%Qc = (?q - 0)%Qc => replace p with (p - 0)%Qc by ring; rewrite S1; ring end.
  - intros v. specialize (S2 v). match type of S2 with (0 <= ?p)%Qc => match goal with |- (0 <= ?q)%Qc => replace q with p; [exact S2|] end end.
    rewrite !sumn_seq. apply sumQ_in. intros i _. rewrite !sumn_seq. apply sumQ_in. intros j _. destruct (i =? j); ring.
Qed.
Theorem point_feasible_above0 : SDPSolveSpec.feasible_above a 0%Qc the_point.
Proof. split; [apply linear_holds|apply psd_holds; reflexivity]. Qed.
Theorem point_value0 : SDPSolveSpec.value a the_point = expr_at y (ProgramModel.objective s).
Proof.
  unfold SDPSolveSpec.value. rewrite is_args. cbn [SDPSolveModel.objective]. rewrite expr_named; [|intros m Hm; unfold candidates; apply in_or_app; right; apply in_or_app; left; exact Hm].
  destruct facts as (R & _ & _ & _). destruct values_hold as [VK _]. apply (ow_value _ _ (reachable_objective sdp c s R)); [apply y_one|]. intros m v Hm. apply VK. apply (get_some_in meq), Hm.
Qed.
End Same.
End Generated.

Section Points.
Variables (sc : scenario) (W : wf_scenario sc) (FC : few_copies sc) (Hout : forall o, In o (outcomes sc) -> 1 <= o) (Hset : forall x, In x (private_settings sc) -> 1 <= x).
Variables (cols : list word) (GC : good_columns (sdp_notcomm sc) (sdp_orthomat sc) (S (List.length (lexorder sc))) cols).
Variables (hc : list bool) (r : SDPMomentModel.relaxation) (GE : SDPMomentModel.generate sc hc false cols = Some r).
Variables (nm : moment -> SDPSolveModel.name) (before : list op) (arr : option ndarray) (lpi shared : bool) (after : list op) (feas : bool) (s : state) (a : SDPSolveModel.sdp_args).
Variable RUN : sdp_run sc hc cols nm before arr lpi shared after feas r s a.
Variables (arr0 : ndarray) (EA : forall x, arr = Some x -> x = arr0).
Variables (L : word -> C) (MQ : moments_of sc arr0 L) (NH : nonnegative_hermitian sc (2 * longest cols) L) (Sh : nd_shape arr0 = outcomes sc ++ private_settings sc).
Variable NT : PropSound.no_tiny_values lpi shared s.
Theorem point_feasible : SDPSolveSpec.feasible a (the_point r nm s L).
Proof. exact (point_feasible0 sc W FC Hout Hset cols GC hc r GE nm before arr lpi shared after feas s a RUN arr0 L MQ NH EA Sh NT). Qed.
Theorem point_feasible_above : SDPSolveSpec.feasible_above a 0%Qc (the_point r nm s L).
Proof. exact (point_feasible_above0 sc W FC Hout Hset cols GC hc r GE nm before arr lpi shared after feas s a RUN arr0 L MQ NH EA Sh NT). Qed.
Theorem point_value : SDPSolveSpec.value a (the_point r nm s L) = expr_at (moment_mean r L) (ProgramModel.objective s).
Proof. exact (point_value0 sc W FC Hset cols GC hc r GE nm before arr lpi shared after feas s a RUN arr0 L MQ EA Sh NT). Qed.
End Points.
