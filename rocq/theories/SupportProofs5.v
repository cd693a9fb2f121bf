(** Points of the semidefinite programmes, and multiples of them. *)
From Coq Require Import Permutation QArith Qcanon List Arith Bool Lia Sorted String Ascii.
From Verif Require Import CanonModel CanonSpec MomentModel MomentSpec OrbitModel ScenarioModel ScenarioSpec SymModel SymSpec KnowModel KnowSpec FactorModel FactorSpec
  MargModel QcSum QcArith ColumnModel ColumnSpec MemoModel MemoSpec NormModel NormSpec NameModel NameSpec ProgramModel ProgramSpec ProgramProofs ProgramProofs2 ProgramProofs3 LPMomentModel QuantumSpec QuantumProofs QInflationSpec SDPMomentModel SDPRunSpec SoundProofs QMomentProofs QMomentProofs2 QMomentProofs3 QMomentProofs4 QMomentProofs5 QMomentProofs6 QMomentProofs7 QMomentLengths QMomentProofs8 QMomentProofs9 QMomentProofs10 QMomentProofs14.
From Verif Require CanonProofs ScenarioProofs ColumnProofs2 PropProgram SDPSolveModel SDPSolveSpec PSD SoundProofs6 Duality.
Import ListNotations.
Close Scope Q_scope. Close Scope Qc_scope. Open Scope string_scope. Open Scope nat_scope. Open Scope list_scope.

Definition value_at (r : SDPMomentModel.relaxation) (y : moment -> Qc) (i : nat) : Qc := match assoc (r_moments r) i with Some m => y m | None => 0%Qc end.
Record good_point (r : SDPMomentModel.relaxation) (N : nat) (y : moment -> Qc) : Prop := {
  gp_equalities : forall d, In d (minimal_equalities (SDPMomentModel.r_context r)) -> expr_at y d = 0%Qc;
  gp_hermitian : forall m, In m (hermitian_moments (SDPMomentModel.r_context r)) -> (0 <= y m)%Qc;
  gp_psd : SDPSolveSpec.psd N (fun i j => value_at r y (r_matrix r i j)) }.
Lemma expr_mixed_at {A} (l : list (Qc * A)) (x : A -> moment -> Qc) d : expr_at (mixed l x) d = sumQ (map (fun q => (fst q * expr_at (x (snd q)) d)%Qc) l).
Proof. unfold expr_at. apply mixed_linear. Qed.
Lemma value_mixed {A} r (l : list (Qc * A)) (x : A -> moment -> Qc) i : value_at r (mixed l x) i = sumQ (map (fun q => (fst q * value_at r (x (snd q)) i)%Qc) l).
Proof. unfold value_at. destruct (assoc _ i) as [m|]; [reflexivity|]. symmetry. apply sumQ_zero. intros q _. ring. Qed.
Lemma good_mixture {A} r N (l : list (Qc * A)) (x : A -> moment -> Qc) : (forall q, In q l -> (0 <= fst q)%Qc /\ good_point r N (x (snd q))) -> good_point r N (mixed l x).
Proof.
  intros H. constructor.
  - intros d Hd. rewrite expr_mixed_at. apply sumQ_zero. intros q Hq. rewrite (gp_equalities _ _ _ (proj2 (H q Hq)) d Hd). ring.
  - intros m Hm. apply sumQ_nonneg. intros q Hq. apply SoundProofs6.nonneg_mult; [apply H, Hq|apply (gp_hermitian _ _ _ (proj2 (H q Hq)) m Hm)].
  - apply (PSD.psd_ext N (fun i j => sumQ (map (fun q => (fst q * value_at r (x (snd q)) (r_matrix r i j))%Qc) l))); [intros i j _ _; symmetry; apply value_mixed|].
    apply (psd_mixed N l (fun a i j => value_at r (x a) (r_matrix r i j))). intros q Hq. split; [apply H, Hq|apply (gp_psd _ _ _ (proj2 (H q Hq)))].
Qed.
Lemma good_multiple r N t y : (0 <= t)%Qc -> good_point r N y -> good_point r N (fun m => (t * y m)%Qc).
Proof.
  intros T G. assert (X := good_mixture r N [(t, tt)] (fun _ => y)). assert (Y : forall m, mixed [(t, tt)] (fun _ => y) m = (t * y m)%Qc) by (intros m; unfold mixed; cbn [map fst snd]; rewrite sumQ_cons, sumQ_nil; ring).
  destruct X as [X1 X2 X3]; [intros q [<-|[]]; split; [exact T|exact G]|]. constructor.
  - intros d Hd. rewrite <- (X1 d Hd). unfold expr_at. apply sumQ_ext. intros p _. rewrite Y. reflexivity.
  - intros m Hm. rewrite <- Y. apply X2, Hm.
  - eapply PSD.psd_ext; [|exact X3]. intros i j _ _. unfold value_at. destruct (assoc _ _); [apply Y|reflexivity].
Qed.
Section Generated.
Variables (sc : scenario) (W : wf_scenario sc) (FC : few_copies sc) (Hout : forall o, In o (outcomes sc) -> 1 <= o).
Variables (cols : list word) (GC : good_columns (sdp_notcomm sc) (sdp_orthomat sc) (S (List.length (lexorder sc))) cols).
Notation N := (List.length cols).
Context {sup : bool}.
Variables (hc : list bool) (r : SDPMomentModel.relaxation) (GE : SDPMomentModel.generate sc hc sup cols = Some r).
Lemma good_mean x L : moments_of sc x L -> nonnegative_hermitian sc (2 * longest cols) L -> good_point r N (moment_mean r L).
Proof.
  intros MQ NH. constructor.
  - intros d Hd. apply (equality_form sc W FC cols GC hc sup r GE x L MQ Hout d Hd).
  - intros m Hm. exact (hermitian_nonneg sc W FC cols GC hc sup r GE x L MQ NH m Hm).
  - assert (ME : forall i j, i < N -> j < N -> fst (L (entry cols i j)) = value_at r (moment_mean r L) (r_matrix r i j)).
    { intros i j Hi Hj. destruct (entry_moment sc W FC cols GC hc sup r GE x L MQ i j Hi Hj) as (m & Hm & <-). unfold value_at. rewrite (ColumnProofs2.assoc_unique _ _ _ (keys_nodup sc W FC cols GC hc sup r GE) Hm). reflexivity. }
    apply (PSD.psd_ext N (fun i j => fst (L (entry cols i j))) _ ME). split; [intros i j _ _; apply (entries_symmetric sc cols x L MQ)|].
    intros v. exact (positive_entries sc cols x L MQ v).
Qed.
End Generated.
