(** Bounds and objective of the generated programme. *)
From Coq Require Import Permutation QArith Qcanon List Arith Bool Lia Sorted.
From Verif Require Import CanonModel CanonSpec MomentModel MomentSpec OrbitModel ScenarioModel ScenarioSpec SymModel SymSpec KnowModel KnowSpec FactorModel FactorSpec
  MargModel QcSum QcArith ColumnModel ColumnSpec MemoModel MemoSpec NormModel NormSpec NameModel NameSpec ProgramModel ProgramSpec ProgramProofs ProgramProofs2 ProgramProofs3 LPMomentModel QuantumSpec QuantumProofs QInflationSpec SDPMomentModel SDPRunSpec SoundProofs QMomentProofs QMomentProofs2 QMomentProofs3 QMomentProofs4 QMomentProofs5 QMomentProofs6 QMomentProofs7 QMomentLengths.
From Verif Require CanonProofs ScenarioProofs CanonProofs2 ColumnProofs ColumnProofs2 ColumnProofs3 MemoProofs PropMemo PropProgram ProgramLPProofs.
Import ListNotations.
Close Scope Q_scope. Close Scope Qc_scope. Open Scope nat_scope.

Lemma prod_nonneg l : (forall q, In q l -> (0 <= q)%Qc) -> (0 <= prodQ l)%Qc.
Proof.
  induction l as [|a l IH]; intros H; [rewrite prodQ_nil; discriminate|]. rewrite prodQ_cons. replace 0%Qc with (0 * prodQ l)%Qc by ring. apply Qcmult_le_compat_r; [apply H; left; reflexivity|apply IH; intros q Hq; apply H; right; exact Hq].
Qed.

Section Generated.
Variables (sc : scenario) (W : wf_scenario sc) (FC : few_copies sc).
Notation n := (length (lexorder sc)).
Notation nc := (sdp_notcomm sc).
Notation ortho := (sdp_orthomat sc).
Notation syms := (sdp_lexorder_symmetries sc).
Notation oc := (operators_commute sc).
Variables (cols : list word) (GC : good_columns nc ortho (S n) cols).
Notation N := (length cols).
Variables (hc : list bool) (sup : bool) (r : SDPMomentModel.relaxation) (GE : SDPMomentModel.generate sc hc sup cols = Some r).
Notation atoms := (SDPMomentModel.r_atoms r).
Notation c := (SDPMomentModel.r_context r).
Notation M := (r_matrix r).
Notation comp := (r_moments r).

Section Mean.
Variables (arr : ndarray) (L : word -> C) (MQ : moments_of sc arr L) (NH : nonnegative_hermitian sc (2 * longest cols) L).
Notation y := (moment_mean r L).
Lemma hermitian_sym g w : length w <= 2 * longest cols -> In g syms -> operator_word sc w -> comm_eq nc (apply_lexsym g w) (rev w) -> (0 <= fst (L w))%Qc.
Proof. intros Lw Hg OW E. apply (PropMemo.C35_symmetries_are_relabellings sc g W) in Hg as (sg & h & Rl & In' & ->). exact (NH sg h w Lw Rl In' OW E). Qed.
Lemma commuting_word w : (forall a b, In a w -> In b w -> nc a b = false) -> (0 <= fst (L w))%Qc.
Proof. exact (commuting_nonneg sc arr L w W MQ). Qed.
Lemma self_conjugate w : w = [0] \/ length w <= 2 * longest cols -> usable sc w -> conjugate sc w = w -> real (L w) /\ (0 <= fst (L w))%Qc.
Proof.
  intros Lw U E. split; [apply real_conj; rewrite <- (L_conjugate sc W arr L MQ w U), E; reflexivity|].
  destruct U as [A|[->| -> ]]; [|rewrite (mq_zero _ _ _ MQ); apply Qcle_refl|rewrite (mq_one _ _ _ MQ); discriminate].
  destruct (conjugate_atom sc W w A) as (E' & _). destruct (conj_ok sc W w) as [C1' C2]. destruct (sub_any nc w) eqn:Q.
  - assert (Q' := proj1 (MemoProofs.sub_any_spec nc w) Q). specialize (C2 A Q'). rewrite <- E', E in C2. destruct C2 as [(g & Hg & Eg) _].
    replace (fst (L w)) with (fst (L (rev w))) by (rewrite (mq_conjugate _ _ _ MQ); reflexivity). apply (hermitian_sym g (rev w)); [|exact Hg| |].
    + destruct Lw as [->|Lw]; [exfalso; destruct A as (_ & A & _); specialize (A 0 (or_introl eq_refl)); lia|rewrite rev_length; exact Lw].
    + intros x Hx. apply in_rev in Hx. apply (op_atom sc w A x Hx).
    + rewrite rev_involutive. exact Eg.
  - apply commuting_word. apply CanonProofs.sub_any_false. exact Q.
Qed.
Lemma hermitian_nonneg m : In m (hermitian_moments c) -> (0 <= y m)%Qc.
Proof.
  destruct (generate_is sc cols hc sup r GE) as (_ & _ & _ & _ & _ & _ & _ & _ & _ & _ & _ & _ & _ & _ & _ & _ & _ & EH & _). rewrite EH, (moments_are sc cols hc sup r GE).
  destruct oc eqn:EO.
  - intros Hm. apply in_map_iff in Hm as ([k m'] & E & Hm). cbn [snd] in E. subst m'. destruct (moment_word sc W FC cols GC hc sup r GE arr L MQ k m Hm) as [(_ & _ & ->)|(w & OW & -> & _)]; [apply Qcle_refl|].
    apply commuting_word. intros a b _ _. apply (comm_flag sc W EO).
  - intros Hm. apply filter_In in Hm as [Hm F]. rewrite forallb_forall in F. apply in_map_iff in Hm as ([k m'] & E & Hm). cbn [snd] in E. subst m'. 
    destruct (moment_word sc W FC cols GC hc sup r GE arr L MQ k m Hm) as [(_ & _ & ->)|(w & OW & _ & PA & _)]; [apply Qcle_refl|].
    destruct (parts sc W FC cols GC hc sup r GE) as (ob & co & lists & eqs & EM & HL & F2 & EA & ER & _).
    assert (R : forall a, In a m -> real (L (nth a atoms [])) /\ (0 <= fst (L (nth a atoms [])))%Qc).
    { intros a Ha. specialize (F a Ha). apply Nat.eqb_eq in F. assert (LA := PA a Ha). assert (AL := atoms_length sc W FC cols GC hc sup r GE (nth a atoms []) (nth_In (A := word) _ _ LA)). rewrite EA in *. destruct (dagger_in sc W (map snd lists) HL a LA) as (_ & _ & D). rewrite F in D.
      apply self_conjugate; [exact AL| |symmetry; exact D]. apply (atoms_usable sc W (map snd lists) HL). apply (nth_In (A := word)). exact LA. }
    unfold moment_mean, cmoment. destruct (cprod_real (map (fun a => L (nth a atoms [])) m)) as [_ E].
    { intros z Hz. apply in_map_iff in Hz as (a & <- & Ha). apply (R a Ha). }
    rewrite E. apply prod_nonneg. intros q Hq. rewrite map_map in Hq. apply in_map_iff in Hq as (a & <- & Ha). apply (R a Ha).
Qed.
End Mean.
End Generated.

(** ** States reached without setting bounds *)

Definition default_bounds (c : context) (s : state) : Prop := (forall m v, In (m, v) (lower s) -> v = 0%Qc /\ In m (hermitian_moments c)) /\ upper s = [].
Lemma update_bounds_in ok d b b' : update_bounds ok d b = Some b' -> forall q, In q b' -> In q b.
Proof.
  unfold update_bounds. revert b. induction d as [|[m v] d IH]; intros b E q Hq; cbn [fold_left] in E; [assert (b' = b) by congruence; subst b'; exact Hq|]. cbn [fst snd] in E.
  assert (NN : forall d, fold_left (fun o p => match o with None => None | Some b => match get meq (fst p) b with None => Some b | Some x => if ok x (snd p) then Some (del meq (fst p) b) else None end end) d (@None (mdict Qc)) = None) by (clear; induction d; auto).
  destruct (get meq m b) as [x|]; [destruct (ok x v); [|rewrite NN in E; discriminate]|apply (IH b E q Hq)].
  specialize (IH _ E q Hq). apply filter_In in IH as [IH _]. exact IH.
Qed.
Lemma cleanup_default c s s' : supports_problem c = false -> default_bounds c s -> cleanup_sdp c s = Some s' -> default_bounds c s'.
Proof.
  intros SP [L U] E. unfold cleanup_sdp, supports_step in E. rewrite SP in E. destruct (update_bounds lo_ok _ _) as [lo|] eqn:EL; [|discriminate]. destruct (update_bounds up_ok _ _) as [up|] eqn:EU; [|discriminate]. destruct (update_objective _ _ _) as [p|]; [|discriminate].
  injection E as <-. split; cbn [with_values with_objective with_bounds lower upper].
  - intros m v H. apply L. apply (update_bounds_in _ _ _ _ EL _ H).
  - rewrite U in EU. destruct up as [|q up]; [reflexivity|]. destruct (update_bounds_in _ _ _ _ EU q (or_introl eq_refl)).
Qed.
Lemma step_default c o s s' : supports_problem c = false -> keeps_bounds o -> default_bounds c s -> step sdp c o s = Some s' -> default_bounds c s'.
Proof.
  intros SP K D E. destruct o as [values lpi only|values lpi only|b bt|items mx|l|l]; cbn [step] in E; [| |destruct K| | |].
  - rewrite set_values_is in E. apply (cleanup_default c _ s' SP) in E; [exact E|exact D].
  - unfold update_values in E. destruct values as [|p values]; [assert (s' = s) by congruence; subst; exact D|]. destruct (assign_values _ _ _ _ _ _) as [d sk]. apply (cleanup_default c _ s' SP) in E; [exact E|exact D].
  - unfold set_objective in E. destruct items as [items|]; [|injection E as <-; exact D]. rewrite SP in E. destruct (forallb _ _); [|discriminate]. destruct (update_objective _ _ _); [|discriminate]. injection E as <-. exact D.
  - injection E as <-. exact D.
  - injection E as <-. exact D.
Qed.
Lemma run_default c ops : supports_problem c = false -> Forall keeps_bounds ops -> forall s s', default_bounds c s -> run sdp c ops (Some s) = Some s' -> default_bounds c s'.
Proof.
  intros SP. induction 1 as [|o ops K _ IH]; intros s s' D E; unfold run in *; cbn [fold_left] in E; [assert (s' = s) by congruence; subst; exact D|].
  destruct (step sdp c o s) as [s1|] eqn:E1; [|assert (X := run_none sdp c ops); unfold run in X; rewrite X in E; discriminate].
  apply (IH s1 s'); [apply (step_default c o s s1 SP K D E1)|exact E].
Qed.
Lemma generated_default c s : supports_problem c = false -> generated sdp c = Some s -> default_bounds c s.
Proof.
  intros SP E. apply (run_default c [SetObjective None true; SetValues [] false false] SP) in E; [exact E|repeat constructor|]. split; cbn [lower upper]; [|reflexivity].
  assert (ND : NoDup (keys (default_lower c))). { unfold default_lower. generalize (hermitian_moments c). assert (Q : NoDup (keys ([] : mdict Qc))) by constructor. revert Q. generalize ([] : mdict Qc). intros d Q l. revert d Q. induction l as [|m l IH]; intros d Q; [exact Q|]. cbn [fold_left]. apply IH, nodup_set, Q. }
  intros m v H. apply (in_get meq _ _ _ ND) in H. rewrite default_get in H. destruct (mmem m (hermitian_moments c)) eqn:Q; [|discriminate]. split; [congruence|]. apply mmem_iff, Q.
Qed.
(** ** The objective *)
Definition tidy_objective (c : context) (s : state) : Prop :=
  (NoDup (keys (ProgramModel.objective s)) /\ NoDup (keys (processed s))) /\ (forall m, In m (keys (ProgramModel.objective s)) -> m = One \/ In m (moments c)).
Lemma update_objective_nodup o k sk p : NoDup (keys o) -> update_objective o k sk = Some p -> NoDup (keys p).
Proof. intros ND E. rewrite update_objective_is in E. destruct (existsb _ _); [discriminate|]. injection E as <-. apply uo_nodup, ND. Qed.
Lemma cleanup_tidy c s s' : tidy_objective c s -> cleanup_sdp c s = Some s' -> tidy_objective c s'.
Proof.
  intros ((N1 & N2) & K) E. unfold cleanup_sdp in E. destruct (update_bounds lo_ok _ _) as [lo|]; [|discriminate]. destruct (update_bounds up_ok _ _) as [up|]; [|discriminate]. destruct (update_objective _ _ _) as [p|] eqn:EU; [|discriminate].
  assert (OS : ProgramModel.objective (supports_step c s) = ProgramModel.objective s) by (unfold supports_step; destruct (supports_problem c); reflexivity). rewrite OS in EU.
  injection E as <-. unfold tidy_objective. cbn [with_values with_objective with_bounds ProgramModel.objective processed]. rewrite OS. split; [split; [exact N1|apply (update_objective_nodup _ _ _ _ N1 EU)]|exact K].
Qed.
Lemma reachable_tidy c s : reachable sdp c s -> tidy_objective c s.
Proof.
  intros R. apply (reachable_invariant (tidy_objective c)) with (t := sdp) (c := c) (s := s); [| |exact R].
  - split; [split; constructor|intros m []].
  - clear s R. intros o s s' T E. destruct o as [values lpi only|values lpi only|b bt|items mx|l|l]; cbn [step] in E.
    + rewrite set_values_is in E. apply cleanup_tidy in E; [exact E|exact T].
    + unfold update_values in E. destruct values as [|p values]; [assert (s' = s) by congruence; subst; exact T|]. destruct (assign_values _ _ _ _ _ _) as [d sk]. apply cleanup_tidy in E; [exact E|exact T].
    + apply bounds_values in E as (_ & _ & E1 & E2). unfold tidy_objective. rewrite E1, E2. exact T.
    + unfold set_objective in E. destruct items as [items|].
      * destruct (supports_problem c); [discriminate|]. destruct (forallb _ _) eqn:F; [|discriminate]. destruct (update_objective _ _ _) as [p|] eqn:EU; [|discriminate]. injection E as <-. unfold tidy_objective. cbn [with_objective ProgramModel.objective processed].
        match type of F with forallb _ (keys ?o) = true => assert (ND : NoDup (keys o)) by (apply with_constant_nodup; rewrite (keys_map_snd (fun p => if mx then snd p else (- snd p)%Qc)); apply sanitise_nodup) end.
        split; [split; [exact ND|apply (update_objective_nodup _ _ _ _ ND EU)]|]. intros m Hm. right. rewrite forallb_forall in F. apply mmem_iff, F, Hm.
      * injection E as <-. split; [split; repeat constructor; intros []|]. intros m [<-|[]]. left. reflexivity.
    + injection E as <-. exact T.
    + injection E as <-. exact T.
Qed.
