(** Mixtures of distributions with moments (shared randomness). *)
From Coq Require Import Permutation QArith Qcanon List Arith Bool Lia Sorted String Ascii.
From Verif Require Import CanonModel CanonSpec MomentModel MomentSpec OrbitModel ScenarioModel ScenarioSpec SymModel SymSpec KnowModel KnowSpec FactorModel FactorSpec
  MargModel QcSum QcArith ColumnModel ColumnSpec MemoModel MemoSpec NormModel NormSpec NameModel NameSpec ProgramModel ProgramSpec ProgramProofs ProgramProofs2 ProgramProofs3 LPMomentModel QuantumSpec QuantumProofs QInflationSpec SDPMomentModel SDPRunSpec SoundProofs QMomentProofs QMomentProofs2 QMomentProofs3 QMomentProofs4 QMomentProofs5 QMomentProofs6 QMomentProofs7 QMomentLengths QMomentProofs8 QMomentProofs9 QMomentProofs10 QMomentProofs11 QMomentProofs13.
From Verif Require CanonProofs ScenarioProofs PropProgram PropSDP SDPSolveModel SDPSolveSpec PSD KnowProofs PropMarg ClassicalProofs2 SoundProofs6 Duality.
Import ListNotations.
Close Scope Q_scope. Close Scope Qc_scope. Open Scope string_scope. Open Scope nat_scope. Open Scope list_scope.

Section Sums.
Context {A K : Type} (l : list (Qc * A)) (x : A -> K -> Qc).
Definition mixed (k : K) : Qc := sumQ (map (fun q => (fst q * x (snd q) k)%Qc) l).
Lemma mixed_linear {B} (d : list B) (f : B -> K) (g : B -> Qc) :
  sumQ (map (fun b => (g b * mixed (f b))%Qc) d) = sumQ (map (fun q => (fst q * sumQ (map (fun b => (g b * x (snd q) (f b))%Qc) d))%Qc) l).
Proof.
  unfold mixed. rewrite (sumQ_ext d _ (fun b => sumQ (map (fun q => (fst q * (g b * x (snd q) (f b)))%Qc) l))) by (intros b _; rewrite <- sumQ_scale; apply sumQ_ext; intros q _; ring).
  rewrite sumQ_swap. apply sumQ_ext. intros q _. rewrite sumQ_scale. reflexivity.
Qed.
End Sums.
Lemma expr_mixed {A} (l : list (Qc * A)) x d : SDPSolveSpec.expr (mixed l x) d = sumQ (map (fun q => (fst q * SDPSolveSpec.expr (x (snd q)) d)%Qc) l).
Proof.
  unfold SDPSolveSpec.expr. rewrite (sumQ_ext d _ (fun b => (snd b * mixed l x (fst b))%Qc)) by (intros [k v] _; reflexivity). rewrite mixed_linear.
  apply sumQ_ext. intros q _. f_equal. apply sumQ_ext. intros [k v] _. reflexivity.
Qed.
Lemma matrix_mixed {A} (l : list (Qc * A)) x a i j : SDPSolveSpec.moment_matrix a (mixed l x) i j = sumQ (map (fun q => (fst q * SDPSolveSpec.moment_matrix a (x (snd q)) i j)%Qc) l).
Proof.
  unfold SDPSolveSpec.moment_matrix. rewrite (sumQ_ext (SDPSolveModel.mask_matrices a) _ (fun b => (snd b i j * mixed l x (fst b))%Qc)) by (intros [k v] _; cbn [fst snd]; ring). rewrite mixed_linear.
  apply sumQ_ext. intros q _. f_equal. apply sumQ_ext. intros [k v] _. cbn [fst snd]. ring.
Qed.
Lemma psd_mixed {A} n (l : list (Qc * A)) (M : A -> SDPSolveModel.matrix) : (forall q, In q l -> (0 <= fst q)%Qc /\ SDPSolveSpec.psd n (M (snd q))) ->
  SDPSolveSpec.psd n (fun i j => sumQ (map (fun q => (fst q * M (snd q) i j)%Qc) l)).
Proof.
  intros H. split.
  - intros i j Hi Hj. apply sumQ_ext. intros q Hq. f_equal. apply (proj2 (H q Hq)); assumption.
  - intros v. assert (E : Duality.sumn n (fun i => Duality.sumn n (fun j => (v i * sumQ (map (fun q => (fst q * M (snd q) i j)%Qc) l) * v j)%Qc)) =
      sumQ (map (fun q => (fst q * Duality.sumn n (fun i => Duality.sumn n (fun j => (v i * M (snd q) i j * v j)%Qc)))%Qc) l)).
    { unfold Duality.sumn. 
      rewrite (sumQ_ext (seq 0 n) _ (fun i => sumQ (map (fun q => (fst q * sumQ (map (fun j => (v i * M (snd q) i j * v j)%Qc) (seq 0 n)))%Qc) l))).
      - rewrite sumQ_swap. apply sumQ_ext. intros q _. rewrite sumQ_scale. reflexivity.
      - intros i _. rewrite (sumQ_ext (seq 0 n) _ (fun j => sumQ (map (fun q => (fst q * (v i * M (snd q) i j * v j))%Qc) l))).
        + rewrite sumQ_swap. apply sumQ_ext. intros q _. rewrite sumQ_scale. reflexivity.
        + intros j _. transitivity (sumQ (map (fun q => (v i * v j * (fst q * M (snd q) i j))%Qc) l)); [rewrite sumQ_scale; ring|]. apply sumQ_ext. intros q _. ring. }
    rewrite E. apply sumQ_nonneg. intros q Hq. destruct (H q Hq) as (H1 & _ & H2). apply SoundProofs6.nonneg_mult; [exact H1|apply H2].
Qed.

Lemma minus_zero (b : bool) (q : Qc) : (q - (if b then 0 else 0))%Qc = q.
Proof. destruct b; ring. Qed.

Section Values.
Variables (sc : scenario) (W : wf_scenario sc) (FC : few_copies sc) (Hout : forall o, In o (outcomes sc) -> 1 <= o).
Notation n := (List.length (lexorder sc)).
Notation nc := (sdp_notcomm sc).
Notation ortho := (sdp_orthomat sc).
Variable Hset : forall k, In k (private_settings sc) -> 1 <= k.
Variables (cols : list word) (GC : good_columns nc ortho (S n) cols).
Context {sup : bool}.
Variables (hc : list bool) (r : SDPMomentModel.relaxation) (GE : SDPMomentModel.generate sc hc sup cols = Some r).
Notation c := (SDPMomentModel.r_context r).
Notation atoms := (SDPMomentModel.r_atoms r).
Variable l : list (Qc * (ndarray * (word -> C))).
Variable HL : forall q, In q l -> (0 <= fst q)%Qc /\ moments_of sc (fst (snd q)) (snd (snd q)) /\ nonnegative_hermitian sc (2 * longest cols) (snd (snd q)).
Variable TOT : sumQ (map fst l) = 1%Qc.
Variable arr : ndarray.
Variable Sh : nd_shape arr = outcomes sc ++ private_settings sc.
Variable MX : forall a x, Forall2 lt a (outcomes sc) -> Forall2 lt x (private_settings sc) ->
      nd_at arr (a ++ x) = sumQ (map (fun q => fst q * nd_at (fst (snd q)) (a ++ x))%Qc l).
Notation y := (mixed l (fun q m => moment_mean r (snd q) m)).

Lemma atom_value_mix a : a < List.length atoms -> knowable_of sc atoms a = true ->
  exists v, SDPMomentModel.atom_value sc arr (nth a atoms []) = Some v /\ v = sumQ (map (fun q => (fst q * fst (snd (snd q) (nth a atoms [])))%Qc) l) /\ forall q, In q l -> snd (snd (snd q) (nth a atoms [])) = 0%Qc.
Proof.
  intros Ha K. destruct (parts sc W FC cols GC hc sup r GE) as (ob & co & lists & eqs & EM & HLs & F & EA & ER & _).
  unfold SDPMomentModel.atom_value. assert (I := nth_In (A := word) atoms [] Ha). rewrite EA in I. destruct (atoms_are sc W _ HLs _ I) as [E|A]; rewrite <- EA in *.
  - rewrite E. cbn [NameModel.is_zero forallb Nat.eqb negb andb]. exists 0%Qc. split; [reflexivity|]. split.
    + symmetry. apply sumQ_zero. intros q Hq. transitivity (fst q * fst C0)%Qc; [exact (f_equal (fun z => (fst q * fst z)%Qc) (mq_zero _ _ _ (proj1 (proj2 (HL q Hq)))))|cbn [fst C0]; ring].
    + intros q Hq. exact (f_equal snd (mq_zero _ _ _ (proj1 (proj2 (HL q Hq))))).
  - unfold knowable_of in K. set (w := nth a atoms []) in *. assert (A' := A). destruct A' as (NE & R & _). assert (Z : NameModel.is_zero w = false).
    { unfold NameModel.is_zero. apply negb_false_iff, forallb_forall. intros x Hx. specialize (R x Hx). destruct x; [lia|reflexivity]. }
    assert (K' : NameModel.is_knowable sc w = Some true) by (destruct (NameModel.is_knowable sc w) as [[|]|]; congruence). assert (K2 := knowable_word sc W w R K' NE).
    assert (HV : forall k, In k (map pred w) -> k < List.length (lexorder sc)) by (intros k Hk; apply in_map_iff in Hk as (x & <- & Hx); specialize (R x Hx); lia).
    assert (NE' : map pred w <> []) by (destruct w; [contradiction|discriminate]).
    rewrite Z. destruct (PropMarg.C16_knowable_moment_value sc (map pred w) arr W HV NE' (atom_sorted sc W w A K2) K2 Sh Hset) as (v & Ev & Hv). exists v. split; [exact Ev|].
    destruct (KnowProofs.atom_is_knowable_correct sc (map pred w) W HV) as (b & Eb & Hb). rewrite K2 in Eb. injection Eb as <-. destruct (proj1 Hb eq_refl) as (OP & OC & PA).
    destruct (settings_ok sc W (map pred w) HV OP) as [LS S'].
    assert (Q : forall q, In q l -> snd (snd q) w = (sumQ (map (fun a => nd_at (fst (snd q)) (a ++ settings_of sc (map pred w))) (agreeing sc (map pred w))), 0%Qc)).
    { intros q Hq. rewrite <- (pred_S sc w R) at 1. exact (mq_observed _ _ _ (proj1 (proj2 (HL q Hq))) (map pred w) HV OP OC PA (agreeing sc (map pred w)) (settings_of sc (map pred w)) (agreeing_nodup sc (map pred w)) (agreeing_in sc W (map pred w) HV) LS S'). }
    split; [|intros q Hq; exact (f_equal snd (Q q Hq))].
    rewrite (Hv (agreeing sc (map pred w)) (settings_of sc (map pred w)) (agreeing_nodup sc (map pred w)) (agreeing_in sc W (map pred w) HV) LS S').
    rewrite (sumQ_ext _ _ (fun o => sumQ (map (fun q => (fst q * nd_at (fst (snd q)) (o ++ settings_of sc (map pred w)))%Qc) l))).
    2:{ intros o Ho. apply MX; [apply (agreeing_in sc W _ HV), Ho|]. apply (ClassicalProofs2.settings_in_range sc W (map pred w) HV _ S' LS Hset). }
    rewrite sumQ_swap. apply sumQ_ext. intros q Hq. rewrite sumQ_scale. symmetry. exact (f_equal (fun z => (fst q * fst z)%Qc) (Q q Hq)).
Qed.
Lemma values_mix values m v : distribution_values sc r arr = Some values -> base sdp c values m = Some v -> y m = v.
Proof.
  intros EV. unfold base. destruct (given values m) as [u|] eqn:Gv.
  - intros E. assert (u = v) by congruence. subst u. clear E.
    unfold given in Gv. destruct (find _ _) as [[m' o]|] eqn:Fd; [|discriminate]. subst o. apply find_some in Fd as [Fd Q]. cbn [fst snd] in Q. apply andb_prop in Q as [Q _]. destruct (meq m' m) as [->|]; [|discriminate]. clear Q.
    apply in_rev in Fd. pose proof EV as EV2. unfold distribution_values in EV2. apply ScenarioProofs.map_opt_some in EV2.
    assert (X : exists a, In a (knowable_atoms r) /\ match SDPMomentModel.atom_value sc arr (nth a atoms []) with Some v => Some (ProgramModel.monomial_from_atoms c [a], Some v) | None => None end = Some (m, Some v)).
    { clear - EV2 Fd. revert Fd. induction EV2 as [|a q l l' H _ IH]; [intros []|]. intros [->|Fd]; [exists a; split; [left; reflexivity|exact H]|]. destruct (IH Fd) as (b & Hb & Eb). exists b. split; [right; exact Hb|exact Eb]. }
    destruct X as (a & Ha & Ea). unfold knowable_atoms in Ha. apply filter_In in Ha as [Ha K]. apply in_seq in Ha. apply andb_prop in K as [_ K].
    destruct (generate_is sc cols hc sup r GE) as (_ & _ & _ & _ & _ & _ & _ & _ & _ & _ & _ & _ & _ & EK & _). rewrite EK in K.
    destruct (atom_value_mix a ltac:(lia) K) as (v' & E1 & E2 & E3). rewrite E1 in Ea. assert (m = ProgramModel.monomial_from_atoms c [a]) as -> by congruence. assert (Ev : v' = v) by congruence. rewrite <- Ev, E2. unfold mixed. apply sumQ_ext. intros q Hq. f_equal.
    destruct (HL q Hq) as (_ & MQ & _). unfold moment_mean. rewrite (cmoment_from_atoms _ _ (cf sc W FC cols GC hc sup r GE _ _ MQ)). apply (cmoment_one r _ a). apply injective_projections; [reflexivity|exact (E3 q Hq)].
  - destruct (meq m One) as [->|]; [intros E; assert (v = 1%Qc) as -> by congruence|].
    + unfold mixed. transitivity (sumQ (map fst l)); [|exact TOT]. apply sumQ_ext. intros q _. unfold moment_mean, cmoment. cbn. ring.
    + destruct (zero_moment c) as [x|] eqn:EZ; [|discriminate]. destruct (meq m x) as [->|]; [|discriminate].
      intros E. assert (v = 0%Qc) as -> by congruence. rewrite (zero_is sc cols hc sup r GE x EZ). unfold mixed. apply sumQ_zero. intros q Hq. destruct (HL q Hq) as (_ & MQ & _).
      unfold moment_mean. rewrite (cmoment_one r (snd (snd q)) _ 0%Qc); [ring|]. rewrite (zero_mean sc W FC cols GC hc sup r GE _ _ MQ). reflexivity.
Qed.

End Values.
Section Mixture.
Variables (sc : scenario) (W : wf_scenario sc) (FC : few_copies sc) (Hout : forall o, In o (outcomes sc) -> 1 <= o).
Notation n := (List.length (lexorder sc)).
Notation nc := (sdp_notcomm sc).
Notation ortho := (sdp_orthomat sc).
Variable Hset : forall k, In k (private_settings sc) -> 1 <= k.
Variables (cols : list word) (GC : good_columns nc ortho (S n) cols).
Variables (hc : list bool) (r : SDPMomentModel.relaxation) (GE : SDPMomentModel.generate sc hc false cols = Some r).
Notation c := (SDPMomentModel.r_context r).
Notation atoms := (SDPMomentModel.r_atoms r).
Variable l : list (Qc * (ndarray * (word -> C))).
Variable HL : forall q, In q l -> (0 <= fst q)%Qc /\ moments_of sc (fst (snd q)) (snd (snd q)) /\ nonnegative_hermitian sc (2 * longest cols) (snd (snd q)).
Variable TOT : sumQ (map fst l) = 1%Qc.
Variable arr : ndarray.
Variable Sh : nd_shape arr = outcomes sc ++ private_settings sc.
Variable MX : forall a x, Forall2 lt a (outcomes sc) -> Forall2 lt x (private_settings sc) ->
      nd_at arr (a ++ x) = sumQ (map (fun q => fst q * nd_at (fst (snd q)) (a ++ x))%Qc l).
Notation y := (mixed l (fun q m => moment_mean r (snd q) m)).

Section Run.
Variables (nm : moment -> SDPSolveModel.name) (before : list op) (lpi : bool) (after : list op) (feas : bool) (s : state) (a : SDPSolveModel.sdp_args).
Variable RUN : sdp_run sc hc cols nm before (Some arr) lpi true after feas r s a.
Definition mixed_point : SDPSolveModel.name -> Qc := mixed l (fun q => the_point r nm s (snd q)).
Lemma mixed_linear_part : SDPSolveSpec.linear_part a mixed_point.
Proof.
  destruct (run_facts sc cols hc r GE nm before (Some arr) lpi true after feas s a RUN) as (_ & _ & KM & s1 & s2 & E & EK & ES).
  assert (EA := args_are sc cols hc r GE nm before (Some arr) lpi true after feas s a RUN). assert (SI := no_supports sc cols hc r GE).
  assert (LR := fun q (H : In q l) => linear_rest sc W FC Hout cols GC hc r GE nm before (Some arr) lpi true after feas s a RUN (fst (snd q)) (snd (snd q)) (proj1 (proj2 (HL q H))) (proj2 (proj2 (HL q H)))).
  split; [|split; [|split; [|split]]].
  - rewrite EA. cbn [SDPSolveModel.known_vars]. intros k v H. apply in_app_or in H as [H|[H|[]]].
    + apply in_map_iff in H as ([m v'] & Em & H). cbn [fst snd] in Em. assert (k = nm m) as -> by congruence. assert (v' = v) by congruence. subst v'.
      transitivity (y m).
      * unfold mixed_point, mixed. apply sumQ_ext. intros q Hq. f_equal. apply (point_at sc W FC cols GC hc r GE nm before (Some arr) lpi true after feas s a RUN). apply in_moments, KM. apply in_map_iff. exists (m, v). auto.
      * unfold SDPMomentModel.set_distribution in E. destruct (distribution_values sc r arr) as [values|] eqn:EV; [|discriminate]. destruct (PropProgram.C22_only_specified sdp c values lpi s1 s2 SI E) as [_ K].
        apply (values_mix sc W FC Hset cols GC hc r GE l HL TOT arr Sh MX values m v EV). rewrite <- K. rewrite EK in H. apply (in_get meq); [|exact H]. apply (wf_set sdp c values lpi true s1 s2 E).
    + assert (k = constant_term) as -> by congruence. assert (v = 1%Qc) as -> by congruence. unfold mixed_point, mixed. transitivity (sumQ (map fst l)); [|exact TOT]. apply sumQ_ext. intros q _. rewrite point_constant. ring.
  - rewrite EA. cbn [SDPSolveModel.semiknown_vars]. rewrite ES, (no_semiknown sc W FC cols GC hc r GE arr lpi true s1 s2 (or_intror eq_refl) E). intros k q k2 [].
  - intros d Hd. unfold mixed_point. rewrite expr_mixed. apply sumQ_zero. intros q Hq. rewrite (proj1 (LR q Hq) d Hd). ring.
  - intros d Hd. unfold mixed_point. rewrite expr_mixed. apply sumQ_nonneg. intros q Hq. apply SoundProofs6.nonneg_mult; [apply HL, Hq|apply (proj2 (LR q Hq)), Hd].
  - rewrite EA. discriminate.
Qed.
Lemma mixed_psd : SDPSolveSpec.psd (SDPSolveModel.mat_dim a) (SDPSolveSpec.moment_matrix a mixed_point).
Proof.
  assert (P := psd_mixed (SDPSolveModel.mat_dim a) l (fun q => SDPSolveSpec.moment_matrix a (the_point r nm s (snd q)))).
  assert (Q : forall q, In q l -> (0 <= fst q)%Qc /\ SDPSolveSpec.psd (SDPSolveModel.mat_dim a) (SDPSolveSpec.moment_matrix a (the_point r nm s (snd (snd q))))).
  { intros q Hq. split; [apply HL, Hq|]. assert (PS := psd_holds sc W FC cols GC hc r GE nm before (Some arr) lpi true after feas s a RUN (fst (snd q)) (snd (snd q)) (proj1 (proj2 (HL q Hq))) 0%Qc eq_refl).
    apply (PSD.psd_ext _ _ _ (fun i j _ _ => minus_zero (i =? j) _)) in PS. exact PS. }
  specialize (P Q). unfold mixed_point. destruct P as [P1 P2]. split.
  - intros i j Hi Hj. rewrite !matrix_mixed. apply P1; assumption.
  - intros v. specialize (P2 v). match type of P2 with (0 <= ?p)%Qc => match goal with |- (0 <= ?q)%Qc => replace q with p; [exact P2|] end end.
    unfold Duality.sumn. apply sumQ_ext. intros i _. apply sumQ_ext. intros j _. rewrite matrix_mixed. reflexivity.
Qed.
End Run.

Section Runs.
Variables (nm : moment -> SDPSolveModel.name) (before before' : list op) (arr1 : ndarray) (lpi : bool) (after after' : list op) (feas feas' : bool) (s s' : state) (a a' : SDPSolveModel.sdp_args).
Variable RUN : sdp_run sc hc cols nm before (Some arr1) lpi true after feas r s a.
Variable RUN' : sdp_run sc hc cols nm before' (Some arr) lpi true after' feas' r s' a'.
Notation x := (mixed_point nm s').
Lemma mixed_other_point : SDPSolveSpec.feasible (SDPSolveSpec.with_known (SDPSolveModel.known_vars a') a) x.
Proof.
  assert (LP := mixed_linear_part nm before' lpi after' feas' s' a' RUN'). assert (PS := mixed_psd nm before' lpi after' feas' s' a' RUN').
  destruct (run_facts sc cols hc r GE nm before (Some arr1) lpi true after feas s a RUN) as (_ & (DL & _) & _ & s1 & s2 & E & _ & ES).
  assert (NS : semiknown s = []) by (rewrite ES; exact (no_semiknown sc W FC cols GC hc r GE arr1 lpi true s1 s2 (or_intror eq_refl) E)).
  assert (EA := args_are sc cols hc r GE nm before (Some arr1) lpi true after feas s a RUN). assert (EA' := args_are sc cols hc r GE nm before' (Some arr) lpi true after' feas' s' a' RUN').
  destruct LP as (K & _ & Q & _ & _). split.
  - unfold SDPSolveSpec.linear_part. cbn [SDPSolveSpec.with_known SDPSolveModel.known_vars SDPSolveModel.semiknown_vars SDPSolveModel.equalities SDPSolveModel.inequalities SDPSolveModel.default_non_negative].
    split; [exact K|]. split; [|split; [|split]].
    + rewrite EA. cbn [SDPSolveModel.semiknown_vars]. rewrite NS. intros k q k2 [].
    + intros d Hd. apply Q. rewrite EA'. rewrite EA in Hd. exact Hd.
    + rewrite EA. cbn [SDPSolveModel.inequalities]. intros d H. apply in_map_iff in H as (m & <- & Hm). apply in_map_iff in Hm as ([m' v] & Em & Hm). cbn [fst] in Em. subst m'. destruct (DL m v Hm) as [_ Hh].
      unfold SDPSolveSpec.expr. cbn [map]. rewrite sumQ_cons, sumQ_nil. assert (I : In m (moments c)).
      { destruct (generate_is sc cols hc false r GE) as (_ & _ & _ & _ & _ & _ & _ & _ & _ & _ & _ & _ & _ & _ & _ & _ & _ & EH & _). rewrite EH in Hh. destruct (operators_commute sc); [exact Hh|]. apply filter_In in Hh. apply Hh. }
      replace (1 * x (nm m) + 0)%Qc with (x (nm m)) by ring. unfold mixed_point, mixed. apply sumQ_nonneg. intros q Hq. destruct (HL q Hq) as (Wq & MQ & NH). apply SoundProofs6.nonneg_mult; [exact Wq|].
      rewrite (point_at sc W FC cols GC hc r GE nm before' (Some arr) lpi true after' feas' s' a' RUN' (snd (snd q)) m (in_moments r s' m I)).
      exact (hermitian_nonneg sc W FC cols GC hc false r GE (fst (snd q)) (snd (snd q)) MQ NH m Hh).
    + rewrite EA. discriminate.
  - unfold SDPSolveSpec.moment_matrix in *. cbn [SDPSolveSpec.with_known SDPSolveModel.mask_matrices SDPSolveModel.mat_dim]. rewrite EA' in PS. rewrite EA. exact PS.
Qed.
End Runs.
End Mixture.
Lemma feasible_is_above a x : SDPSolveSpec.feasible a x -> SDPSolveSpec.feasible_above a 0%Qc x.
Proof. intros [H P]. split; [exact H|]. apply (PSD.psd_ext _ _ _ (fun i j _ _ => eq_sym (minus_zero (i =? j) _))) in P. exact P. Qed.
