(** The certificate of a semidefinite programme, evaluated. *)
From Coq Require Import Permutation QArith Qcanon List Arith Bool Lia Sorted String Ascii.
From Verif Require Import CanonModel CanonSpec MomentModel MomentSpec OrbitModel ScenarioModel ScenarioSpec SymModel SymSpec KnowModel KnowSpec FactorModel FactorSpec
  MargModel QcSum QcArith ColumnModel ColumnSpec MemoModel MemoSpec NormModel NormSpec NameModel NameSpec ProgramModel ProgramSpec ProgramProofs ProgramProofs2 ProgramProofs3 LPMomentModel QuantumSpec QuantumProofs QInflationSpec SDPMomentModel SDPRunSpec SoundProofs QMomentProofs QMomentProofs2 QMomentProofs3 QMomentProofs4 QMomentProofs5 QMomentProofs6 QMomentProofs7 QMomentLengths QMomentProofs8 QMomentProofs9 QMomentProofs10 QMomentProofs11 QMomentProofs12 QMomentProofs13 SearchModel CertModel CertSpec CertProofs2 CertProofs4 CertProofs5.
From Verif Require CanonProofs ScenarioProofs PropProgram PropSDP SDPSolveModel SDPSolveSpec SDPSolveProofs SDPSolveProofs3 SDPSolveProofs4 PSD PropSoundSDP.
Import ListNotations.
Close Scope Q_scope. Close Scope Qc_scope. Open Scope string_scope. Open Scope nat_scope. Open Scope list_scope.

Lemma named_row_inj nm (P : moment -> Prop) : (forall m m', P m -> P m' -> nm m = nm m' -> m = m') -> (forall m, P m -> nm m <> constant_term) ->
  forall l l', (forall m v, In (Some m, v) l -> P m) -> (forall m v, In (Some m, v) l' -> P m) -> named_row nm l = named_row nm l' -> l = l'.
Proof.
  intros I C. induction l as [|(k & v) l IH]; intros [|(k' & v') l'] H H' E; try discriminate; [reflexivity|]. unfold named_row in E. cbn [map fst snd] in E. injection E as Ek Ev El. subst v'.
  rewrite (IH l'); [|intros m w Hm; apply (H m w); right; exact Hm|intros m w Hm; apply (H' m w); right; exact Hm|exact El]. f_equal. f_equal.
  destruct k as [m|], k' as [m'|]; [|exfalso; apply (C m (H m v (or_introl eq_refl)) Ek)|exfalso; apply (C m' (H' m' v (or_introl eq_refl)) (eq_sym Ek))|reflexivity].
  f_equal. apply I; [apply (H m v); left; reflexivity|apply (H' m' v); left; reflexivity|exact Ek].
Qed.
Lemma named_row_kept nm (l : list (key * Qc)) : named_row nm (kept l) = filter (fun p => negb (isclose0 (snd p))) (named_row nm l).
Proof. unfold kept, named_row. induction l as [|(k & v) l IH]; [reflexivity|]. cbn [filter map fst snd]. destruct (isclose0 v); cbn [negb map fst snd]; rewrite IH; reflexivity. Qed.

Section Run.
Variables (sc : scenario) (W : wf_scenario sc) (FC : few_copies sc) (Hout : forall o, In o (outcomes sc) -> 1 <= o).
Variable Hset : forall k, In k (private_settings sc) -> 1 <= k.
Notation n := (List.length (lexorder sc)).
Notation nc := (sdp_notcomm sc).
Notation ortho := (sdp_orthomat sc).
Variables (cols : list word) (GC : good_columns nc ortho (S n) cols).
Variables (hc : list bool) (r : SDPMomentModel.relaxation) (GE : SDPMomentModel.generate sc hc false cols = Some r).
Notation c := (SDPMomentModel.r_context r).
Notation atoms := (SDPMomentModel.r_atoms r).
Variables (nm : moment -> SDPSolveModel.name) (before before' : list op) (arr arr' : ndarray) (lpi shared : bool) (after after' : list op) (feas feas' : bool) (s s' : state) (a a' : SDPSolveModel.sdp_args).
Variable LP : lpi = false \/ shared = true.
Variable RUN : sdp_run sc hc cols nm before (Some arr) lpi shared after feas r s a.
Variable RUN' : sdp_run sc hc cols nm before' (Some arr') lpi shared after' feas' r s' a'.

(** constant_term has no part in certificates without bounds *)
Lemma constant_coefficient p d : SDPSolveSpec.wf_args a -> (SDPSolveModel.feas_as_optim a = true -> SDPSolveModel.has_masks a = true /\ SDPSolveSpec.lambda_free a) -> SDPSolveModel.has_masks a = true -> SDPSolveSpec.lambda_free a -> SDPSolveModel.preprocess a = Some p ->
  SDPSolveModel.getd 0%Qc constant_term (SDPSolveModel.certificate a p d) = 0%Qc.
Proof.
  intros Wf AL HM LF EP. destruct (SDPSolveProofs4.certificate_get a Wf AL p EP d) as [_ CG].
  assert (KC : In constant_term (keys (SDPSolveModel.known_vars a))) by (rewrite (keys_known sc cols hc r GE nm before (Some arr) lpi shared after feas s a RUN); apply in_or_app; right; left; reflexivity).
  rewrite (CG _ KC). clear CG.
  destruct (run_facts sc cols hc r GE nm before (Some arr) lpi shared after feas s a RUN) as (_ & (DL & DU) & KM & s1 & s2 & E & _ & ES).
  assert (NS : SDPSolveModel.semiknown_vars a = []). { rewrite (args_are sc cols hc r GE nm before (Some arr) lpi shared after feas s a RUN). cbn [SDPSolveModel.semiknown_vars]. rewrite ES, (no_semiknown sc W FC cols GC hc r GE arr lpi shared s1 s2 LP E). reflexivity. }
  assert (PC : SDPSolveModel.process_constraints a = true) by (rewrite (args_are sc cols hc r GE nm before (Some arr) lpi shared after feas s a RUN); reflexivity).
  unfold SDPSolveModel.preprocess, SDPSolveModel.process in EP. rewrite PC, NS in EP. cbn [fold_left] in EP.
  destruct (SDPSolveModel.all_some _) as [A|]; [|discriminate]. destruct (SDPSolveModel.all_some _) as [C|]; [|discriminate]. injection EP as <-. cbn [SDPSolveModel.p_F SDPSolveModel.p_ineqs SDPSolveModel.p_eqs SDPSolveModel.p_obj].
  assert (EQ : SDPSolveModel.w_eqs (SDPSolveModel.start a) = SDPSolveModel.equalities a /\ SDPSolveModel.w_ineqs (SDPSolveModel.start a) = SDPSolveModel.inequalities a) by (unfold SDPSolveModel.start; destruct (SDPSolveModel.relaxing a); split; reflexivity). destruct EQ as [-> ->].
  assert (MP : forall m, In m (moments c) -> nm m <> constant_term) by (intros m Hm; apply (not_constant sc cols hc r nm before (Some arr) lpi shared after feas s a RUN), (moments_proper sc W FC cols GC hc r GE m Hm)).
  assert (I0 : forall dd, SDPSolveModel.dotQ (map (SDPSolveModel.getd 0%Qc constant_term) (SDPSolveModel.inequalities a)) dd = 0%Qc).
  { intros dd. apply SDPSolveProofs3.dotQ_zero. intros v Hv. apply in_map_iff in Hv as (row & <- & Hr). rewrite (args_are sc cols hc r GE nm before (Some arr) lpi shared after feas s a RUN) in Hr. cbn [SDPSolveModel.inequalities] in Hr. apply in_map_iff in Hr as (m & <- & Hm).
    rewrite SDPSolveProofs.getd_cons. destruct (string_dec constant_term (nm m)) as [Q|]; [|reflexivity]. exfalso. apply in_map_iff in Hm as ((m' & v') & Em & Hm). cbn [fst] in Em. subst m'. destruct (DL m v' Hm) as [_ IM]. apply (MP m); [|symmetry; exact Q]. revert IM. clear - GE. intros IM.
    destruct (generate_is sc cols hc false r GE) as (_ & _ & _ & _ & _ & _ & _ & _ & _ & _ & _ & _ & E & _ & _ & _ & _ & EH & _). rewrite EH in IM. destruct (operators_commute sc); [exact IM|]. apply filter_In in IM. apply IM. }
  assert (E0 : forall dd, SDPSolveModel.dotQ (map (SDPSolveModel.getd 0%Qc constant_term) (SDPSolveModel.equalities a)) dd = 0%Qc).
  { intros dd. apply SDPSolveProofs3.dotQ_zero. intros v Hv. apply in_map_iff in Hv as (row & <- & Hr). rewrite (args_are sc cols hc r GE nm before (Some arr) lpi shared after feas s a RUN) in Hr. cbn [SDPSolveModel.equalities] in Hr. apply in_map_iff in Hr as (e & <- & He).
    apply SDPSolveProofs.getd_none. rewrite keys_named_row. intros Q. apply in_map_iff in Q as (m & Em & Hm). destruct (equality_shape sc W FC Hout cols GC hc r GE e He) as [_ B]. apply (MP m (B m Hm) Em). }
  rewrite I0, E0.
  assert (GF : SDPSolveModel.nget constant_term (SDPSolveModel.w_F (SDPSolveModel.start a)) = Some (SDPSolveModel.Mat (fun _ _ => 0%Qc))).
  { assert (G0 : SDPSolveModel.nget constant_term (map (fun '(k, m) => (k, SDPSolveModel.Mat m)) (SDPSolveModel.mask_matrices a)) = Some (SDPSolveModel.Mat (fun _ _ => 0%Qc))).
    { unfold SDPSolveModel.nget. apply (in_get string_dec).
      - rewrite SDPSolveProofs2.keys_masks. apply Wf.
      - rewrite (args_are sc cols hc r GE nm before (Some arr) lpi shared after feas s a RUN). cbn [SDPSolveModel.mask_matrices]. rewrite map_app. apply in_or_app. right. left. reflexivity. }
    unfold SDPSolveModel.start. destruct (SDPSolveModel.relaxing a); cbn [SDPSolveModel.w_F]; [|exact G0]. unfold SDPSolveModel.nget, SDPSolveModel.nset. rewrite get_set. destruct (string_dec constant_term (SDPSolveModel.lambda_name a)) as [Q|]; [|exact G0]. exfalso. apply (proj1 LF). rewrite <- Q. exact KC. }
  assert (ME : SDPSolveModel.mem constant_term (keys (SDPSolveModel.w_F (SDPSolveModel.start a))) = true). { apply SDPSolveProofs.mem_iff. apply (get_some_in string_dec) in GF. apply (in_map fst) in GF. exact GF. }
  rewrite ME. unfold SDPSolveProofs3.Fm, SDPSolveModel.getd. rewrite GF. assert (M0 : SDPSolveModel.mdot (SDPSolveModel.mat_dim a) (SDPSolveModel.Z d) (fun i j => SDPSolveModel.F_entry i j (SDPSolveModel.Mat (fun _ _ => 0%Qc))) = 0%Qc); [|rewrite M0; ring].
  cbn [SDPSolveModel.F_entry]. unfold SDPSolveModel.mdot. rewrite sumn_seq. apply sumQ_zero. intros i _. rewrite sumn_seq. apply sumQ_zero. intros j _. ring.
Qed.

Definition full_certificate (cert : SDPSolveModel.ndict Qc) : list (key * Qc) := combine (map Some (keys (known s)) ++ [None]) (map snd cert).
Lemma full_named cert : keys cert = keys (SDPSolveModel.known_vars a) -> named_row nm (full_certificate cert) = cert.
Proof.
  rewrite (keys_known sc cols hc r GE nm before (Some arr) lpi shared after feas s a RUN). unfold full_certificate. intros E.
  assert (X : forall (ks : list key) (cert : SDPSolveModel.ndict Qc), keys cert = map (fun k : key => match k with Some m => nm m | None => constant_term end) ks -> named_row nm (combine ks (map snd cert)) = cert).
  { clear. induction ks as [|k ks IH]; intros [|(x & v) cert] E; try discriminate; [reflexivity|]. unfold keys in E. cbn [map fst] in E. injection E as Ex El. cbn [map combine snd]. unfold named_row in *. cbn [map fst snd]. rewrite (IH cert El), <- Ex. reflexivity. }
  apply X. rewrite E, map_app, map_map. reflexivity.
Qed.
Lemma full_keys cert k v : In (k, v) (full_certificate cert) -> match k with Some m => In m (keys (known s)) | None => True end.
Proof. intros H. apply in_combine_l in H. apply in_app_or in H as [H|[<-|[]]]; [|exact Logic.I]. apply in_map_iff in H as (m & <- & H). exact H. Qed.

Variable PA : probability_array sc arr'.
Notation val := (fun i => SDPMomentModel.atom_value sc arr' (nth i atoms [])).
Notation y := (moment_at (value_of sc r arr')).
Lemma key_seen m : In m (keys (known s)) -> In (m, y m) (known s') /\ forall i, In i m -> exists u, seen sc r arr' i u.
Proof.
  intros Hm. destruct (run_facts sc cols hc r GE nm before (Some arr) lpi shared after feas s a RUN) as (_ & _ & _ & s1 & s2 & E & EK & _).
  destruct (run_facts sc cols hc r GE nm before' (Some arr') lpi shared after' feas' s' a' RUN') as (_ & _ & _ & s1' & s2' & E' & EK' & _).
  rewrite EK in Hm. apply (keys_agree sc W FC cols GC hc r GE arr arr' lpi shared s1 s1' s2 s2' LP E E') in Hm. apply in_map_iff in Hm as ((m' & v) & Em & Hm). cbn [fst] in Em. subst m'.
  destruct (known_seen sc W FC Hset cols GC hc r GE arr' PA lpi shared s1' s2' m v LP E' Hm) as [-> X]. rewrite EK'. split; [exact Hm|exact X].
Qed.
Lemma full_value cert : SDPSolveSpec.wf_args a' -> keys cert = keys (SDPSolveModel.known_vars a) -> PropSoundSDP.certificate_at (SDPSolveModel.known_vars a') cert = CertProofs2.certificate_at y (full_certificate cert).
Proof.
  intros Wf' E. assert (N := full_named cert E). assert (FK := full_keys cert). revert N FK. generalize (full_certificate cert). intros l N FK. rewrite <- N. unfold PropSoundSDP.certificate_at, SDPSolveSpec.expr, CertProofs2.certificate_at, expr_at, named_row. rewrite map_map. apply sumQ_ext. intros (k & v) Hk. cbn [fst snd]. f_equal.
  specialize (FK k v Hk). destruct Wf' as (_ & _ & ND & _). unfold SDPSolveModel.getd, SDPSolveModel.nget. destruct k as [m|]; cbn [monomial_from_name].
  - destruct (key_seen m FK) as [I _]. rewrite (in_get string_dec (nm m) (y m) _ ND); [reflexivity|]. rewrite (args_are sc cols hc r GE nm before' (Some arr') lpi shared after' feas' s' a' RUN'). cbn [SDPSolveModel.known_vars]. apply in_or_app. left. unfold named_dict. apply in_map_iff. exists (m, y m). split; [reflexivity|exact I].
  - rewrite (in_get string_dec constant_term 1%Qc _ ND); [reflexivity|]. rewrite (args_are sc cols hc r GE nm before' (Some arr') lpi shared after' feas' s' a' RUN'). cbn [SDPSolveModel.known_vars]. apply in_or_app. right. left. reflexivity.
Qed.
Lemma kept_one cert : NoDup (keys (SDPSolveModel.known_vars a)) -> NoDup (keys (known s)) -> keys cert = keys (SDPSolveModel.known_vars a) -> SDPSolveModel.getd 0%Qc constant_term cert = 0%Qc -> one_constant (kept (full_certificate cert)).
Proof.
  intros NDV ND E CZ. assert (N := full_named cert E).
  assert (NN : forall v, In (None, v) (full_certificate cert) -> v = 0%Qc).
  { intros v Hv. rewrite <- CZ. unfold SDPSolveModel.getd, SDPSolveModel.nget. rewrite (in_get string_dec constant_term v cert); [reflexivity|change (NoDup (keys cert)); rewrite E; exact NDV|]. rewrite <- N. unfold named_row. apply in_map_iff. exists (None, v). split; [reflexivity|exact Hv]. }
  assert (EF : kept (full_certificate cert) = kept (combine (map Some (keys (known s))) (map snd cert))).
  { unfold full_certificate in *. revert NN. generalize (map snd cert). generalize (keys (known s)). clear. induction l as [|m l IH]; intros [|v vs] NN; cbn [map app combine kept filter] in *; try reflexivity.
    - unfold kept. cbn [filter snd]. rewrite (NN v (or_introl eq_refl)). reflexivity.
    - unfold kept in *. cbn [filter snd]. rewrite (IH vs (fun w Hw => NN w (or_intror Hw))). reflexivity. }
  rewrite EF. unfold one_constant. revert ND. generalize (map snd cert). generalize (keys (known s)). clear. intros l vs ND. assert (X : forall q, In q (map (fun p : key * Qc => monomial_from_name (fst p)) (kept (combine (map Some l) vs))) -> In q l).
  { intros q Hq. apply in_map_iff in Hq as ((k & v) & <- & Hk). unfold kept in Hk. apply filter_In in Hk as [Hk _]. apply in_combine_l in Hk. apply in_map_iff in Hk as (m & <- & Hm). exact Hm. }
  revert vs X. induction ND as [|m l NI ND IH]; intros [|v vs] X; cbn [map combine kept filter]; [constructor..|]. unfold kept in *. cbn [combine map filter snd] in *.
  assert (X' : forall vs' q, In q (map (fun p : key * Qc => monomial_from_name (fst p)) (filter (fun p => negb (isclose0 (snd p))) (combine (map Some l) vs'))) -> In q l).
  { intros vs' q Hq. apply in_map_iff in Hq as ((k & v') & <- & Hk). apply filter_In in Hk as [Hk _]. apply in_combine_l in Hk. apply in_map_iff in Hk as (m' & <- & Hm). exact Hm. }
  destruct (isclose0 v); cbn [negb map fst monomial_from_name]; [apply IH, X'|]. constructor; [|apply IH, X']. intros H. apply NI, (X' vs), H.
Qed.
Theorem sdp_evaluation cert dual f : SDPSolveSpec.wf_args a -> SDPSolveSpec.lambda_free a -> SDPSolveModel.has_masks a = true -> SDPSolveSpec.wf_args a' -> PropSoundSDP.certificate_found a cert ->
  named_row nm dual = sdp_dual_certificate cert -> (forall m v, In (Some m, v) dual -> proper_moment r m) ->
  (0 < f)%Qc -> (forall k v, In (k, v) cert -> isclose0 v = false -> (f <= qabs v)%Qc) ->
  exists v g, evaluate_certificate c val dual = Some v /\ (f <= g)%Qc /\
   (PropSoundSDP.certificate_at (SDPSolveModel.known_vars a') cert / g - error (List.length cert) f <= v)%Qc /\ (v <= PropSoundSDP.certificate_at (SDPSolveModel.known_vars a') cert / g + error (List.length cert) f)%Qc.
Proof.
  intros Wf LF HM Wf' CE ND PD Pf MN.
  assert (AL : SDPSolveModel.feas_as_optim a = true -> SDPSolveModel.has_masks a = true /\ SDPSolveSpec.lambda_free a) by auto.
  assert (EK : keys cert = keys (SDPSolveModel.known_vars a) /\ SDPSolveModel.getd 0%Qc constant_term cert = 0%Qc).
  { destruct CE as [p t d EP ET EF DF|p t d EP ET EF DF]; (split; [apply (SDPSolveProofs4.certificate_get a Wf AL p EP d)|apply (constant_coefficient p d Wf AL HM LF EP)]). }
  destruct EK as [EK CZ]. assert (N := full_named cert EK). assert (FL : List.length (full_certificate cert) = List.length cert) by (rewrite <- N at 2; unfold named_row; rewrite map_length; reflexivity).
  destruct (run_facts sc cols hc r GE nm before (Some arr) lpi shared after feas s a RUN) as (R & _ & KM & _). destruct (PropProgram.C22_never_both sdp c s R) as (N1 & _).
  assert (ED : dual = kept (full_certificate cert)).
  { apply (named_row_inj nm (proper_moment r)); [apply (nm_inj sc cols hc r nm before (Some arr) lpi shared after feas s a RUN)|apply (not_constant sc cols hc r nm before (Some arr) lpi shared after feas s a RUN)|exact PD| |rewrite named_row_kept, N; exact ND].
    intros m v Hm. unfold kept in Hm. apply filter_In in Hm as [Hm _]. apply full_keys in Hm. apply (moments_proper sc W FC cols GC hc r GE m), KM, Hm. }
  rewrite ED, <- FL, (full_value cert Wf' EK).
  assert (SK : forall k v, In (k, v) (full_certificate cert) -> forall i, In i (monomial_from_name k) -> exists u, seen sc r arr' i u) by (intros [m|] v Hk; [apply key_seen, (full_keys cert (Some m) v Hk)|intros i []]).
  apply (evaluation_general c val y (full_certificate cert)).
  - destruct Wf as (_ & _ & NV & _). apply (kept_one cert NV N1 EK CZ).
  - intros k v Hk _ NZ. apply (seen_marginal sc W FC cols GC hc r GE arr' _ (SK k v Hk)), NZ.
  - intros k v Hk. apply (seen_marginal sc W FC cols GC hc r GE arr' _ (SK k v Hk)).
  - intros m Z. unfold moment_is_zero in Z. apply existsb_exists in Z as (i & Hi & Z). apply product_zero. apply in_map_iff. exists i. split; [|exact Hi]. unfold value_of. pose proof (zero_value sc W FC cols GC hc r GE arr' i Z) as ZV. cbv beta in ZV. rewrite ZV. reflexivity.
  - exact Pf.
  - intros k v Hk. apply (MN (match k with Some m => nm m | None => constant_term end) v). rewrite <- N. unfold named_row. apply in_map_iff. exists (k, v). split; [reflexivity|exact Hk].
Qed.
End Run.
