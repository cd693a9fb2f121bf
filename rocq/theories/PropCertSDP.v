(** C46, continued: certificates of semidefinite programmes, evaluated. *)
From Coq Require Import List Arith Bool String QArith Qcanon Lia.
From Verif Require Import QcArith CanonModel CanonSpec ScenarioModel ScenarioSpec MargModel QcSum ColumnSpec CausalSpec QInflationSpec QModelSpec SDPMomentModel SDPRunSpec SearchModel SearchProofs ProgramModel ProgramSpec SoundProofs SoundProofs3 PropSound CertModel CertSpec CertProofs4 CertProofs6.
From Verif Require SDPSolveModel SDPSolveSpec SDPSolveProofs4 QMomentProofs9 QMomentProofs10 PropSoundSDP PropCert.
Import ListNotations.
Close Scope Q_scope. Close Scope Qc_scope. Open Scope string_scope. Open Scope nat_scope. Open Scope list_scope.

Notation good_cols sc cols := (good_columns (sdp_notcomm sc) (sdp_orthomat sc) (S (List.length (lexorder sc))) cols).
(** the certificate of the solver, with moments instead of their names *)
Definition certificate_in_moments (r : SDPMomentModel.relaxation) (nm : moment -> SDPSolveModel.name) (cert : SDPSolveModel.ndict Qc) (dual : list (key * Qc)) : Prop :=
  named_row nm dual = sdp_dual_certificate cert /\ forall m v, In (Some m, v) dual -> proper_moment r m.
Notation rounding_error := PropCert.rounding_error.
Notation smallest_above := PropCert.smallest_above.
(** The value of evaluate_certificate is the value of the solver's certificate at the known values of
    the distribution, up to a positive factor and the rounding. *)
Theorem C46_sdp_evaluation_is_the_certificate sc hc cols nm before before' arr arr' lpi shared after after' feas feas' r s s' a a' cert dual f : ready sc -> good_cols sc cols ->
  lpi = false \/ shared = true ->
  sdp_run sc hc cols nm before (Some arr) lpi shared after feas r s a -> sdp_run sc hc cols nm before' (Some arr') lpi shared after' feas' r s' a' ->
  PropSoundSDP.certificate_found a cert -> certificate_in_moments r nm cert dual -> probability_array sc arr' -> smallest_above (map snd cert) f ->
  exists v g, evaluate_certificate (SDPMomentModel.r_context r) (sdp_atom_marginal sc r arr') dual = Some v /\ (f <= g)%Qc /\
    let w := (PropSoundSDP.certificate_at (SDPSolveModel.known_vars a') cert / g)%Qc in
    (w - rounding_error (List.length cert) f <= v)%Qc /\ (v <= w + rounding_error (List.length cert) f)%Qc.
Proof.
  intros RD GC LP RUN RUN' CE (DN & DP) PA (Pf & MN). assert (Wf := PropSoundSDP.the_wf sc RD cols GC hc nm before (Some arr) lpi shared after feas r s a RUN). assert (Wf' := PropSoundSDP.the_wf sc RD cols GC hc nm before' (Some arr') lpi shared after' feas' r s' a' RUN').
  assert (LF := PropSoundSDP.the_lambda sc RD cols GC hc nm before (Some arr) lpi shared after feas r s a RUN). assert (HM := PropSoundSDP.the_masks sc cols hc nm before (Some arr) lpi shared after feas r s a RUN).
  destruct RD as [W AC Hout Hset Np FC]. rewrite PropCert.error_is.
  apply (sdp_evaluation sc W FC Hout Hset cols GC hc r (sr_generate _ _ _ _ _ _ _ _ _ _ _ _ _ RUN) nm before before' arr arr' lpi shared after after' feas feas' s s' a a' LP RUN RUN' PA cert dual f Wf LF HM Wf' CE DN DP Pf).
  intros k v Hk. apply (MN v). apply (in_map snd cert (k, v)), Hk.
Qed.
(** So at distributions with moments, compatible ones and quantum ones it is not negative, up to the
    rounding, ... *)
Theorem C46_sdp_evaluation sc hc cols nm before before' arr arr' lpi shared after after' feas feas' r s s' a a' cert dual f k : ready sc -> good_cols sc cols -> PropSoundSDP.entries_to cols k ->
  lpi = false \/ shared = true ->
  sdp_run sc hc cols nm before (Some arr) lpi shared after feas r s a -> sdp_run sc hc cols nm before' (Some arr') lpi shared after' feas' r s' a' ->
  PropSoundSDP.certificate_found a cert -> certificate_in_moments r nm cert dual -> probability_array sc arr' -> smallest_above (map snd cert) f ->
  PropSoundSDP.has_moments sc k arr' \/ compatible_distribution sc arr' \/ PropSoundSDP.quantum_safe sc cols /\ quantum_distribution sc arr' \/
    shared = true /\ (PropSoundSDP.mixture_with_moments sc k arr' \/ mixture_of_compatible sc arr' \/ PropSoundSDP.quantum_safe sc cols /\ PropSoundSDP.mixture_of_quantum sc arr') ->
  exists v, evaluate_certificate (SDPMomentModel.r_context r) (sdp_atom_marginal sc r arr') dual = Some v /\ (- rounding_error (List.length cert) f <= v)%Qc.
Proof.
  intros RD GC EK LP RUN RUN' CE DM PA SA D.
  assert (NN : (0 <= PropSoundSDP.certificate_at (SDPSolveModel.known_vars a') cert)%Qc).
  { destruct D as [D|[D|[[QS D]|[-> [D|[D|[QS D]]]]]]].
    - apply (PropSoundSDP.C44_certificates_hold sc hc cols nm before before' arr arr' lpi shared after after' feas feas' r s s' a a' cert k RD GC EK LP RUN RUN' CE). left. exact D.
    - apply (PropSoundSDP.C44_certificates_hold sc hc cols nm before before' arr arr' lpi shared after after' feas feas' r s s' a a' cert k RD GC EK LP RUN RUN' CE). right. exact D.
    - apply (PropSoundSDP.C44_certificates_hold_for_quantum_distributions sc hc cols nm before before' arr arr' lpi shared after after' feas feas' r s s' a a' cert RD GC QS LP RUN RUN' CE). left. exact D.
    - apply (PropSoundSDP.C44_certificates_hold_for_mixtures sc hc cols nm before before' arr arr' lpi after after' feas feas' r s s' a a' cert k RD GC EK RUN RUN' CE). left. exact D.
    - apply (PropSoundSDP.C44_certificates_hold_for_mixtures sc hc cols nm before before' arr arr' lpi after after' feas feas' r s s' a a' cert k RD GC EK RUN RUN' CE). right. exact D.
    - apply (PropSoundSDP.C44_certificates_hold_for_quantum_distributions sc hc cols nm before before' arr arr' lpi true after after' feas feas' r s s' a a' cert RD GC QS LP RUN RUN' CE). right. split; [reflexivity|exact D]. }
  destruct (C46_sdp_evaluation_is_the_certificate _ _ _ _ _ _ _ _ _ _ _ _ _ _ _ _ _ _ _ _ _ _ RD GC LP RUN RUN' CE DM PA SA) as (v & g & E & G & B & _). exists v. split; [exact E|].
  assert (P : (0 <= PropSoundSDP.certificate_at (SDPSolveModel.known_vars a') cert / g)%Qc) by (apply div_nonneg; [apply (Qclt_le_trans _ _ _ (proj1 SA) G)|exact NN]). cbv zeta in B. qclra.
Qed.
(** ... and a value below the possible error shows that a distribution has no moments, so is neither
    classical nor quantum. *)
Theorem C46_sdp_negative_evaluation sc hc cols nm before before' arr arr' lpi shared after after' feas feas' r s s' a a' cert dual f k v : ready sc -> good_cols sc cols -> PropSoundSDP.entries_to cols k ->
  lpi = false \/ shared = true ->
  sdp_run sc hc cols nm before (Some arr) lpi shared after feas r s a -> sdp_run sc hc cols nm before' (Some arr') lpi shared after' feas' r s' a' ->
  PropSoundSDP.certificate_found a cert -> certificate_in_moments r nm cert dual -> probability_array sc arr' -> smallest_above (map snd cert) f ->
  evaluate_certificate (SDPMomentModel.r_context r) (sdp_atom_marginal sc r arr') dual = Some v -> (v < - rounding_error (List.length cert) f)%Qc ->
  ~ PropSoundSDP.has_moments sc k arr' /\ ~ compatible_distribution sc arr' /\ (PropSoundSDP.quantum_safe sc cols -> ~ quantum_distribution sc arr') /\
  (shared = true -> ~ PropSoundSDP.mixture_with_moments sc k arr' /\ ~ mixture_of_compatible sc arr').
Proof.
  intros RD GC EK LP RUN RUN' CE DM PA SA EV V.
  assert (X := C46_sdp_evaluation _ _ _ _ _ _ _ _ _ _ _ _ _ _ _ _ _ _ _ _ _ _ _ RD GC EK LP RUN RUN' CE DM PA SA).
  assert (Y : forall P : Prop, P -> (P -> exists v, evaluate_certificate (SDPMomentModel.r_context r) (sdp_atom_marginal sc r arr') dual = Some v /\ (- rounding_error (List.length cert) f <= v)%Qc) -> False).
  { intros P p H. destruct (H p) as (v' & E & B). assert (v' = v) by congruence. subst v'. apply (Qcle_not_lt _ _ B V). }
  split; [intros H; apply (Y _ H); tauto|]. split; [intros H; apply (Y _ H); tauto|]. split; [intros QS H; apply (Y _ H); tauto|]. intros ->. split; intros H; apply (Y _ H); tauto.
Qed.
Lemma in_moments sc hc cols nm before arr lpi shared after feas r s a cert : ready sc -> good_cols sc cols ->
  sdp_run sc hc cols nm before (Some arr) lpi shared after feas r s a -> PropSoundSDP.certificate_found a cert -> certificate_in_moments r nm cert (kept (full_certificate s cert)).
Proof.
  intros RD GC RUN CE. assert (Wf := PropSoundSDP.the_wf sc RD cols GC hc nm before (Some arr) lpi shared after feas r s a RUN).
  assert (LF := PropSoundSDP.the_lambda sc RD cols GC hc nm before (Some arr) lpi shared after feas r s a RUN). assert (HM := PropSoundSDP.the_masks sc cols hc nm before (Some arr) lpi shared after feas r s a RUN).
  destruct RD as [W AC Hout Hset Np FC]. assert (GE := sr_generate _ _ _ _ _ _ _ _ _ _ _ _ _ RUN).
  assert (EK : keys cert = keys (SDPSolveModel.known_vars a)) by (destruct CE as [p t d EP ET EF DF|p t d EP ET EF DF]; apply (SDPSolveProofs4.certificate_get a Wf (fun _ => conj HM LF) p EP d)).
  split.
  - rewrite named_row_kept, (full_named sc cols hc r GE nm before arr lpi shared after feas s a RUN cert EK). reflexivity.
  - intros m v Hm. unfold kept in Hm. apply filter_In in Hm as [Hm _]. apply full_keys in Hm. destruct (QMomentProofs10.run_facts sc cols hc r GE nm before (Some arr) lpi shared after feas s a RUN) as (_ & _ & KM & _). apply (QMomentProofs9.moments_proper sc W FC cols GC hc r GE m), KM, Hm.
Qed.
(** The certificate in terms of moments exists and is unique. *)
Theorem C46_sdp_certificate_in_moments sc hc cols nm before arr lpi shared after feas r s a cert : ready sc -> good_cols sc cols ->
  sdp_run sc hc cols nm before (Some arr) lpi shared after feas r s a -> PropSoundSDP.certificate_found a cert ->
  exists dual, certificate_in_moments r nm cert dual /\ forall dual', certificate_in_moments r nm cert dual' -> dual' = dual.
Proof.
  intros RD GC RUN CE. destruct (in_moments sc hc cols nm before arr lpi shared after feas r s a cert RD GC RUN CE) as (EN & PD).
  exists (kept (full_certificate s cert)). split; [split; [exact EN|exact PD]|]. intros dual' (DN & DP).
  apply (named_row_inj nm (proper_moment r)); [apply (QMomentProofs10.nm_inj sc cols hc r nm before (Some arr) lpi shared after feas s a RUN)|apply (QMomentProofs10.not_constant sc cols hc r nm before (Some arr) lpi shared after feas s a RUN)|exact DP|exact PD|congruence].
Qed.

(** ** Example: Tsirelson's certificate at the PR box *)
Definition zero_one (arr : ndarray) (sc : scenario) : bool :=
  forallb (fun x => forallb (fun o => qleb 0 (nd_at arr (o ++ x))) (ndindex (outcomes sc)) && Qc_eq_bool (sumQ (map (fun o => nd_at arr (o ++ x)) (ndindex (outcomes sc)))) 1%Qc) (ndindex (private_settings sc)).
Lemma zero_one_ok sc arr : nd_shape arr = outcomes sc ++ private_settings sc -> zero_one arr sc = true -> probability_array sc arr.
Proof.
  intros Sh H. unfold zero_one in H. rewrite forallb_forall in H.
  constructor; [exact Sh| |]; intros; match goal with X : Forall2 lt ?x (private_settings sc) |- _ => specialize (H x (proj2 (ScenarioProofs.ndindex_in _ _) X)) end; apply andb_prop in H as [HA HB].
  - rewrite forallb_forall in HA. apply qleb_true, HA. apply (proj2 (ScenarioProofs.ndindex_in _ _)). assumption.
  - apply Qc_eq_bool_correct, HB.
Qed.
Definition pr_evaluation : bool :=
  match PropSoundSDP.bell_run false pr_box with
  | Some (r, s, a) => match SDPSolveModel.preprocess a with Some p => match SDPSolveModel.build_dual a p with Some t =>
      let cert := SDPSolveModel.certificate a p PropSoundSDP.tsirelson_point in
      PropSoundSDP.ray_rows t PropSoundSDP.tsirelson_point && negb (SDPSolveModel.feas_as_optim a) && forallb (fun v => ProgramModel.isclose0 v || qleb 1 (qabs v)) (map snd cert) &&
      match evaluate_certificate (SDPMomentModel.r_context r) (sdp_atom_marginal PropSoundSDP.bell_q r pr_box) (kept (full_certificate s cert)) with
      | Some v => qltb v (- rounding_error (List.length cert) 1)
      | None => false end
    | None => false end | None => false end
  | None => false end.
Lemma pr_evaluated : pr_evaluation = true. Proof. vm_compute. reflexivity. Qed.
Lemma pr_probabilities : probability_array PropSoundSDP.bell_q pr_box.
Proof. apply zero_one_ok; [reflexivity|vm_compute; reflexivity]. Qed.
Lemma tsirelson_ray t : PropSoundSDP.ray_rows t PropSoundSDP.tsirelson_point = true -> SDPSolveSpec.dual_ray t PropSoundSDP.tsirelson_point.
Proof.
  intros H. unfold PropSoundSDP.ray_rows in H. apply andb_prop in H as [H R]. apply andb_prop in H as [H DL]. apply andb_prop in H as [DI DE]. apply Nat.eqb_eq in DI, DE. apply negb_true_iff in DL.
  split; [intros _; apply PropSoundSDP.tsirelson_psd|]. split; [symmetry; exact DI|]. split; [intros y []|]. split; [symmetry; exact DE|].
  intros ci F A B Hr. rewrite DL. cbv zeta. cbn [SDPSolveModel.I SDPSolveModel.E PropSoundSDP.tsirelson_point]. rewrite forallb_forall in R. specialize (R _ Hr). cbn [fst snd] in R. apply Qc_eq_bool_correct in R.
  assert (D0 : forall l : list Qc, SDPSolveModel.dotQ l [] = 0%Qc) by (intros [|z l]; reflexivity). rewrite !D0, R. ring.
Qed.
Example C46_pr_box_sdp_evaluation : exists r s a cert dual v,
  sdp_run PropSoundSDP.bell_q [false; false] PropSoundSDP.bell_cols (code_name PropSoundSDP.bell_q ["A"; "B"] r NameModel.empty_book) [] (Some pr_box) false false [] false r s a /\
  PropSoundSDP.certificate_found a cert /\ certificate_in_moments r (code_name PropSoundSDP.bell_q ["A"; "B"] r NameModel.empty_book) cert dual /\ smallest_above (map snd cert) 1 /\
  probability_array PropSoundSDP.bell_q pr_box /\
  evaluate_certificate (SDPMomentModel.r_context r) (sdp_atom_marginal PropSoundSDP.bell_q r pr_box) dual = Some v /\ (v < - rounding_error (List.length cert) 1)%Qc /\
  ~ quantum_distribution PropSoundSDP.bell_q pr_box.
Proof.
  pose proof pr_evaluated as H. unfold pr_evaluation in H. destruct (PropSoundSDP.bell_run false pr_box) as [((r & s) & a)|] eqn:E; [|discriminate].
  destruct (SDPSolveModel.preprocess a) as [p|] eqn:EP; [|discriminate]. destruct (SDPSolveModel.build_dual a p) as [t|] eqn:ET; [|discriminate]. cbv zeta in H. set (cert := SDPSolveModel.certificate a p PropSoundSDP.tsirelson_point) in *.
  apply andb_prop in H as [H V]. apply andb_prop in H as [H SM]. apply andb_prop in H as [RR EF]. apply negb_true_iff in EF. destruct (evaluate_certificate _ _ _) as [v|] eqn:EV; [|discriminate]. apply qltb_true in V.
  assert (RUN := PropSoundSDP.bell_run_is _ _ _ _ _ E). assert (CE : PropSoundSDP.certificate_found a cert) by (apply (PropSoundSDP.found_ray a p t _ EP ET EF), tsirelson_ray, RR).
  assert (IM := in_moments _ _ _ _ _ _ _ _ _ _ _ _ _ _ PropSoundSDP.bell_q_ready PropSoundSDP.bell_columns_good RUN CE).
  assert (SA : smallest_above (map snd cert) 1).
  { split; [reflexivity|]. intros w Hw C. pose proof (proj1 (forallb_forall _ _) SM w Hw) as X. cbv beta in X. rewrite C in X. apply qleb_true, X. }
  exists r, s, a, cert, (kept (full_certificate s cert)), v. split; [exact RUN|]. split; [exact CE|]. split; [exact IM|]. split; [exact SA|]. split; [exact pr_probabilities|]. split; [exact EV|]. split; [exact V|].
  apply (C46_sdp_negative_evaluation _ _ _ _ _ _ _ _ _ _ _ _ _ _ _ _ _ _ _ _ _ _ _ _ PropSoundSDP.bell_q_ready PropSoundSDP.bell_columns_good PropSoundSDP.bell_entries (or_introl eq_refl) RUN RUN CE IM pr_probabilities SA EV V).
  left. intros x Hx. repeat (destruct Hx as [<-|Hx]; [cbn; lia|]). destruct Hx.
Qed.
