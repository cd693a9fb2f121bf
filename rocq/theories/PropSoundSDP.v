(** C44: what the semidefinite programmes say about distributions is right. *)
From Coq Require Import Permutation QArith Qcanon List Arith Bool Lia Sorted String Ascii.
From Verif Require Import CanonModel CanonSpec MomentModel MomentSpec ScenarioModel ScenarioSpec SymModel SymSpec
  MargModel QcSum ColumnModel ColumnSpec NameModel NameSpec ProgramModel ProgramSpec ProgramProofs QuantumSpec QInflationSpec SDPMomentModel SDPRunSpec CausalSpec SoundProofs PropSound QMomentProofs10 QMomentProofs11 QMomentProofs12 QMomentProofs13 QMomentProofs14 QMomentLengths ClassicalMoments QModelSpec.
From Verif Require PropSolve LPSolveModel PhysSpec PropPhys PropName PropSDP SDPSolveModel SDPSolveSpec SDPSolveProofs4 QMomentProofs QMomentProofs3 QMomentProofs6 ScenarioProofs SymProofs ColsModel Duality SoundProofs6 PropCols PropMemo QModelProofs5 QModelProofs6 QModelProofs7.
Import ListNotations.
Close Scope Q_scope. Close Scope Qc_scope. Open Scope string_scope. Open Scope nat_scope. Open Scope list_scope.

(** ** Distributions *)
(** the inflation of every realisation that gives [arr] has moments with the properties of
    QInflationSpec (the last one for products of at most [k] operators) *)
Definition has_moments (sc : scenario) (k : nat) (arr : ndarray) : Prop :=
  nd_shape arr = outcomes sc ++ private_settings sc /\ exists L, moments_of sc arr L /\ nonnegative_hermitian sc k L.
(** mixtures of such distributions *)
Definition mixture_with_moments (sc : scenario) (k : nat) (arr : ndarray) : Prop :=
  nd_shape arr = outcomes sc ++ private_settings sc /\
  exists l : list (Qc * ndarray), (forall q, In q l -> (0 <= fst q)%Qc /\ has_moments sc k (snd q)) /\ sumQ (map fst l) = 1%Qc /\
    forall a x, Forall2 lt a (outcomes sc) -> Forall2 lt x (private_settings sc) ->
      nd_at arr (a ++ x) = sumQ (map (fun q => fst q * nd_at (snd q) (a ++ x))%Qc l).
(** mixtures of quantum distributions *)
Definition mixture_of_quantum (sc : scenario) (arr : ndarray) : Prop :=
  nd_shape arr = outcomes sc ++ private_settings sc /\
  exists l : list (Qc * ndarray), (forall q, In q l -> (0 <= fst q)%Qc /\ quantum_distribution sc (snd q)) /\ sumQ (map fst l) = 1%Qc /\
    forall a x, Forall2 lt a (outcomes sc) -> Forall2 lt x (private_settings sc) ->
      nd_at arr (a ++ x) = sumQ (map (fun q => fst q * nd_at (snd q) (a ++ x))%Qc l).
(** the products in the matrix have at most [k] operators *)
Definition entries_to (cols : list word) (k : nat) : Prop := forall w, In w cols -> 2 * List.length w <= k.
(** Every distribution that a classical causal model gives has such moments, for every inflation. *)
Theorem C44_compatible_distributions_have_moments sc k arr : ready sc -> compatible_distribution sc arr -> has_moments sc k arr.
Proof.
  intros [W AC Hout Hset Np FC] (Sh & m & MO & HM). split; [exact Sh|]. exists (classical_mean sc m). split; [|apply classical_nonnegative, MO].
  exact (classical_moments sc W m MO AC Hset arr HM).
Qed.
Theorem C44_mixtures_have_moments sc k arr : ready sc -> mixture_of_compatible sc arr -> mixture_with_moments sc k arr.
Proof.
  intros RD (Sh & l & HL & T & MX). split; [exact Sh|]. exists l. split; [|split; assumption]. intros q Hq. destruct (HL q Hq) as [H1 H2]. split; [exact H1|]. apply C44_compatible_distributions_have_moments; assumption.
Qed.
(** The second half of [has_moments] follows from the first when all operators commute ... *)
Theorem C44_commuting_moments_are_nonnegative sc k arr L : wf_scenario sc -> (forall a b, sdp_notcomm sc a b = false) -> moments_of sc arr L -> nonnegative_hermitian sc k L.
Proof.
  intros W NC MQ sigma h w _ _ _ _ _. apply (PropPhys.C41_commuting_nonnegative (sdp_notcomm sc) (sdp_orthomat sc) w (fun w => fst (L w)) (ScenarioProofs.scenario_good_tables sc W) NC (real_state sc arr L MQ)).
Qed.
(** ... and when there is one copy of every source. *)
Theorem C44_one_copy_moments_are_nonnegative sc k arr L : wf_scenario sc -> (forall n, In n (levels sc) -> n = 1) -> moments_of sc arr L -> nonnegative_hermitian sc k L.
Proof.
  intros W H1 MQ sigma h w _ RS IH OW CE.
  apply (PropPhys.C41_no_inflation_nonnegative sc w (0 :: map S h) (fun w => fst (L w)) W H1); [intros x Hx; specialize (OW x Hx); lia| |exact CE|exact (real_state sc arr L MQ)].
  unfold sdp_lexorder_symmetries. apply in_map_iff. exists h. split; [reflexivity|]. apply (SymProofs.discover_exact sc h W). exists sigma. auto.
Qed.
(** Every distribution that a quantum model of the scenario gives has such moments, for every inflation:
    for products of up to two operators, and for all products when all operators commute or when there
    is one copy of every source. *)
Theorem C44_quantum_distributions_have_moments sc k arr : ready sc -> quantum_distribution sc arr ->
  k <= 2 \/ (forall a b, sdp_notcomm sc a b = false) \/ (forall n, In n (levels sc) -> n = 1) -> has_moments sc k arr.
Proof.
  intros [W AC Hout Hset Np FC] (Sh & m & QM & E) HK. assert (MQ := QModelProofs6.quantum_moments sc m arr W AC Hset QM E). split; [exact Sh|]. exists (QModelProofs3.qmean sc m). split; [exact MQ|]. destruct HK as [HK|[NC|H1]].
  - intros sg h w Lw. apply (QModelProofs7.short_products_nonneg sc W m QM arr MQ sg h w). lia.
  - exact (C44_commuting_moments_are_nonnegative sc k arr _ W NC MQ).
  - exact (C44_one_copy_moments_are_nonnegative sc k arr _ W H1 MQ).
Qed.
Theorem C44_quantum_mixtures_have_moments sc k arr : ready sc -> mixture_of_quantum sc arr ->
  k <= 2 \/ (forall a b, sdp_notcomm sc a b = false) \/ (forall n, In n (levels sc) -> n = 1) -> mixture_with_moments sc k arr.
Proof.
  intros RD (Sh & l & HL & T & MX) HK. split; [exact Sh|]. exists l. split; [|split; assumption]. intros q Hq. destruct (HL q Hq) as [H1 H2]. split; [exact H1|]. apply C44_quantum_distributions_have_moments; assumption.
Qed.
Lemma nonneg_entries sc cols k L : entries_to cols k -> nonnegative_hermitian sc k L -> nonnegative_hermitian sc (2 * longest cols) L.
Proof.
  intros EK NH sg h w Lw. apply NH. etransitivity; [exact Lw|]. enough (X : longest cols <= Nat.div2 k) by (assert (Q := Nat.div2_odd k); destruct (Nat.odd k); cbn [Nat.b2n] in Q; lia).
  unfold longest. apply list_max_le, Forall_forall. intros z Hz. apply in_map_iff in Hz as (v & <- & Hv). specialize (EK v Hv). assert (Q := Nat.div2_odd k). destruct (Nat.odd k); cbn [Nat.b2n] in Q; unfold word in *; lia.
Qed.

(** ** The problems can be solved *)
Section Run.
Variables (sc : scenario) (RD : ready sc) (cols : list word) (GC : good_columns (sdp_notcomm sc) (sdp_orthomat sc) (S (List.length (lexorder sc))) cols).
Variables (hc : list bool) (nm : moment -> SDPSolveModel.name) (before : list op) (arr : option ndarray) (lpi shared : bool) (after : list op) (feas : bool) (r : SDPMomentModel.relaxation) (s : state) (a : SDPSolveModel.sdp_args).
Variable RUN : sdp_run sc hc cols nm before arr lpi shared after feas r s a.
Lemma the_wf : SDPSolveSpec.wf_args a.
Proof. destruct RD as [W AC Hout Hset Np FC]. exact (args_wf sc W FC Hout cols GC hc r (sr_generate _ _ _ _ _ _ _ _ _ _ _ _ _ RUN) nm before arr lpi shared after feas s a RUN). Qed.
Lemma the_lambda : SDPSolveSpec.lambda_free a.
Proof. destruct RD as [W AC Hout Hset Np FC]. exact (args_lambda sc W FC cols GC hc r (sr_generate _ _ _ _ _ _ _ _ _ _ _ _ _ RUN) nm before arr lpi shared after feas s a RUN). Qed.
Lemma the_masks : SDPSolveModel.has_masks a = true.
Proof. exact (args_masks sc cols hc r (sr_generate _ _ _ _ _ _ _ _ _ _ _ _ _ RUN) nm before arr lpi shared after feas s a RUN). Qed.
End Run.
Theorem C44_programmes_are_built sc hc cols nm before arr lpi shared after feas r s a : ready sc -> good_columns (sdp_notcomm sc) (sdp_orthomat sc) (S (List.length (lexorder sc))) cols ->
  sdp_run sc hc cols nm before arr lpi shared after feas r s a ->
  exists p, SDPSolveModel.preprocess a = Some p /\ (exists t, SDPSolveModel.build_dual a p = Some t) /\ (exists t, SDPSolveModel.build_primal a p = Some t).
Proof.
  intros [W AC Hout Hset Np FC] GC RUN. exact (args_solvable sc W FC Hout cols GC hc r (sr_generate _ _ _ _ _ _ _ _ _ _ _ _ _ RUN) nm before arr lpi shared after feas s a RUN).
Qed.
(** The names that the code gives are names as [sdp_run] asks for, whatever moments were named before. *)
Theorem C44_names sc hc cols r names h b : ready sc -> good_columns (sdp_notcomm sc) (sdp_orthomat sc) (S (List.length (lexorder sc))) cols ->
  SDPMomentModel.generate sc hc false cols = Some r -> good_names sc names -> Forall (PropName.proper_step sc) h ->
  NameModel.do_steps sc names (NameModel.code_conj sc (operators_commute sc)) h NameModel.empty_book = Some b -> good_naming r (code_name sc names r b).
Proof. intros [W AC Hout Hset Np FC] GC GE. exact (code_names_good sc W FC cols GC hc r GE names h b). Qed.

(** ** Distributions with moments are never excluded *)
(** the mean of a moment: the product of the means of its atoms *)
Definition mean_of (r : SDPMomentModel.relaxation) (L : word -> C) (m : moment) : Qc :=
  fst (fold_right Cmult C1 (map (fun a => L (nth a (SDPMomentModel.r_atoms r) [])) m)).
Theorem C44_moments_are_a_point sc hc cols nm before arr lpi shared after feas r s a x L k : ready sc -> good_columns (sdp_notcomm sc) (sdp_orthomat sc) (S (List.length (lexorder sc))) cols -> entries_to cols k ->
  sdp_run sc hc cols nm before arr lpi shared after feas r s a -> no_tiny_values lpi shared s -> (forall y, arr = Some y -> y = x) ->
  nd_shape x = outcomes sc ++ private_settings sc -> moments_of sc x L -> nonnegative_hermitian sc k L ->
  exists z, SDPSolveSpec.feasible a z /\ SDPSolveSpec.value a z = expr_at (mean_of r L) (ProgramModel.objective s) /\ forall m, In m (moments (SDPMomentModel.r_context r)) -> z (nm m) = mean_of r L m.
Proof.
  intros [W AC Hout Hset Np FC] GC EK RUN NT EA Sh MQ NH. apply (nonneg_entries sc cols k L EK) in NH. assert (GE := sr_generate _ _ _ _ _ _ _ _ _ _ _ _ _ RUN). exists (the_point r nm s L). split; [|split].
  - exact (point_feasible sc W FC Hout Hset cols GC hc r GE nm before arr lpi shared after feas s a RUN x EA L MQ NH Sh NT).
  - exact (point_value sc W FC Hset cols GC hc r GE nm before arr lpi shared after feas s a RUN x EA L MQ Sh NT).
  - intros m Hm. exact (point_at sc W FC cols GC hc r GE nm before arr lpi shared after feas s a RUN L m (in_moments r s m Hm)).
Qed.
(** with shared randomness, mixtures *)
Lemma mixture_list sc k l : (forall q : Qc * ndarray, In q l -> (0 <= fst q)%Qc /\ has_moments sc k (snd q)) ->
  exists l' : list (Qc * (ndarray * (word -> C))), map (fun q => (fst q, fst (snd q))) l' = l /\ forall q, In q l' -> (0 <= fst q)%Qc /\ moments_of sc (fst (snd q)) (snd (snd q)) /\ nonnegative_hermitian sc k (snd (snd q)).
Proof.
  induction l as [|[c x] l IH]; intros H; [exists []; split; [reflexivity|intros q []]|]. destruct IH as (l' & E & IH); [intros q' Hq'; apply H; right; exact Hq'|].
  destruct (H _ (or_introl eq_refl)) as [Wq (_ & L & MQ & NH)]. cbn [fst snd] in *. exists ((c, (x, L)) :: l'). split; [cbn [map fst snd]; congruence|]. intros q' [<-|Hq']; [cbn [fst snd]; auto|apply IH, Hq'].
Qed.
Theorem C44_mixtures_are_feasible_with_shared_randomness sc hc cols nm before arr lpi after feas r s a k : ready sc -> good_columns (sdp_notcomm sc) (sdp_orthomat sc) (S (List.length (lexorder sc))) cols -> entries_to cols k ->
  sdp_run sc hc cols nm before (Some arr) lpi true after feas r s a -> mixture_with_moments sc k arr -> exists z, SDPSolveSpec.feasible a z.
Proof.
  intros [W AC Hout Hset Np FC] GC EK RUN (Sh & l & HL & T & MX). assert (GE := sr_generate _ _ _ _ _ _ _ _ _ _ _ _ _ RUN). destruct (mixture_list sc k l HL) as (l' & EL & HL0). assert (HL' : forall q, In q l' -> (0 <= fst q)%Qc /\ moments_of sc (fst (snd q)) (snd (snd q)) /\ nonnegative_hermitian sc (2 * longest cols) (snd (snd q))) by (intros q Hq; destruct (HL0 q Hq) as (X1 & X2 & X3); split; [exact X1|split; [exact X2|exact (nonneg_entries sc cols k _ EK X3)]]). subst l. exists (mixed_point r l' nm s).
  assert (T' : sumQ (map fst l') = 1%Qc) by (rewrite map_map in T; exact T).
  assert (MX' : forall a x, Forall2 lt a (outcomes sc) -> Forall2 lt x (private_settings sc) -> nd_at arr (a ++ x) = sumQ (map (fun q => fst q * nd_at (fst (snd q)) (a ++ x))%Qc l')) by (intros o x Ho Hx; rewrite (MX o x Ho Hx), map_map; reflexivity).
  split; [exact (mixed_linear_part sc W FC Hout Hset cols GC hc r GE l' HL' T' arr Sh MX' nm before lpi after feas s a RUN)|exact (mixed_psd sc W FC cols GC hc r GE l' HL' arr nm before lpi after feas s a RUN)].
Qed.

(** What the solver can report that makes a user say that the distribution is impossible: *)
Inductive says_incompatible (a : SDPSolveModel.sdp_args) : Prop :=
| no_point p t : SDPSolveModel.preprocess a = Some p -> SDPSolveModel.build_primal a p = Some t -> SDPSolveModel.feas_as_optim a = false ->   (* the primal has no solution *)
    (forall y G, ~ SDPSolveSpec.primal_feasible t y G) -> says_incompatible a
| negative_optimum p t u : SDPSolveModel.preprocess a = Some p -> SDPSolveModel.build_primal a p = Some t -> SDPSolveModel.feas_as_optim a = true ->   (* the largest smallest eigenvalue is negative *)
    (forall y G, SDPSolveSpec.primal_feasible t y G -> (SDPSolveSpec.primal_value t y <= u)%Qc) -> (u < 0)%Qc -> says_incompatible a
| dual_certificate p t d : SDPSolveModel.preprocess a = Some p -> SDPSolveModel.build_dual a p = Some t -> SDPSolveModel.feas_as_optim a = false ->   (* a ray of the dual *)
    SDPSolveSpec.dual_ray t d -> (SDPSolveSpec.dual_value t d - SDPSolveModel.d_const t < 0)%Qc -> says_incompatible a
| negative_bound p t d : SDPSolveModel.preprocess a = Some p -> SDPSolveModel.build_dual a p = Some t -> SDPSolveModel.feas_as_optim a = true ->   (* a negative point of the dual *)
    SDPSolveSpec.dual_feasible t d -> (SDPSolveSpec.dual_value t d < 0)%Qc -> says_incompatible a.
Lemma feasible_not_excluded a z : SDPSolveSpec.wf_args a -> SDPSolveSpec.lambda_free a -> SDPSolveModel.has_masks a = true -> SDPSolveModel.default_non_negative a = false -> SDPSolveSpec.feasible a z -> ~ says_incompatible a.
Proof.
  intros Wf LF HM ND F X. assert (FA := feasible_is_above a z F). destruct X as [p t EP ET EF N|p t u EP ET EF N U|p t d EP ET EF DR DV|p t d EP ET EF DR DV].
  - apply (N _ _ (proj1 (proj1 (PropSDP.C27_same_programme a p t Wf EF EP ET) z F))).
  - destruct (proj1 (PropSDP.C27_same_programme_relaxed a p t Wf EF HM LF EP ET) z 0%Qc FA) as (y & G & PF & PV); [rewrite ND; discriminate|]. specialize (N y G PF). rewrite PV in N. apply (Qcle_not_lt _ _ N U).
  - apply (PropSDP.C27_ray_infeasible a p t d z Wf EF EP ET DR DV F).
  - apply (Qcle_not_lt _ _ (PropSDP.C27_dual_bound_relaxed a p t d z 0%Qc Wf EF HM LF EP ET DR FA ltac:(rewrite ND; discriminate)) DV).
Qed.
Lemma no_default sc hc cols nm before arr lpi shared after feas r s a : sdp_run sc hc cols nm before arr lpi shared after feas r s a -> SDPSolveModel.default_non_negative a = false.
Proof. intros RUN. rewrite (args_are sc cols hc r (sr_generate _ _ _ _ _ _ _ _ _ _ _ _ _ RUN) nm before arr lpi shared after feas s a RUN). reflexivity. Qed.
Theorem C44_exclusion_is_right sc hc cols nm before arr lpi shared after feas r s a k : ready sc -> good_columns (sdp_notcomm sc) (sdp_orthomat sc) (S (List.length (lexorder sc))) cols -> entries_to cols k ->
  sdp_run sc hc cols nm before (Some arr) lpi shared after feas r s a -> no_tiny_values lpi shared s ->
  says_incompatible a -> ~ has_moments sc k arr /\ ~ compatible_distribution sc arr.
Proof.
  intros RD GC EK RUN NT X. assert (H : ~ has_moments sc k arr); [|split; [exact H|intros C; apply H, C44_compatible_distributions_have_moments; assumption]].
  intros (Sh & L & MQ & NH). destruct (C44_moments_are_a_point sc hc cols nm before (Some arr) lpi shared after feas r s a arr L k RD GC EK RUN NT (some_is arr) Sh MQ NH) as (z & F & _).
  exact (feasible_not_excluded a z (the_wf sc RD cols GC hc nm before (Some arr) lpi shared after feas r s a RUN) (the_lambda sc RD cols GC hc nm before (Some arr) lpi shared after feas r s a RUN) (the_masks sc cols hc nm before (Some arr) lpi shared after feas r s a RUN) (no_default _ _ _ _ _ _ _ _ _ _ _ _ _ RUN) F X).
Qed.
Theorem C44_exclusion_is_right_with_shared_randomness sc hc cols nm before arr lpi after feas r s a k : ready sc -> good_columns (sdp_notcomm sc) (sdp_orthomat sc) (S (List.length (lexorder sc))) cols -> entries_to cols k ->
  sdp_run sc hc cols nm before (Some arr) lpi true after feas r s a -> says_incompatible a -> ~ mixture_with_moments sc k arr /\ ~ mixture_of_compatible sc arr.
Proof.
  intros RD GC EK RUN X. assert (H : ~ mixture_with_moments sc k arr); [|split; [exact H|intros C; apply H, C44_mixtures_have_moments; assumption]].
  intros MM. destruct (C44_mixtures_are_feasible_with_shared_randomness sc hc cols nm before arr lpi after feas r s a k RD GC EK RUN MM) as (z & F).
  exact (feasible_not_excluded a z (the_wf sc RD cols GC hc nm before (Some arr) lpi true after feas r s a RUN) (the_lambda sc RD cols GC hc nm before (Some arr) lpi true after feas r s a RUN) (the_masks sc cols hc nm before (Some arr) lpi true after feas r s a RUN) (no_default _ _ _ _ _ _ _ _ _ _ _ _ _ RUN) F X).
Qed.

(** Quantum distributions are never excluded when the columns are single operators, when all operators
    commute or when there is one copy of every source. *)
Definition quantum_safe (sc : scenario) (cols : list word) : Prop :=
  (forall w, In w cols -> List.length w <= 1) \/ (forall a b, sdp_notcomm sc a b = false) \/ (forall n, In n (levels sc) -> n = 1).
Lemma safe_bound sc cols : quantum_safe sc cols -> exists k, entries_to cols k /\ (k <= 2 \/ (forall a b, sdp_notcomm sc a b = false) \/ (forall n, In n (levels sc) -> n = 1)).
Proof.
  intros [H|H]; [exists 2; split; [intros w Hw; specialize (H w Hw); unfold word in *; lia|left; lia]|]. exists (2 * longest cols). split; [|right; exact H]. intros w Hw. apply In_nth with (d := []) in Hw as (i & Hi & <-). assert (Q := longest_le cols i). unfold word in *. lia.
Qed.
Theorem C44_quantum_distributions_are_not_excluded sc hc cols nm before arr lpi shared after feas r s a : ready sc -> good_columns (sdp_notcomm sc) (sdp_orthomat sc) (S (List.length (lexorder sc))) cols -> quantum_safe sc cols ->
  sdp_run sc hc cols nm before (Some arr) lpi shared after feas r s a -> no_tiny_values lpi shared s ->
  quantum_distribution sc arr -> ~ says_incompatible a.
Proof.
  intros RD GC QS RUN NT QD X. destruct (safe_bound sc cols QS) as (k & EK & HK). apply (proj1 (C44_exclusion_is_right sc hc cols nm before arr lpi shared after feas r s a k RD GC EK RUN NT X)). apply C44_quantum_distributions_have_moments; assumption.
Qed.
Theorem C44_quantum_mixtures_are_not_excluded_with_shared_randomness sc hc cols nm before arr lpi after feas r s a : ready sc -> good_columns (sdp_notcomm sc) (sdp_orthomat sc) (S (List.length (lexorder sc))) cols -> quantum_safe sc cols ->
  sdp_run sc hc cols nm before (Some arr) lpi true after feas r s a -> mixture_of_quantum sc arr -> ~ says_incompatible a.
Proof.
  intros RD GC QS RUN QD X. destruct (safe_bound sc cols QS) as (k & EK & HK). apply (proj1 (C44_exclusion_is_right_with_shared_randomness sc hc cols nm before arr lpi after feas r s a k RD GC EK RUN X)). apply C44_quantum_mixtures_have_moments; assumption.
Qed.

(** ** Bounds *)
(** every point of the dual, and every optimum of the primal, bounds the mean of the objective *)
Inductive bounded_by (a : SDPSolveModel.sdp_args) : Qc -> Prop :=
| primal_bound p t u : SDPSolveModel.preprocess a = Some p -> SDPSolveModel.build_primal a p = Some t -> (forall y G, SDPSolveSpec.primal_feasible t y G -> (SDPSolveSpec.primal_value t y <= u)%Qc) -> bounded_by a u
| dual_bound p t d : SDPSolveModel.preprocess a = Some p -> SDPSolveModel.build_dual a p = Some t -> SDPSolveSpec.dual_feasible t d -> bounded_by a (SDPSolveSpec.dual_value t d).
Theorem C44_bounds_hold sc hc cols nm before arr lpi shared after feas r s a x L u k : ready sc -> good_columns (sdp_notcomm sc) (sdp_orthomat sc) (S (List.length (lexorder sc))) cols -> entries_to cols k ->
  sdp_run sc hc cols nm before arr lpi shared after feas r s a -> no_tiny_values lpi shared s -> (forall y, arr = Some y -> y = x) ->
  nd_shape x = outcomes sc ++ private_settings sc -> moments_of sc x L -> nonnegative_hermitian sc k L ->
  SDPSolveModel.feas_as_optim a = false -> bounded_by a u -> (expr_at (mean_of r L) (ProgramModel.objective s) <= u)%Qc.
Proof.
  intros RD GC EK RUN NT EA Sh MQ NH EF BD. destruct (C44_moments_are_a_point sc hc cols nm before arr lpi shared after feas r s a x L k RD GC EK RUN NT EA Sh MQ NH) as (z & F & V & _). rewrite <- V.
  assert (Wf := the_wf sc RD cols GC hc nm before arr lpi shared after feas r s a RUN). destruct BD as [p t u EP ET N|p t d EP ET DF].
  - destruct (proj1 (PropSDP.C27_same_programme a p t Wf EF EP ET) z F) as [PF PV]. rewrite <- PV. apply (N _ _ PF).
  - exact (PropSDP.C27_dual_bound a p t d z Wf EF EP ET DF F).
Qed.

(** ** Certificates *)
(** the value of a certificate at the known values of a problem *)
Definition certificate_at (values cert : SDPSolveModel.ndict Qc) : Qc := SDPSolveSpec.expr (fun k => SDPSolveModel.getd 0%Qc k values) cert.
(** certificates that the solver's answer gives *)
Inductive certificate_found (a : SDPSolveModel.sdp_args) : SDPSolveModel.ndict Qc -> Prop :=
| found_relaxed p t d : SDPSolveModel.preprocess a = Some p -> SDPSolveModel.build_dual a p = Some t -> SDPSolveModel.feas_as_optim a = true -> SDPSolveSpec.dual_feasible t d -> certificate_found a (SDPSolveModel.certificate a p d)
| found_ray p t d : SDPSolveModel.preprocess a = Some p -> SDPSolveModel.build_dual a p = Some t -> SDPSolveModel.feas_as_optim a = false -> SDPSolveSpec.dual_ray t d -> certificate_found a (SDPSolveModel.certificate a p d).

Lemma certificate_value_at a' cert z (values := SDPSolveModel.known_vars a') : SDPSolveSpec.wf_args a' -> (forall k v, In (k, v) values -> z k = v) -> (forall k, In k (keys cert) -> In k (keys values)) -> certificate_at values cert = SDPSolveSpec.expr z cert.
Proof.
  intros Wf HZ HK. unfold certificate_at, SDPSolveSpec.expr. apply sumQ_ext. intros [k q] Hk. f_equal. assert (I := HK k (in_map fst _ _ Hk)). apply in_map_iff in I as ([k' v] & E & I). cbn [fst] in E. subst k'.
  destruct Wf as (_ & _ & ND & _). unfold SDPSolveModel.getd, SDPSolveModel.nget. rewrite (in_get string_dec k v values ND I). symmetry. apply HZ, I.
Qed.
Lemma certificate_holds a a' cert z : SDPSolveSpec.wf_args a -> SDPSolveSpec.wf_args a' -> SDPSolveSpec.lambda_free a -> SDPSolveModel.has_masks a = true -> SDPSolveModel.default_non_negative a = false ->
  (forall k, In k (keys (SDPSolveModel.known_vars a)) -> In k (keys (SDPSolveModel.mask_matrices a))) ->
  PropSDP.same_known a (SDPSolveModel.known_vars a') -> SDPSolveSpec.feasible (SDPSolveSpec.with_known (SDPSolveModel.known_vars a') a) z -> certificate_found a cert ->
  (0 <= certificate_at (SDPSolveModel.known_vars a') cert)%Qc.
Proof.
  intros Wf Wf' LF HM ND KM SK F CE. assert (HZ : forall k v, In (k, v) (SDPSolveModel.known_vars a') -> z k = v) by (destruct F as [[H _] _]; exact H).
  destruct CE as [p t d EP ET EF DF|p t d EP ET EF DR].
  - rewrite (certificate_value_at a' _ z Wf' HZ); [apply (PropSDP.C27_certificate_relaxed a p t d _ z 0%Qc Wf EF HM LF EP ET DF SK (feasible_is_above _ z F)); rewrite ND; discriminate|].
    intros k Hk. rewrite (proj1 (SDPSolveProofs4.certificate_get a Wf (fun _ => conj HM LF) p EP d)) in Hk. apply SK, Hk.
  - rewrite (certificate_value_at a' _ z Wf' HZ); [apply (PropSDP.C27_certificate_infeasible a p t d (SDPSolveModel.known_vars a') z Wf EF EP ET DR); [|exact SK|exact F]; intros k q _ Hk NI; elim (NI (KM k Hk))|].
    intros k Hk. rewrite (proj1 (SDPSolveProofs4.certificate_get a Wf (PropSDP.allowed_plain a EF) p EP d)) in Hk. apply SK, Hk.
Qed.

Lemma known_masked sc hc cols nm before arr lpi shared after feas r s a : sdp_run sc hc cols nm before arr lpi shared after feas r s a ->
  forall k, In k (keys (SDPSolveModel.known_vars a)) -> In k (keys (SDPSolveModel.mask_matrices a)).
Proof.
  intros RUN k. assert (GE := sr_generate _ _ _ _ _ _ _ _ _ _ _ _ _ RUN). rewrite (keys_known sc cols hc r GE nm before arr lpi shared after feas s a RUN), (keys_masks sc cols hc r GE nm before arr lpi shared after feas s a RUN).
  destruct (run_facts sc cols hc r GE nm before arr lpi shared after feas s a RUN) as (_ & _ & KM & _). intros H. apply in_app_or in H as [H|H]; apply in_or_app; [left|right; exact H]. apply in_map_iff in H as (m & <- & H). apply in_map, KM, H.
Qed.
(** A certificate found for one distribution is non-negative at every distribution with moments (the
    values are those that set_distribution gives), ... *)
Theorem C44_certificates_hold sc hc cols nm before before' arr arr' lpi shared after after' feas feas' r s s' a a' cert k : ready sc -> good_columns (sdp_notcomm sc) (sdp_orthomat sc) (S (List.length (lexorder sc))) cols -> entries_to cols k ->
  lpi = false \/ shared = true ->
  sdp_run sc hc cols nm before (Some arr) lpi shared after feas r s a -> sdp_run sc hc cols nm before' (Some arr') lpi shared after' feas' r s' a' ->
  certificate_found a cert -> has_moments sc k arr' \/ compatible_distribution sc arr' -> (0 <= certificate_at (SDPSolveModel.known_vars a') cert)%Qc.
Proof.
  intros RD GC EK LP RUN RUN' CE HM. assert (HM' : has_moments sc k arr') by (destruct HM as [H|H]; [exact H|apply C44_compatible_distributions_have_moments; assumption]). destruct HM' as (Sh & L & MQ & NH). apply (nonneg_entries sc cols k L EK) in NH.
  apply (certificate_holds a a' cert (the_point r nm s' L) (the_wf sc RD cols GC hc nm before (Some arr) lpi shared after feas r s a RUN) (the_wf sc RD cols GC hc nm before' (Some arr') lpi shared after' feas' r s' a' RUN')
    (the_lambda sc RD cols GC hc nm before (Some arr) lpi shared after feas r s a RUN) (the_masks sc cols hc nm before (Some arr) lpi shared after feas r s a RUN) (no_default _ _ _ _ _ _ _ _ _ _ _ _ _ RUN) (known_masked _ _ _ _ _ _ _ _ _ _ _ _ _ RUN)); [| |exact CE].
  - destruct RD as [W AC Hout Hset Np FC]. exact (same_known_keys sc W FC cols GC hc r (sr_generate _ _ _ _ _ _ _ _ _ _ _ _ _ RUN) nm before before' arr arr' lpi shared after after' feas feas' s s' a a' LP RUN RUN').
  - destruct RD as [W AC Hout Hset Np FC]. exact (proj1 (other_point sc W FC Hout Hset cols GC hc r (sr_generate _ _ _ _ _ _ _ _ _ _ _ _ _ RUN) nm before before' arr arr' lpi shared after after' feas feas' s s' a a' LP RUN RUN' L MQ NH Sh)).
Qed.
(** ... with shared randomness also at their mixtures ... *)
Theorem C44_certificates_hold_for_mixtures sc hc cols nm before before' arr arr' lpi after after' feas feas' r s s' a a' cert k : ready sc -> good_columns (sdp_notcomm sc) (sdp_orthomat sc) (S (List.length (lexorder sc))) cols -> entries_to cols k ->
  sdp_run sc hc cols nm before (Some arr) lpi true after feas r s a -> sdp_run sc hc cols nm before' (Some arr') lpi true after' feas' r s' a' ->
  certificate_found a cert -> mixture_with_moments sc k arr' \/ mixture_of_compatible sc arr' -> (0 <= certificate_at (SDPSolveModel.known_vars a') cert)%Qc.
Proof.
  intros RD GC EK RUN RUN' CE HM. assert (HM' : mixture_with_moments sc k arr') by (destruct HM as [H|H]; [exact H|apply C44_mixtures_have_moments; assumption]). destruct HM' as (Sh & l & HL & T & MX).
  destruct (mixture_list sc k l HL) as (l' & EL & HL0). assert (HL' : forall q, In q l' -> (0 <= fst q)%Qc /\ moments_of sc (fst (snd q)) (snd (snd q)) /\ nonnegative_hermitian sc (2 * longest cols) (snd (snd q))) by (intros q Hq; destruct (HL0 q Hq) as (X1 & X2 & X3); split; [exact X1|split; [exact X2|exact (nonneg_entries sc cols k _ EK X3)]]). subst l.
  assert (T' : sumQ (map fst l') = 1%Qc) by (rewrite map_map in T; exact T).
  assert (MX' : forall a x, Forall2 lt a (outcomes sc) -> Forall2 lt x (private_settings sc) -> nd_at arr' (a ++ x) = sumQ (map (fun q => fst q * nd_at (fst (snd q)) (a ++ x))%Qc l')) by (intros o x Ho Hx; rewrite (MX o x Ho Hx), map_map; reflexivity).
  apply (certificate_holds a a' cert (mixed_point r l' nm s') (the_wf sc RD cols GC hc nm before (Some arr) lpi true after feas r s a RUN) (the_wf sc RD cols GC hc nm before' (Some arr') lpi true after' feas' r s' a' RUN')
    (the_lambda sc RD cols GC hc nm before (Some arr) lpi true after feas r s a RUN) (the_masks sc cols hc nm before (Some arr) lpi true after feas r s a RUN) (no_default _ _ _ _ _ _ _ _ _ _ _ _ _ RUN) (known_masked _ _ _ _ _ _ _ _ _ _ _ _ _ RUN)); [| |exact CE].
  - destruct RD as [W AC Hout Hset Np FC]. exact (same_known_keys sc W FC cols GC hc r (sr_generate _ _ _ _ _ _ _ _ _ _ _ _ _ RUN) nm before before' arr arr' lpi true after after' feas feas' s s' a a' (or_intror eq_refl) RUN RUN').
  - destruct RD as [W AC Hout Hset Np FC]. exact (mixed_other_point sc W FC Hout Hset cols GC hc r (sr_generate _ _ _ _ _ _ _ _ _ _ _ _ _ RUN) l' HL' T' arr' Sh MX' nm before before' arr lpi after after' feas feas' s s' a a' RUN RUN').
Qed.
(** ... so a distribution at which it is negative is impossible, with no further optimisation. *)
Theorem C44_negative_certificate_excludes sc hc cols nm before before' arr arr' lpi shared after after' feas feas' r s s' a a' cert k : ready sc -> good_columns (sdp_notcomm sc) (sdp_orthomat sc) (S (List.length (lexorder sc))) cols -> entries_to cols k ->
  lpi = false \/ shared = true ->
  sdp_run sc hc cols nm before (Some arr) lpi shared after feas r s a -> sdp_run sc hc cols nm before' (Some arr') lpi shared after' feas' r s' a' ->
  certificate_found a cert -> (certificate_at (SDPSolveModel.known_vars a') cert < 0)%Qc -> ~ has_moments sc k arr' /\ ~ compatible_distribution sc arr'.
Proof.
  intros RD GC EK LP RUN RUN' CE N. assert (X := C44_certificates_hold sc hc cols nm before before' arr arr' lpi shared after after' feas feas' r s s' a a' cert k RD GC EK LP RUN RUN' CE).
  split; intros H; apply (Qcle_not_lt _ _ (X ltac:(auto)) N).
Qed.

(** The same for quantum distributions. *)
Theorem C44_certificates_hold_for_quantum_distributions sc hc cols nm before before' arr arr' lpi shared after after' feas feas' r s s' a a' cert : ready sc -> good_columns (sdp_notcomm sc) (sdp_orthomat sc) (S (List.length (lexorder sc))) cols -> quantum_safe sc cols ->
  lpi = false \/ shared = true ->
  sdp_run sc hc cols nm before (Some arr) lpi shared after feas r s a -> sdp_run sc hc cols nm before' (Some arr') lpi shared after' feas' r s' a' ->
  certificate_found a cert -> quantum_distribution sc arr' \/ shared = true /\ mixture_of_quantum sc arr' -> (0 <= certificate_at (SDPSolveModel.known_vars a') cert)%Qc.
Proof.
  intros RD GC QS LP RUN RUN' CE [QD|[-> QD]]; destruct (safe_bound sc cols QS) as (k & EK & HK).
  - apply (C44_certificates_hold sc hc cols nm before before' arr arr' lpi shared after after' feas feas' r s s' a a' cert k RD GC EK LP RUN RUN' CE). left. apply C44_quantum_distributions_have_moments; assumption.
  - apply (C44_certificates_hold_for_mixtures sc hc cols nm before before' arr arr' lpi after after' feas feas' r s s' a a' cert k RD GC EK RUN RUN' CE). left. apply C44_quantum_mixtures_have_moments; assumption.
Qed.

(** ** Examples: the Bell scenario with a quantum source, columns of level 1 *)
Definition bell_q : scenario :=
  {| outcomes := [2; 2]; private_settings := [2; 2]; parents := [[]; []];
     sources := [{| s_classical := false; s_children := [0; 1]; s_latents := [] |}]; levels := [1] |}.
Lemma bell_q_ready : ready bell_q.
Proof.
  constructor.
  - constructor; try reflexivity.
    + intros ps q [<-|[<-|[]]] [].
    + intros m [<-|[]]; lia.
    + intros p Hp. exists {| s_classical := false; s_children := [0; 1]; s_latents := [] |}. split; [left; reflexivity|]. left. destruct p as [|[|p]]; cbn in *; auto; lia.
  - exists (fun _ => 0). intros p q Hp Hq. destruct p as [|[|p]]; cbn in *; try contradiction; lia.
  - intros o [<-|[<-|[]]]; lia.
  - intros o [<-|[<-|[]]]; lia.
  - cbn. lia.
  - unfold few_copies. vm_compute. repeat constructor.
Qed.
Definition bell_cols : list word := [[]; [1]; [3]; [5]; [7]].
Example C44_bell_columns : ColsModel.build_columns bell_q [false; false] false (ColsModel.Npa 1) 0 = Some bell_cols.
Proof. vm_compute. reflexivity. Qed.
Lemma bell_columns_good : good_columns (sdp_notcomm bell_q) (sdp_orthomat bell_q) (S (List.length (lexorder bell_q))) bell_cols.
Proof.
  destruct (PropCols.C33_npa bell_q [false; false] false 1 0 (rd_wf _ bell_q_ready)) as (cols & E & _ & G).
  - discriminate.
  - intros src l p q [<-|[]] _ [].
  - rewrite C44_bell_columns in E. assert (cols = bell_cols) as -> by congruence. exact G.
Qed.
Lemma bell_entries : entries_to bell_cols 2.
Proof. intros w H. repeat (destruct H as [<-|H]; [cbn; lia|]). destruct H. Qed.
Lemma bell_one_copy : forall n, In n (levels bell_q) -> n = 1.
Proof. intros k [<-|[]]. reflexivity. Qed.
Definition bell_run (feas : bool) (arr : ndarray) : option (SDPMomentModel.relaxation * state * SDPSolveModel.sdp_args) :=
  match SDPMomentModel.generate bell_q [false; false] false bell_cols with None => None | Some r =>
  match generated sdp (SDPMomentModel.r_context r) with None => None | Some s0 =>
  match SDPMomentModel.set_distribution bell_q r (Some arr) false false s0 with None => None | Some s =>
  match solver_args (code_name bell_q ["A"; "B"] r NameModel.empty_book) r feas s with None => None | Some a => Some (r, s, a) end end end end.
Lemma bell_run_is feas arr r s a : bell_run feas arr = Some (r, s, a) -> sdp_run bell_q [false; false] bell_cols (code_name bell_q ["A"; "B"] r NameModel.empty_book) [] (Some arr) false false [] feas r s a.
Proof.
  unfold bell_run. destruct (SDPMomentModel.generate bell_q [false; false] false bell_cols) as [r'|] eqn:ER; [|discriminate]. destruct (generated sdp (SDPMomentModel.r_context r')) as [s0|] eqn:E0; [|discriminate].
  destruct (SDPMomentModel.set_distribution bell_q r' (Some arr) false false s0) as [s'|] eqn:ES; [|discriminate]. destruct (solver_args _ _ _ _) as [a'|] eqn:EA; [|discriminate].
  intros Q. assert (r' = r) by congruence. assert (s' = s) by congruence. assert (a' = a) by congruence. subst r' s' a'. constructor; [exact ER| |constructor|constructor| |exact EA].
  - apply (C44_names bell_q [false; false] bell_cols r ["A"; "B"] [] NameModel.empty_book bell_q_ready bell_columns_good ER); [|constructor|reflexivity].
    split; [reflexivity|repeat constructor; cbn; intuition discriminate|intros t [<-|[<-|[]]]; reflexivity|intros ps [<-|[<-|[]]]; repeat constructor].
  - exists s0, s0, s. auto.
Qed.
(** a sum of squares *)
Lemma square_psd n (t : nat -> Qc) : SDPSolveSpec.psd n (fun i j => (t i * t j)%Qc).
Proof.
  split; [intros i j _ _; ring|]. intros v.
  assert (E : Duality.sumn n (fun i => Duality.sumn n (fun j => (v i * (t i * t j) * v j)%Qc)) = (sumQ (map (fun i => v i * t i) (seq 0 n)) * sumQ (map (fun i => v i * t i) (seq 0 n)))%Qc).
  { unfold Duality.sumn. rewrite (sumQ_ext (seq 0 n) _ (fun i => (sumQ (map (fun i => v i * t i)%Qc (seq 0 n)) * (v i * t i))%Qc)) by (intros i _; rewrite Qcmult_comm, <- sumQ_scale; apply sumQ_ext; intros j _; ring). rewrite sumQ_scale. reflexivity. }
  rewrite E. apply ClassicalMoments.square_nonneg.
Qed.
Definition qz (p : Z) (q : positive) : Qc := Q2Qc (p # q).
(** Tsirelson's bound with 7/10 for 1/sqrt 2: the squares of a0 - 7/10 (b0 + b1), a1 - 7/10 (b0 - b1), b0 and
    b1, where a0 = 2 A0 - 1, ... *)
Definition tsirelson : list (Qc * list Qc) :=
  [(1%Qc, [qz 2 5; qz 2 1; 0%Qc; qz (-7) 5; qz (-7) 5]); (1%Qc, [qz (-1) 1; 0%Qc; qz 2 1; qz (-7) 5; qz 7 5]);
   (qz 1 50, [qz (-1) 1; 0%Qc; 0%Qc; qz 2 1; 0%Qc]); (qz 1 50, [qz (-1) 1; 0%Qc; 0%Qc; 0%Qc; qz 2 1])].
Definition tsirelson_point : SDPSolveModel.dual_point :=
  {| SDPSolveModel.Z := fun i j => sumQ (map (fun q => fst q * (nth i (snd q) 0 * nth j (snd q) 0))%Qc tsirelson); SDPSolveModel.I := []; SDPSolveModel.E := [] |}.
Lemma tsirelson_psd n : SDPSolveSpec.psd n (SDPSolveModel.Z tsirelson_point).
Proof.
  apply (psd_mixed n tsirelson (fun t i j => (nth i t 0 * nth j t 0)%Qc)). intros q Hq. split; [|apply (square_psd n (fun i => nth i (snd q) 0%Qc))].
  destruct Hq as [<-|[<-|[<-|[<-|[]]]]]; cbn; discriminate.
Qed.
(** everything in [dual_ray] except positivity, for a point without multipliers *)
Definition ray_rows (t : SDPSolveModel.dual_task) (d : SDPSolveModel.dual_point) : bool :=
  (SDPSolveModel.d_ineq t =? 0) && (SDPSolveModel.d_eq t =? 0) && negb (SDPSolveModel.d_le t) &&
  forallb (fun q => Qc_eq_bool (match snd (fst (fst q)) with Some M => SDPSolveModel.mdot (SDPSolveModel.d_dim t) (SDPSolveModel.Z d) M | None => 0%Qc end) 0%Qc) (SDPSolveModel.d_rows t).
Definition pr_check : bool :=
  match bell_run false pr_box with
  | Some (r, s, a) => match SDPSolveModel.preprocess a with Some p => match SDPSolveModel.build_dual a p with Some t =>
      ray_rows t tsirelson_point && negb (SDPSolveModel.feas_as_optim a) && Qc_eq_bool (SDPSolveSpec.dual_value t tsirelson_point - SDPSolveModel.d_const t)%Qc (qz (-8) 5)
    | None => false end | None => false end
  | None => false end.

Lemma pr_checked : pr_check = true. Proof. vm_compute. reflexivity. Qed.
(** no quantum (or classical) realisation of the Bell scenario gives the maximally non-local correlations *)
Lemma pr_box_excluded : ~ has_moments bell_q 2 pr_box /\ ~ compatible_distribution bell_q pr_box.
Proof.
  pose proof pr_checked as H. unfold pr_check in H. destruct (bell_run false pr_box) as [[[r s] a]|] eqn:E; [|discriminate]. destruct (SDPSolveModel.preprocess a) as [p|] eqn:EP; [|discriminate]. destruct (SDPSolveModel.build_dual a p) as [t|] eqn:ET; [|discriminate].
  apply andb_prop in H as [H V]. apply andb_prop in H as [H EF]. apply Qc_eq_bool_correct in V. apply negb_true_iff in EF. unfold ray_rows in H. apply andb_prop in H as [H R]. apply andb_prop in H as [H DL]. apply andb_prop in H as [DI DE].
  apply Nat.eqb_eq in DI, DE. apply negb_true_iff in DL.
  apply (C44_exclusion_is_right bell_q [false; false] bell_cols _ [] pr_box false false [] false r s a 2 bell_q_ready bell_columns_good bell_entries (bell_run_is _ _ _ _ _ E)); [intros X; discriminate|].
  apply (dual_certificate a p t tsirelson_point EP ET EF); [|rewrite V; reflexivity]. split; [intros _; apply tsirelson_psd|]. split; [symmetry; exact DI|]. split; [intros y []|]. split; [symmetry; exact DE|].
  intros ci F A B Hr. rewrite DL. cbv zeta. cbn [SDPSolveModel.I SDPSolveModel.E tsirelson_point]. rewrite forallb_forall in R. specialize (R _ Hr). cbn [fst snd] in R. apply Qc_eq_bool_correct in R.
  assert (D0 : forall l : list Qc, SDPSolveModel.dotQ l [] = 0%Qc) by (intros [|z l]; reflexivity). rewrite !D0, R. ring.
Qed.
Example C44_pr_box_is_excluded : (forall L, ~ moments_of bell_q pr_box L) /\ ~ compatible_distribution bell_q pr_box /\ ~ quantum_distribution bell_q pr_box.
Proof.
  split; [|split; [apply pr_box_excluded|]].
  - intros L MQ. apply (proj1 pr_box_excluded). split; [reflexivity|]. exists L. split; [exact MQ|]. apply (C44_one_copy_moments_are_nonnegative bell_q 2 pr_box L (rd_wf _ bell_q_ready) bell_one_copy MQ).
  - intros QD. apply (proj1 pr_box_excluded). apply C44_quantum_distributions_have_moments; [apply bell_q_ready|exact QD|]. left. lia.
Qed.
(** the shared coin has moments, and the same relaxation accepts it *)
Lemma bell_coin_is_compatible : compatible_distribution bell_q coin.
Proof.
  split; [reflexivity|]. exists coin_model. split.
  - constructor.
    + intros k _. split; [intros wv [<-|[<-|[]]]; cbn; discriminate|apply Qc_eq_bool_correct; vm_compute; reflexivity].
    + intros k _. split; [intros wv [<-|[]]; cbn; discriminate|apply Qc_eq_bool_correct; vm_compute; reflexivity].
    + intros p u e x os Hp. destruct p as [|[|p]]; cbn in *; lia.
    + intros p u u' e x os Hp H. cbn [response coin_model]. rewrite (H 0 _ eq_refl); [reflexivity|]. left. destruct p as [|[|p]]; cbn in *; auto; lia.
  - intros a x Ha Hx. inversion Ha as [|a0 ? a' ? A0 Ha']; subst. inversion Ha' as [|a1 ? a'' ? A1 Ha'']; subst. inversion Ha''; subst.
    inversion Hx as [|x0 ? x' ? X0 Hx']; subst. inversion Hx' as [|x1 ? x'' ? X1 Hx'']; subst. inversion Hx''; subst.
    destruct (lt2 _ A0) as [-> | ->], (lt2 _ A1) as [-> | ->]; apply Qc_eq_bool_correct; vm_compute; reflexivity.
Qed.
Definition is_run (q : option (SDPMomentModel.relaxation * state * SDPSolveModel.sdp_args)) : bool := match q with Some _ => true | None => false end.
Example C44_coin_is_accepted : has_moments bell_q 2 coin /\
  exists r s a z, sdp_run bell_q [false; false] bell_cols (code_name bell_q ["A"; "B"] r NameModel.empty_book) [] (Some coin) false false [] true r s a /\ SDPSolveSpec.feasible a z /\ ~ says_incompatible a.
Proof.
  assert (HM := C44_compatible_distributions_have_moments bell_q 2 coin bell_q_ready bell_coin_is_compatible). split; [exact HM|]. destruct HM as (Sh & L & MQ & NH).
  assert (I : is_run (bell_run true coin) = true) by (vm_compute; reflexivity). destruct (bell_run true coin) as [[[r s] a]|] eqn:E; [|discriminate]. apply bell_run_is in E.
  assert (NT : no_tiny_values false false s) by (intros X; discriminate).
  destruct (C44_moments_are_a_point _ _ _ _ _ _ _ _ _ _ _ _ _ coin L 2 bell_q_ready bell_columns_good bell_entries E NT (some_is coin) Sh MQ NH) as (z & F & _). exists r, s, a, z. split; [exact E|]. split; [exact F|].
  intros X. apply (proj1 (C44_exclusion_is_right _ _ _ _ _ _ _ _ _ _ _ _ _ 2 bell_q_ready bell_columns_good bell_entries E NT X)). split; [exact Sh|]. exists L. auto.
Qed.

(** two qubits in the maximally entangled state; A measures Z or X, B measures 4/5 Z + 3/5 X or 4/5 Z - 3/5 X:
    the correlations, with Clauser-Horne-Shimony-Holt value 14/5, have moments and the relaxation accepts them *)
Definition qubit_observable (p x : nat) : Qc * Qc :=
  if p =? 0 then (if x =? 0 then (1%Qc, 0%Qc) else (0%Qc, 1%Qc)) else (if x =? 0 then (qz 4 5, qz 3 5) else (qz 4 5, qz (-3) 5)).
Definition qubit_matrix (cs : Qc * Qc) (r c : nat) : Qc := if r =? c then (if r =? 0 then fst cs else (- fst cs)%Qc) else snd cs.
Definition qubit_effect (p x o : nat) (r c : list nat) : C :=
  let q := qubit_matrix (qubit_observable p x) (nth 0 r 0) (nth 0 c 0) in
  let one := if nth 0 r 0 =? nth 0 c 0 then 1%Qc else 0%Qc in
  ((qz 1 2 * (one + if o =? 0%nat then q else - q))%Qc, 0%Qc).
Definition entangled_model : quantum_model :=
  {| q_value := fun _ => [(qz 1 2, 0)]; q_levels := fun _ _ => 2;
     q_state := fun _ _ t => if nth 0 t 0 =? nth 1 t 0 then C1 else C0;
     q_effect := fun p _ x _ o r c => qubit_effect p x o r c |}.
Definition correlator (x y : nat) : Qc := if x =? 0 then qz 4 5 else if y =? 0 then qz 3 5 else qz (-3) 5.
Definition entangled_box : ndarray :=
  {| nd_shape := [2; 2; 2; 2]; nd_at := fun ax => match ax with [a; b; x; y] => (qz 1 4 * (1 + if a =? b then correlator x y else - correlator x y))%Qc | _ => 0%Qc end |}.
Lemma Ceq (u v : C) : Qc_eq_bool (fst u) (fst v) = true -> Qc_eq_bool (snd u) (snd v) = true -> u = v.
Proof. intros H1 H2. apply injective_projections; apply Qc_eq_bool_correct; assumption. Qed.
Example C44_entangled_box : quantum_distribution bell_q entangled_box /\ has_moments bell_q 2 entangled_box /\
  exists r s a, sdp_run bell_q [false; false] bell_cols (code_name bell_q ["A"; "B"] r NameModel.empty_book) [] (Some entangled_box) false false [] true r s a /\ ~ says_incompatible a.
Proof.
  assert (QD : quantum_distribution bell_q entangled_box).
  { split; [reflexivity|]. exists entangled_model. split; [constructor|].
    - intros k wv _ [<-|[]]. cbn. discriminate.
    - intros k Hk. destruct k as [|k]; [|cbn in Hk; lia]. apply Qc_eq_bool_correct. vm_compute. reflexivity.
    - intros p vs x os o r c Hp Ho Hr Hc. destruct p as [|[|p]]; [| |cbn in Hp; lia]; destruct (lt2 _ Ho) as [-> | ->]; destruct x as [|x]; destruct Hr as [<-|[<-|[]]], Hc as [<-|[<-|[]]]; apply Ceq; vm_compute; reflexivity.
    - intros p vs x os o o' r c Hp Ho Ho' Hr Hc. destruct p as [|[|p]]; [| |cbn in Hp; lia]; destruct (lt2 _ Ho) as [-> | ->]; destruct (lt2 _ Ho') as [-> | ->]; destruct x as [|x]; destruct Hr as [<-|[<-|[]]], Hc as [<-|[<-|[]]]; apply Ceq; vm_compute; reflexivity.
    - intros p vs x os r c Hp Hr Hc. destruct p as [|[|p]]; [| |cbn in Hp; lia]; destruct x as [|x]; destruct Hr as [<-|[<-|[]]], Hc as [<-|[<-|[]]]; apply Ceq; vm_compute; reflexivity.
    - intros a x Ha Hx. inversion Ha as [|a0 ? a' ? A0 Ha']; subst. inversion Ha' as [|a1 ? a'' ? A1 Ha'']; subst. inversion Ha''; subst.
      inversion Hx as [|x0 ? x' ? X0 Hx']; subst. inversion Hx' as [|x1 ? x'' ? X1 Hx'']; subst. inversion Hx''; subst.
      destruct (lt2 _ A0) as [-> | ->], (lt2 _ A1) as [-> | ->], (lt2 _ X0) as [-> | ->], (lt2 _ X1) as [-> | ->]; apply Qc_eq_bool_correct; vm_compute; reflexivity. }
  split; [exact QD|]. split; [apply C44_quantum_distributions_have_moments; [apply bell_q_ready|exact QD|left; lia]|].
  assert (I : is_run (bell_run true entangled_box) = true) by (vm_compute; reflexivity). destruct (bell_run true entangled_box) as [[[r s] a]|] eqn:E; [|discriminate]. apply bell_run_is in E. exists r, s, a. split; [exact E|].
  apply (C44_quantum_distributions_are_not_excluded _ _ _ _ _ _ _ _ _ _ _ _ _ bell_q_ready bell_columns_good (or_intror (or_intror bell_one_copy)) E); [intros X; discriminate|exact QD].
Qed.

(** no classical model gives them: the classical relaxation (with the Clauser-Horne inequality) says so *)
Definition entangled_check : bool :=
  match full_run bell_sc entangled_box false false true with
  | Some (r, s, a, t, d) => PropSolve.task_feasible_b d ch_multipliers &&
      Qc_eq_bool (certificate_value r (LPSolveModel.certificate a t (map ch_multipliers (seq 0 (LPSolveModel.t_numvar d)))) (known s)) (qz (-1) 5)
  | None => false end.
Lemma entangled_checked : entangled_check = true. Proof. vm_compute. reflexivity. Qed.
Example C44_entangled_box_is_not_classical : ~ compatible_distribution bell_sc entangled_box.
Proof.
  pose proof entangled_checked as H. unfold entangled_check in H. destruct (full_run bell_sc entangled_box false false true) as [((((r & s) & a) & t) & d)|] eqn:E; [|discriminate]. apply andb_prop in H as [F V]. apply Qc_eq_bool_correct in V.
  destruct (full_run_is _ _ _ _ _ _ _ _ _ _ E) as [RUN ED].
  apply (C43_negative_certificate_means_incompatible _ _ _ _ _ _ _ _ _ _ _ _ _ _ _ _ _ _ _ _ _ _ _ bell_ready (or_introl eq_refl) RUN RUN (from_dual a t d ch_multipliers ED (PropSolve.task_feasible_b_ok _ _ F))).
  rewrite V. reflexivity.
Qed.

(** ** Two copies of the quantum source: the relaxation of level 1 of the inflation accepts the same correlations *)
Definition bell_q2 : scenario :=
  {| outcomes := [2; 2]; private_settings := [2; 2]; parents := [[]; []];
     sources := [{| s_classical := false; s_children := [0; 1]; s_latents := [] |}]; levels := [2] |}.
Lemma bell_q2_ready : ready bell_q2.
Proof.
  constructor.
  - constructor; try reflexivity.
    + intros ps q [<-|[<-|[]]] [].
    + intros m [<-|[]]; lia.
    + intros p Hp. exists {| s_classical := false; s_children := [0; 1]; s_latents := [] |}. split; [left; reflexivity|]. left. destruct p as [|[|p]]; cbn in *; auto; lia.
  - exists (fun _ => 0). intros p q Hp Hq. destruct p as [|[|p]]; cbn in *; try contradiction; lia.
  - intros o [<-|[<-|[]]]; lia.
  - intros o [<-|[<-|[]]]; lia.
  - cbn. lia.
  - unfold few_copies. vm_compute. repeat constructor.
Qed.
Definition bell_cols2 : list word := [[]; [1]; [3]; [5]; [7]; [9]; [11]; [13]; [15]].
Lemma bell_columns2 : ColsModel.build_columns bell_q2 [false; false] false (ColsModel.Npa 1) 0 = Some bell_cols2.
Proof. vm_compute. reflexivity. Qed.
Lemma bell_columns2_good : good_columns (sdp_notcomm bell_q2) (sdp_orthomat bell_q2) (S (List.length (lexorder bell_q2))) bell_cols2.
Proof.
  destruct (PropCols.C33_npa bell_q2 [false; false] false 1 0 (rd_wf _ bell_q2_ready)) as (cols & E & _ & G).
  - discriminate.
  - intros src l p q [<-|[]] _ [].
  - rewrite bell_columns2 in E. assert (cols = bell_cols2) as -> by congruence. exact G.
Qed.
Lemma bell_q2_safe : quantum_safe bell_q2 bell_cols2.
Proof. left. intros w H. repeat (destruct H as [<-|H]; [cbn; lia|]). destruct H. Qed.
Definition bell_run2 (arr : ndarray) : option (SDPMomentModel.relaxation * state * SDPSolveModel.sdp_args) :=
  match SDPMomentModel.generate bell_q2 [false; false] false bell_cols2 with None => None | Some r =>
  match generated sdp (SDPMomentModel.r_context r) with None => None | Some s0 =>
  match SDPMomentModel.set_distribution bell_q2 r (Some arr) false false s0 with None => None | Some s =>
  match solver_args (code_name bell_q2 ["A"; "B"] r NameModel.empty_book) r true s with None => None | Some a => Some (r, s, a) end end end end.
Lemma bell_run2_is arr r s a : bell_run2 arr = Some (r, s, a) -> sdp_run bell_q2 [false; false] bell_cols2 (code_name bell_q2 ["A"; "B"] r NameModel.empty_book) [] (Some arr) false false [] true r s a.
Proof.
  unfold bell_run2. destruct (SDPMomentModel.generate bell_q2 [false; false] false bell_cols2) as [r'|] eqn:ER; [|discriminate]. destruct (generated sdp (SDPMomentModel.r_context r')) as [s0|] eqn:E0; [|discriminate].
  destruct (SDPMomentModel.set_distribution bell_q2 r' (Some arr) false false s0) as [s'|] eqn:ES; [|discriminate]. destruct (solver_args _ _ _ _) as [a'|] eqn:EA; [|discriminate].
  intros Q. assert (r' = r) by congruence. assert (s' = s) by congruence. assert (a' = a) by congruence. subst r' s' a'. constructor; [exact ER| |constructor|constructor| |exact EA].
  - apply (C44_names bell_q2 [false; false] bell_cols2 r ["A"; "B"] [] NameModel.empty_book bell_q2_ready bell_columns2_good ER); [|constructor|reflexivity].
    split; [reflexivity|repeat constructor; cbn; intuition discriminate|intros t [<-|[<-|[]]]; reflexivity|intros ps [<-|[<-|[]]]; repeat constructor].
  - exists s0, s0, s. auto.
Qed.
Example C44_entangled_box_inflated : quantum_distribution bell_q2 entangled_box /\ ~ (forall a b, sdp_notcomm bell_q2 a b = false) /\
  exists r s a, sdp_run bell_q2 [false; false] bell_cols2 (code_name bell_q2 ["A"; "B"] r NameModel.empty_book) [] (Some entangled_box) false false [] true r s a /\ ~ says_incompatible a.
Proof.
  assert (QD : quantum_distribution bell_q2 entangled_box) by (destruct C44_entangled_box as ((Sh & m & [M1 M2 M3 M4 M5] & E) & _); split; [exact Sh|]; exists m; split; [constructor; assumption|exact E]).
  split; [exact QD|]. split; [intros H; specialize (H 1 3); vm_compute in H; discriminate|].
  assert (I : is_run (bell_run2 entangled_box) = true) by (vm_compute; reflexivity). destruct (bell_run2 entangled_box) as [[[r s] a]|] eqn:E; [|discriminate]. apply bell_run2_is in E. exists r, s, a. split; [exact E|].
  apply (C44_quantum_distributions_are_not_excluded _ _ _ _ _ _ _ _ _ _ _ _ _ bell_q2_ready bell_columns2_good bell_q2_safe E); [intros X; discriminate|exact QD].
Qed.

(** ** A bound: the Clauser-Horne expression A0 B0 + A0 B1 + A1 B0 - A1 B1 - A0 - B0, without a distribution *)
Definition ch_items : list (moment * Qc) := [([1], (- (1))%Qc); ([3], (- (1))%Qc); ([6], 1%Qc); ([7], 1%Qc); ([9], 1%Qc); ([10], (- (1))%Qc)].
Definition bell_objective_run : option (SDPMomentModel.relaxation * state * SDPSolveModel.sdp_args) :=
  match SDPMomentModel.generate bell_q [false; false] false bell_cols with None => None | Some r =>
  match generated sdp (SDPMomentModel.r_context r) with None => None | Some s0 =>
  match run sdp (SDPMomentModel.r_context r) [SetObjective (Some ch_items) true] (Some s0) with None => None | Some s1 =>
  match SDPMomentModel.set_distribution bell_q r None false false s1 with None => None | Some s =>
  match solver_args (code_name bell_q ["A"; "B"] r NameModel.empty_book) r false s with None => None | Some a => Some (r, s, a) end end end end end.
Lemma bell_objective_run_is r s a : bell_objective_run = Some (r, s, a) ->
  sdp_run bell_q [false; false] bell_cols (code_name bell_q ["A"; "B"] r NameModel.empty_book) [SetObjective (Some ch_items) true] None false false [] false r s a.
Proof.
  unfold bell_objective_run. destruct (SDPMomentModel.generate bell_q [false; false] false bell_cols) as [r'|] eqn:ER; [|discriminate]. destruct (generated sdp (SDPMomentModel.r_context r')) as [s0|] eqn:E0; [|discriminate].
  destruct (run sdp _ _ _) as [s1|] eqn:E1; [|discriminate]. destruct (SDPMomentModel.set_distribution bell_q r' None false false s1) as [s'|] eqn:ES; [|discriminate]. destruct (solver_args _ _ _ _) as [a'|] eqn:EA; [|discriminate].
  intros Q. assert (r' = r) by congruence. assert (s' = s) by congruence. assert (a' = a) by congruence. subst r' s' a'. constructor; [exact ER| |repeat constructor|constructor| |exact EA].
  - apply (C44_names bell_q [false; false] bell_cols r ["A"; "B"] [] NameModel.empty_book bell_q_ready bell_columns_good ER); [|constructor|reflexivity].
    split; [reflexivity|repeat constructor; cbn; intuition discriminate|intros t [<-|[<-|[]]]; reflexivity|intros ps [<-|[<-|[]]]; repeat constructor].
  - exists s0, s1, s. auto.
Qed.
(** the same squares with 70/99 for 1/sqrt 2, divided by 8 * 70/99 *)
Definition ch_squares : list (Qc * list Qc) :=
  [(qz 99 560, [qz 41 99; qz 2 1; 0%Qc; qz (-140) 99; qz (-140) 99]); (qz 99 560, [qz (-1) 1; 0%Qc; qz 2 1; qz (-140) 99; qz 140 99]);
   (qz 1 55440, [qz (-1) 1; 0%Qc; 0%Qc; qz 2 1; 0%Qc]); (qz 1 55440, [qz (-1) 1; 0%Qc; 0%Qc; 0%Qc; qz 2 1])].
Definition ch_point : SDPSolveModel.dual_point :=
  {| SDPSolveModel.Z := fun i j => sumQ (map (fun q => fst q * (nth i (snd q) 0 * nth j (snd q) 0))%Qc ch_squares); SDPSolveModel.I := repeat 0%Qc 8; SDPSolveModel.E := [] |}.
Definition feasible_rows (t : SDPSolveModel.dual_task) (d : SDPSolveModel.dual_point) : bool :=
  (SDPSolveModel.d_ineq t =? 8) && (SDPSolveModel.d_eq t =? 0) && negb (SDPSolveModel.d_le t) &&
  forallb (fun q => Qc_eq_bool (fst (fst (fst q)) + match snd (fst (fst q)) with Some M => SDPSolveModel.mdot (SDPSolveModel.d_dim t) (SDPSolveModel.Z d) M | None => 0%Qc end)%Qc 0%Qc) (SDPSolveModel.d_rows t).
Definition ch_check : bool :=
  match bell_objective_run with
  | Some (r, s, a) => match SDPSolveModel.preprocess a with Some p => match SDPSolveModel.build_dual a p with Some t =>
      feasible_rows t ch_point && negb (SDPSolveModel.feas_as_optim a) && Qc_eq_bool (SDPSolveSpec.dual_value t ch_point) (qz 29 140)
    | None => false end | None => false end
  | None => false end.
Lemma ch_checked : ch_check = true. Proof. vm_compute. reflexivity. Qed.
Lemma dot_zeros k : forall l, SDPSolveModel.dotQ l (repeat 0%Qc k) = 0%Qc.
Proof.
  induction k as [|k IH]; intros [|z l]; try reflexivity. cbn [repeat SDPSolveModel.dotQ]. rewrite IH. ring.
Qed.
(** in every quantum realisation of the Bell scenario the expression is at most 29/140 = 0.2071... (Tsirelson's bound is (sqrt 2 - 1)/2) *)
Example C44_tsirelson_bound : exists r s a,
  sdp_run bell_q [false; false] bell_cols (code_name bell_q ["A"; "B"] r NameModel.empty_book) [SetObjective (Some ch_items) true] None false false [] false r s a /\
  forall arr L, nd_shape arr = [2; 2; 2; 2] -> moments_of bell_q arr L -> (expr_at (mean_of r L) (ProgramModel.objective s) <= qz 29 140)%Qc.
Proof.
  pose proof ch_checked as H. unfold ch_check in H. destruct bell_objective_run as [[[r s] a]|] eqn:E; [|discriminate]. destruct (SDPSolveModel.preprocess a) as [p|] eqn:EP; [|discriminate]. destruct (SDPSolveModel.build_dual a p) as [t|] eqn:ET; [|discriminate].
  exists r, s, a. apply bell_objective_run_is in E. split; [exact E|]. intros arr L Sh MQ.
  apply andb_prop in H as [H V]. apply andb_prop in H as [H EF]. apply Qc_eq_bool_correct in V. apply negb_true_iff in EF. unfold feasible_rows in H. apply andb_prop in H as [H R]. apply andb_prop in H as [H DL]. apply andb_prop in H as [DI DE].
  apply Nat.eqb_eq in DI, DE. apply negb_true_iff in DL. rewrite <- V.
  apply (C44_bounds_hold bell_q [false; false] bell_cols _ _ None false false [] false r s a arr L _ 2 bell_q_ready bell_columns_good bell_entries E); [intros X; discriminate|intros y X; discriminate|exact Sh|exact MQ| |exact EF|].
  - apply (C44_one_copy_moments_are_nonnegative bell_q 2 arr L (rd_wf _ bell_q_ready)); [intros k [<-|[]]; reflexivity|exact MQ].
  - apply (dual_bound a p t ch_point EP ET). split; [intros _; apply (psd_mixed _ ch_squares (fun t i j => (nth i t 0 * nth j t 0)%Qc)); intros q Hq; split; [|apply (square_psd _ (fun i => nth i (snd q) 0%Qc))]; destruct Hq as [<-|[<-|[<-|[<-|[]]]]]; cbn; discriminate|].
    split; [symmetry; exact DI|]. split; [intros y Hy; apply repeat_spec in Hy; subst y; apply Qcle_refl|]. split; [symmetry; exact DE|].
    intros ci F A B Hr. rewrite DL. cbv zeta. cbn [SDPSolveModel.I SDPSolveModel.E ch_point]. rewrite forallb_forall in R. specialize (R _ Hr). cbn [fst snd] in R. apply Qc_eq_bool_correct in R.
    rewrite dot_zeros. assert (D0 : SDPSolveModel.dotQ B [] = 0%Qc) by (destruct B; reflexivity). rewrite D0, R. ring.
Qed.

Print Assumptions C44_compatible_distributions_have_moments.
Print Assumptions C44_mixtures_have_moments.
Print Assumptions C44_commuting_moments_are_nonnegative.
Print Assumptions C44_one_copy_moments_are_nonnegative.
Print Assumptions C44_quantum_distributions_have_moments.
Print Assumptions C44_quantum_mixtures_have_moments.
Print Assumptions C44_programmes_are_built.
Print Assumptions C44_names.
Print Assumptions C44_moments_are_a_point.
Print Assumptions C44_mixtures_are_feasible_with_shared_randomness.
Print Assumptions C44_exclusion_is_right.
Print Assumptions C44_exclusion_is_right_with_shared_randomness.
Print Assumptions C44_quantum_distributions_are_not_excluded.
Print Assumptions C44_quantum_mixtures_are_not_excluded_with_shared_randomness.
Print Assumptions C44_bounds_hold.
Print Assumptions C44_certificates_hold.
Print Assumptions C44_certificates_hold_for_mixtures.
Print Assumptions C44_negative_certificate_excludes.
Print Assumptions C44_certificates_hold_for_quantum_distributions.
Print Assumptions C44_bell_columns.
Print Assumptions C44_pr_box_is_excluded.
Print Assumptions C44_coin_is_accepted.
Print Assumptions C44_entangled_box.
Print Assumptions C44_entangled_box_is_not_classical.
Print Assumptions C44_entangled_box_inflated.
Print Assumptions C44_tsirelson_bound.
