(** C45 for semidefinite programmes: InflationSDP(supports_problem = True) never declares the support of
    a possible distribution impossible. *)
From Coq Require Import Permutation QArith Qcanon List Arith Bool Lia Sorted String Ascii.
From Verif Require Import CanonModel CanonSpec MomentModel MomentSpec ScenarioModel ScenarioSpec SymModel SymSpec
  MargModel QcSum ColumnModel ColumnSpec NameModel NameSpec ProgramModel ProgramSpec ProgramProofs QuantumSpec QInflationSpec SDPMomentModel SDPRunSpec CausalSpec SoundProofs PropSound SupportSpec SupportSDPSpec QModelSpec QMomentLengths PropSoundSDP PropSupport.
From Verif Require QMomentProofs3 QMomentProofs12 QMomentProofs14 QMomentProofs6 SupportProofs2 SupportProofs3 SupportProofs4 SupportProofs5 SupportProofs6 SupportProofs7 SDPSolveModel SDPSolveSpec PropCols ColsModel PropName.
Import ListNotations.
Close Scope Q_scope. Close Scope Qc_scope. Open Scope string_scope. Open Scope nat_scope. Open Scope list_scope.

(** the events of [arr] are those of a distribution that a quantum model of the scenario gives *)
Definition quantum_support (sc : scenario) (arr : ndarray) : Prop := exists x, quantum_distribution sc x /\ same_support sc arr x.
Definition quantum_support_shared (sc : scenario) (arr : ndarray) : Prop := exists x, mixture_of_quantum sc x /\ same_support sc arr x.

Section Run.
Variables (sc : scenario) (RD : ready sc) (cols : list word) (GC : good_columns (sdp_notcomm sc) (sdp_orthomat sc) (S (List.length (lexorder sc))) cols) (k : nat) (EK : entries_to cols k).
Variables (hc : list bool) (nm : moment -> SDPSolveModel.name) (arr : ndarray) (lpi shared feas : bool) (r : SDPMomentModel.relaxation) (s : state) (a : SDPSolveModel.sdp_args).
Variables (RUN : sdp_supports_run sc hc cols nm arr lpi shared feas r s a) (Sh : nd_shape arr = outcomes sc ++ private_settings sc).
Lemma accepted x : same_support sc arr x -> nd_shape x = outcomes sc ++ private_settings sc -> (exists z, SDPSolveSpec.feasible a z) -> ~ says_incompatible a.
Proof.
  intros SS Sh' (z & F). destruct RD as [W AC Hout Hset Np FC]. apply (feasible_not_excluded a z).
  - exact (SupportProofs6.supports_wf sc W FC Hout Hset cols GC hc nm arr lpi shared feas r s a RUN x Sh Sh' SS).
  - exact (SupportProofs6.supports_lambda sc W FC cols GC hc nm arr lpi shared feas r s a RUN).
  - exact (SupportProofs6.supports_masks sc cols hc nm arr lpi shared feas r s a RUN).
  - rewrite (SupportProofs6.args_are sc cols hc nm arr lpi shared feas r s a RUN). reflexivity.
  - exact F.
Qed.
Lemma feasible_support x : small_is_zero s -> has_moments sc k x -> same_support sc arr x -> exists z, SDPSolveSpec.feasible a z.
Proof.
  intros Z (Sh' & L & MQ & NH) SS. destruct RD as [W AC Hout Hset Np FC]. assert (GE := sp_generate _ _ _ _ _ _ _ _ _ _ _ RUN). apply (nonneg_entries sc cols k L EK) in NH.
  apply (SupportProofs6.support_feasible sc W FC Hout Hset cols GC hc nm arr lpi shared feas r s a RUN x Sh Sh' SS (QMomentProofs6.moment_mean r L)); [exact (SupportProofs5.good_mean sc W FC Hout cols GC hc r GE x L MQ NH)|reflexivity| |exact Z].
  intros values sp EV ESP. destruct (SupportProofs4.values_other sc W FC Hset cols GC hc r GE arr x SS Sh Sh') as (values' & EV').
  exact (SupportProofs4.mean_matches sc W FC Hset cols GC hc r GE x Sh' L MQ lpi shared SupportProofs3.empty_state sp values values' (SupportProofs4.values_pair sc W FC Hset cols GC hc r GE arr x SS Sh Sh' values values' EV EV') EV' ESP).
Qed.
Lemma feasible_mixture x : shared = true -> small_is_zero s -> mixture_with_moments sc k x -> same_support sc arr x -> exists z, SDPSolveSpec.feasible a z.
Proof.
  intros SHR Z (Sh' & l & HL & T & MX) SS. destruct RD as [W AC Hout Hset Np FC]. assert (GE := sp_generate _ _ _ _ _ _ _ _ _ _ _ RUN). destruct (mixture_list sc k l HL) as (l' & EL & HL0).
  assert (HL' : forall q, In q l' -> (0 <= fst q)%Qc /\ moments_of sc (fst (snd q)) (snd (snd q)) /\ nonnegative_hermitian sc (2 * longest cols) (snd (snd q))) by (intros q Hq; destruct (HL0 q Hq) as (X1 & X2 & X3); split; [exact X1|split; [exact X2|exact (nonneg_entries sc cols k _ EK X3)]]). subst l.
  assert (T' : sumQ (map fst l') = 1%Qc) by (rewrite map_map in T; exact T).
  assert (MX' : forall a i, Forall2 lt a (outcomes sc) -> Forall2 lt i (private_settings sc) -> nd_at x (a ++ i) = sumQ (map (fun q => fst q * nd_at (fst (snd q)) (a ++ i))%Qc l')) by (intros o i Ho Hi; rewrite (MX o i Ho Hi), map_map; reflexivity).
  apply (SupportProofs6.support_feasible sc W FC Hout Hset cols GC hc nm arr lpi shared feas r s a RUN x Sh Sh' SS (QMomentProofs14.mixed l' (fun q m => QMomentProofs6.moment_mean r (snd q) m))); [| | |exact Z].
  - apply SupportProofs5.good_mixture. intros q Hq. destruct (HL' q Hq) as (X1 & X2 & X3). split; [exact X1|]. exact (SupportProofs5.good_mean sc W FC Hout cols GC hc r GE _ _ X2 X3).
  - unfold QMomentProofs14.mixed. transitivity (sumQ (map fst l')); [|exact T']. apply sumQ_ext. intros q _. unfold QMomentProofs6.moment_mean, QMomentProofs3.cmoment. cbn. ring.
  - intros values sp EV ESP. rewrite SHR in ESP. destruct (SupportProofs4.values_other sc W FC Hset cols GC hc r GE arr x SS Sh Sh') as (values' & EV').
    exact (SupportProofs4.mixed_matches sc W FC Hset cols GC hc r GE x Sh' l' HL' T' MX' lpi SupportProofs3.empty_state sp values values' (SupportProofs4.values_pair sc W FC Hset cols GC hc r GE arr x SS Sh Sh' values values' EV EV') EV' ESP).
Qed.
End Run.

(** ** Possible supports are never declared impossible *)
Theorem C45_sdp_possible_supports_are_feasible sc hc cols nm arr lpi shared feas r s a k x : ready sc -> good_columns (sdp_notcomm sc) (sdp_orthomat sc) (S (List.length (lexorder sc))) cols -> entries_to cols k ->
  sdp_supports_run sc hc cols nm arr lpi shared feas r s a -> nd_shape arr = outcomes sc ++ private_settings sc -> small_is_zero s ->
  same_support sc arr x -> has_moments sc k x \/ (shared = true /\ mixture_with_moments sc k x) -> exists z, SDPSolveSpec.feasible a z.
Proof.
  intros RD GC EK RUN Sh Z SS [HM|[E HM]]; [exact (feasible_support sc RD cols GC k EK hc nm arr lpi shared feas r s a RUN Sh x Z HM SS)|exact (feasible_mixture sc RD cols GC k EK hc nm arr lpi shared feas r s a RUN Sh x E Z HM SS)].
Qed.
Theorem C45_sdp_exclusion_is_right sc hc cols nm arr lpi shared feas r s a : ready sc -> good_columns (sdp_notcomm sc) (sdp_orthomat sc) (S (List.length (lexorder sc))) cols ->
  sdp_supports_run sc hc cols nm arr lpi shared feas r s a -> nd_shape arr = outcomes sc ++ private_settings sc -> small_is_zero s ->
  says_incompatible a -> ~ possible_support sc arr /\ (shared = true -> ~ possible_support_shared sc arr) /\
                         (quantum_safe sc cols -> ~ quantum_support sc arr /\ (shared = true -> ~ quantum_support_shared sc arr)).
Proof.
  intros RD GC RUN Sh Z X.
  assert (A : forall k x, entries_to cols k -> same_support sc arr x -> nd_shape x = outcomes sc ++ private_settings sc -> has_moments sc k x \/ (shared = true /\ mixture_with_moments sc k x) -> False).
  { intros k x EK SS Sh' HM. apply (accepted sc RD cols GC hc nm arr lpi shared feas r s a RUN Sh x SS Sh'); [|exact X]. exact (C45_sdp_possible_supports_are_feasible sc hc cols nm arr lpi shared feas r s a k x RD GC EK RUN Sh Z SS HM). }
  assert (EL : entries_to cols (2 * longest cols)) by (intros w Hw; apply In_nth with (d := []) in Hw as (i & Hi & <-); assert (Q := longest_le cols i); unfold word in *; lia).
  split; [|split].
  - intros (x & CD & SS). apply (A _ x EL SS (proj1 CD)). left. apply C44_compatible_distributions_have_moments; assumption.
  - intros E (x & CD & SS). apply (A _ x EL SS (proj1 CD)). right. split; [exact E|]. apply C44_mixtures_have_moments; assumption.
  - intros QS. destruct (safe_bound sc cols QS) as (k & EK & HK). split.
    + intros (x & QD & SS). apply (A k x EK SS (proj1 QD)). left. apply C44_quantum_distributions_have_moments; assumption.
    + intros E (x & QD & SS). apply (A k x EK SS (proj1 QD)). right. split; [exact E|]. apply C44_quantum_mixtures_have_moments; assumption.
Qed.
(** In tables of possibilities (0, or at least 1) the code takes nothing but zero for zero. *)
Theorem C45_sdp_tables_have_no_small_values sc hc cols nm arr lpi shared feas r s a : ready sc -> good_columns (sdp_notcomm sc) (sdp_orthomat sc) (S (List.length (lexorder sc))) cols ->
  sdp_supports_run sc hc cols nm arr lpi shared feas r s a -> nd_shape arr = outcomes sc ++ private_settings sc -> possibility_table sc arr -> small_is_zero s.
Proof. intros [W AC Hout Hset Np FC] GC RUN Sh PT. exact (SupportProofs7.table_known_zero sc W FC Hset cols GC hc nm arr lpi shared feas r s a RUN Sh PT). Qed.
(** the names of the code are names as the runs ask for *)
Theorem C45_sdp_names sc hc cols r names h b : ready sc -> good_columns (sdp_notcomm sc) (sdp_orthomat sc) (S (List.length (lexorder sc))) cols ->
  SDPMomentModel.generate sc hc true cols = Some r -> good_names sc names -> Forall (PropName.proper_step sc) h ->
  NameModel.do_steps sc names (NameModel.code_conj sc (operators_commute sc)) h NameModel.empty_book = Some b -> good_naming r (code_name sc names r b).
Proof. intros [W AC Hout Hset Np FC] GC GE. exact (QMomentProofs12.code_names_good sc W FC cols GC hc r GE names h b). Qed.

(** ** Examples *)
(** The events a + b = x y are no support in the quantum Bell scenario, whatever their probabilities.
    Certificate: with d1 = A1 - B0, d2 = B0 - A0 and d3 = A0 - B1 (A0 for the operator of outcome 0 of
    setting 0 of A, ...), 3 (d1^2 + d2^2 + d3^2) - (d1 + d2 + d3)^2 is the sum of the squares of d1 - d2,
    d2 - d3 and d1 - d3; the first part is zero by the impossible events, and the second is at least 2. *)
Definition bell_all : list word := [[]; [1]; [2]; [3]; [4]; [5]; [6]; [7]; [8]].
Example C45_sdp_columns : ColsModel.build_columns bell_q [true; true] false (ColsModel.Npa 1) 0 = Some bell_all.
Proof. vm_compute. reflexivity. Qed.
Lemma bell_all_good : good_columns (sdp_notcomm bell_q) (sdp_orthomat bell_q) (S (List.length (lexorder bell_q))) bell_all.
Proof.
  destruct (PropCols.C33_npa bell_q [true; true] false 1 0 (rd_wf _ bell_q_ready)) as (cols & E & _ & G).
  - discriminate.
  - intros src l p q [<-|[]] _ [].
  - rewrite C45_sdp_columns in E. assert (cols = bell_all) as -> by congruence. exact G.
Qed.
Notation bell_name := (fun r => code_name bell_q ["A"; "B"] r NameModel.empty_book).
Definition bell_support_run (feas : bool) (arr : ndarray) : option (SDPMomentModel.relaxation * state * SDPSolveModel.sdp_args) :=
  match SDPMomentModel.generate bell_q [true; true] true bell_all with None => None | Some r =>
  match generated sdp (SDPMomentModel.r_context r) with None => None | Some s0 =>
  match SDPMomentModel.set_distribution bell_q r (Some arr) false false s0 with None => None | Some s =>
  match solver_args (bell_name r) r feas s with None => None | Some a => Some (r, s, a) end end end end.
Lemma bell_support_run_is feas arr r s a : bell_support_run feas arr = Some (r, s, a) -> sdp_supports_run bell_q [true; true] bell_all (bell_name r) arr false false feas r s a.
Proof.
  unfold bell_support_run. destruct (SDPMomentModel.generate bell_q [true; true] true bell_all) as [r'|] eqn:ER; [|discriminate]. destruct (generated sdp (SDPMomentModel.r_context r')) as [s0|] eqn:E0; [|discriminate].
  destruct (SDPMomentModel.set_distribution bell_q r' (Some arr) false false s0) as [s'|] eqn:ES; [|discriminate]. destruct (solver_args _ _ _ _) as [a'|] eqn:EA; [|discriminate].
  intros Q. assert (r' = r) by congruence. assert (s' = s) by congruence. assert (a' = a) by congruence. subst r' s' a'. constructor; [exact ER| | |exact EA].
  - apply (C45_sdp_names bell_q [true; true] bell_all r ["A"; "B"] [] NameModel.empty_book bell_q_ready bell_all_good ER); [|constructor|reflexivity].
    split; [reflexivity|repeat constructor; cbn; intuition discriminate|intros t [<-|[<-|[]]]; reflexivity|intros ps [<-|[<-|[]]]; repeat constructor].
  - exists s0. auto.
Qed.
Definition zs (l : list Z) : list Qc := map (fun z => Q2Qc (inject_Z z)) l.
Definition chain_squares : list (Qc * list Qc) :=
  [(1%Qc, zs [0; 1; 0; 1; 0; -2; 0; 0; 0]%Z); (1%Qc, zs [0; -2; 0; 0; 0; 1; 0; 1; 0]%Z); (1%Qc, zs [0; -1; 0; 1; 0; -1; 0; 1; 0]%Z)].
Definition chain_point : SDPSolveModel.dual_point :=
  {| SDPSolveModel.Z := fun i j => sumQ (map (fun q => fst q * (nth i (snd q) 0 * nth j (snd q) 0))%Qc chain_squares);
     SDPSolveModel.I := zs [0; 0; 0; 1; 0; 0; 0; 1; 0; 0; 0; 0; 0; 0; 0; 0; 0]%Z;
     SDPSolveModel.E := zs [0; 0; 0; -3; 0; -3; 0; 0; 0; 0; -3; 0; 0; 0; 0; -3; 0; -3; 0; 0; 0; 0; -3; 0; 0; 0; 0; 0]%Z |}.
Lemma chain_psd n : SDPSolveSpec.psd n (SDPSolveModel.Z chain_point).
Proof.
  apply (QMomentProofs14.psd_mixed n chain_squares (fun t i j => (nth i t 0 * nth j t 0)%Qc)). intros q Hq. split; [|apply (square_psd n (fun i => nth i (snd q) 0%Qc))].
  destruct Hq as [<-|[<-|[<-|[]]]]; cbn; discriminate.
Qed.
(** everything in [dual_ray] except positivity of the matrix *)
Definition ray_check (t : SDPSolveModel.dual_task) (d : SDPSolveModel.dual_point) : bool :=
  (List.length (SDPSolveModel.I d) =? SDPSolveModel.d_ineq t) && (List.length (SDPSolveModel.E d) =? SDPSolveModel.d_eq t) && negb (SDPSolveModel.d_le t) && forallb (fun y => SearchModel.qleb 0 y) (SDPSolveModel.I d) &&
  forallb (fun q => Qc_eq_bool ((match snd (fst (fst q)) with Some M => SDPSolveModel.mdot (SDPSolveModel.d_dim t) (SDPSolveModel.Z d) M | None => 0 end)
    + SDPSolveModel.dotQ (snd (fst q)) (SDPSolveModel.I d) + SDPSolveModel.dotQ (snd q) (SDPSolveModel.E d))%Qc 0%Qc) (SDPSolveModel.d_rows t).
Lemma ray_checked t d : ray_check t d = true -> (forall n, SDPSolveSpec.psd n (SDPSolveModel.Z d)) -> SDPSolveSpec.dual_ray t d.
Proof.
  intros H P. unfold ray_check in H. apply andb_prop in H as [H R]. apply andb_prop in H as [H Y]. apply andb_prop in H as [H DL]. apply andb_prop in H as [DI DE]. apply Nat.eqb_eq in DI, DE. apply negb_true_iff in DL. rewrite forallb_forall in R, Y.
  split; [intros _; apply P|]. split; [exact DI|]. split; [intros y Hy; apply SearchProofs.qleb_true, Y, Hy|]. split; [exact DE|].
  intros ci F A B Hr. rewrite DL. specialize (R _ Hr). cbn [fst snd] in R. apply Qc_eq_bool_correct in R. exact R.
Qed.
Definition chain_check : bool :=
  match bell_support_run false pr_table with
  | Some (r, s, a) => match SDPSolveModel.preprocess a with Some p => match SDPSolveModel.build_dual a p with Some t =>
      ray_check t chain_point && negb (SDPSolveModel.feas_as_optim a) && Qc_eq_bool (SDPSolveSpec.dual_value t chain_point - SDPSolveModel.d_const t)%Qc (Q2Qc (-2 # 1))
    | None => false end | None => false end
  | None => false end.
Lemma chain_checked : chain_check = true. Proof. vm_compute. reflexivity. Qed.
Example C45_sdp_pr_support_is_excluded : possibility_table bell_q pr_table /\ ~ quantum_support bell_q pr_table /\ ~ possible_support bell_q pr_table.
Proof.
  assert (T : possibility_table bell_q pr_table) by exact (proj1 C45_pr_support_is_excluded). split; [exact T|].
  pose proof chain_checked as H. unfold chain_check in H. destruct (bell_support_run false pr_table) as [[[r s] a]|] eqn:E; [|discriminate]. apply bell_support_run_is in E.
  destruct (SDPSolveModel.preprocess a) as [p|] eqn:EP; [|discriminate]. destruct (SDPSolveModel.build_dual a p) as [t|] eqn:ET; [|discriminate]. apply andb_prop in H as [H V]. apply andb_prop in H as [H EF]. apply negb_true_iff in EF. apply Qc_eq_bool_correct in V.
  assert (X : says_incompatible a) by (apply (dual_certificate a p t chain_point EP ET EF (ray_checked t _ H chain_psd)); rewrite V; reflexivity).
  destruct (C45_sdp_exclusion_is_right _ _ _ _ _ _ _ _ _ _ _ bell_q_ready bell_all_good E eq_refl (C45_sdp_tables_have_no_small_values _ _ _ _ _ _ _ _ _ _ _ bell_q_ready bell_all_good E eq_refl T) X) as (N1 & _ & N2).
  split; [|exact N1]. apply N2. left. intros w Hw. repeat (destruct Hw as [<-|Hw]; [cbn; lia|]). destruct Hw.
Qed.
(** The hypotheses are met: equal outcomes are a possible support, and the programme accepts them. *)
Lemma coin_same : same_support bell_q coin_table coin.
Proof.
  intros o i Ho Hi. destruct (four_cases (fun a b x y => (0 <= nd_at coin_table ([a; b] ++ [x; y]))%Qc /\ (0 <= nd_at coin ([a; b] ++ [x; y]))%Qc /\ (nd_at coin_table ([a; b] ++ [x; y]) = 0%Qc <-> nd_at coin ([a; b] ++ [x; y]) = 0%Qc))) with (2 := Ho) (3 := Hi) as (a & b & x & y & -> & -> & H); [|exact H].
  intros a b x y _ _ _ _. cbn [app nd_at coin_table coin]. destruct (a =? b); (split; [discriminate|]); (split; [discriminate|]); split; intros Q; try reflexivity; discriminate.
Qed.
Lemma coin_run_exists : is_run (bell_support_run true coin_table) = true. Proof. vm_compute. reflexivity. Qed.
Example C45_sdp_coin_support_is_accepted : possible_support bell_q coin_table /\ possibility_table bell_q coin_table /\
  exists r s a z, sdp_supports_run bell_q [true; true] bell_all (bell_name r) coin_table false false true r s a /\ SDPSolveSpec.feasible a z /\ ~ says_incompatible a.
Proof.
  assert (PS : possible_support bell_q coin_table) by (exists coin; split; [exact bell_coin_is_compatible|exact coin_same]).
  assert (T : possibility_table bell_q coin_table) by exact (proj1 (proj2 C45_coin_support_is_possible)).
  split; [exact PS|]. split; [exact T|]. pose proof coin_run_exists as I. destruct (bell_support_run true coin_table) as [[[r s] a]|] eqn:E; [|discriminate]. apply bell_support_run_is in E.
  assert (Z := C45_sdp_tables_have_no_small_values _ _ _ _ _ _ _ _ _ _ _ bell_q_ready bell_all_good E eq_refl T).
  assert (EK : entries_to bell_all 2) by (intros w Hw; repeat (destruct Hw as [<-|Hw]; [cbn; lia|]); destruct Hw).
  destruct (C45_sdp_possible_supports_are_feasible _ _ _ _ _ _ _ _ _ _ _ 2 coin bell_q_ready bell_all_good EK E eq_refl Z coin_same) as (z & F); [left; apply C44_compatible_distributions_have_moments; [apply bell_q_ready|apply bell_coin_is_compatible]|].
  exists r, s, a, z. split; [exact E|]. split; [exact F|]. intros X. apply (proj1 (C45_sdp_exclusion_is_right _ _ _ _ _ _ _ _ _ _ _ bell_q_ready bell_all_good E eq_refl Z X) PS).
Qed.

Print Assumptions C45_sdp_possible_supports_are_feasible.
Print Assumptions C45_sdp_exclusion_is_right.
Print Assumptions C45_sdp_tables_have_no_small_values.
Print Assumptions C45_sdp_names.
Print Assumptions C45_sdp_columns.
Print Assumptions C45_sdp_pr_support_is_excluded.
Print Assumptions C45_sdp_coin_support_is_accepted.
