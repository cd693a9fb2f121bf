(** C46: certificates as the user sees them: the dictionary and the text say what the solver's
    certificate says, and the values of evaluate_certificate tell about distributions what the
    certificate tells, up to the rounding of the coefficients. *)
From Coq Require Import List Arith Bool Ascii String ZArith QArith Qcanon Lia DecimalString DecimalN DecimalPos.
From Verif Require Import QcArith ScenarioModel ScenarioSpec MargModel QcSum CausalSpec InflatedSpec SearchModel SearchProofs ProgramModel ProgramSpec ProgramProofs ProgramProofs2 ProgramProofs3 LPSolveModel LPSolveSpec ProgramLP ProgramLPProofs LPMomentModel SoundProofs2 SoundProofs3 SoundProofs4 SoundProofs5 SoundProofs6 PropSound CertModel CertSpec CertProofs CertProofs2 CertProofs3.
From Verif Require PropSearch PropSolve.
Import ListNotations.
Close Scope Q_scope. Close Scope Qc_scope. Open Scope string_scope. Open Scope nat_scope. Open Scope list_scope.

(** What a certificate of the solver says, for values [y] of the moments: a sum over its entries, where
    constant_term counts as the moment 1. *)
Definition certificate_says (y : moment -> Qc) (dual : list (key * Qc)) : Qc :=
  sumQ (map (fun p => snd p * y (match fst p with Some m => m | None => One end))%Qc dual).
(** What a dictionary says *)
Definition dictionary_says (y : moment -> Qc) (d : mdict Qc) : Qc := sumQ (map (fun p => snd p * y (fst p))%Qc d).
(** "1" and constant_term are not both there, and no moment is there twice *)
Definition one_constant (dual : list (key * Qc)) : Prop := NoDup (map (fun p => match fst p with Some m => m | None => One end) dual).
Definition some_coefficient (dual : list (key * Qc)) : Prop := exists k v, In (k, v) dual /\ isclose0 v = false.
Lemma some_exists dual : some_coefficient dual -> existsb (fun p => negb (isclose0 (snd p))) dual = true.
Proof. intros (k & v & H & C). apply existsb_exists. exists (k, v). cbn [snd]. rewrite C. auto. Qed.

(** ** The dictionary *)
Theorem C46_dictionary_is_the_certificate c tol d dual D y : one_constant dual -> some_coefficient dual -> certificate_as_dict c false tol d dual = Some D ->
  (forall m, moment_is_zero c m = true -> y m = 0%Qc) -> dictionary_says y D = certificate_says y dual.
Proof. intros N S' E Z. rewrite (dict_plain c tol d dual D N E (some_exists dual S')). apply (image_value c y dual Z). Qed.
(** Cleaned: up to a positive factor (the smallest coefficient above the threshold) and the rounding. *)
Theorem C46_cleaned_dictionary c tol d dual D : one_constant dual -> some_coefficient dual -> tol <> 0%Qc -> certificate_as_dict c true tol d dual = Some D ->
  exists f, (0 < f)%Qc /\ (exists k v, In (k, v) dual /\ qabs v = f) /\ (forall k v, In (k, v) dual -> qabs tol < qabs v -> f <= qabs v)%Qc /\
    (forall m v, In (m, v) D -> exists z, v = z2q z / ten_to d)%Qc /\
    forall y, (forall m, moment_is_zero c m = true -> y m = 0%Qc) -> (forall m, 0 <= y m /\ y m <= 1)%Qc ->
      let B := (count (List.length dual) * (qabs tol + half / ten_to d))%Qc in
      (certificate_says y dual / f - B <= dictionary_says y D)%Qc /\ (dictionary_says y D <= certificate_says y dual / f + B)%Qc.
Proof.
  intros N S' NT E. pose proof (some_exists dual S') as SE. unfold certificate_as_dict in E. destruct (forallb _ dual) eqn:F.
  { exfalso. apply existsb_exists in SE as (p & Hp & Cp). rewrite (proj1 (forallb_forall _ _) F p Hp) in Cp. discriminate. }
  destruct (clean_coefficients dual tol d) as [l|] eqn:El; [|discriminate]. injection E as <-. assert (NE : dual <> []) by (intros ->; discriminate).
  destruct (PropSearch.C31_cleaning dual tol d l NE El) as (f & P & ((k & v) & Hk & Ek & _) & MN & _ & CL). exists f. split; [exact P|]. split; [exists k, v; auto|]. split; [intros k' v' H; apply (MN NT (k', v') H)|].
  assert (N' : CertProofs2.one_constant l). { unfold CertProofs2.one_constant. unfold one_constant in N. change (NoDup (map (fun p => monomial_from_name (fst p)) dual)) in N. rewrite <- (map_map fst monomial_from_name) in N |- *. rewrite (cleaned_keys _ _ _ _ _ CL). exact N. }
  fold (image c l). rewrite (update_image c l N'). split.
  - intros m w Hm. unfold image in Hm. apply in_map_iff in Hm as (q & Eq & Hq). apply filter_In in Hq as [Hq _]. assert (Ew : snd q = w) by congruence. rewrite <- Ew. clear - CL Hq. induction CL as [|p q' dl l' C _ IH]; [destruct Hq|]. destruct Hq as [->|Hq]; [|apply IH, Hq].
    destruct C as (_ & [(_ & C)|(_ & _ & C)] & _); [|exact C]. exists 0%Z. rewrite C. change (z2q 0) with 0%Qc. field. intros Q. pose proof (ten_to_pos d) as T. rewrite Q in T. discriminate.
  - intros y Z Y. cbv zeta. pose proof (cleaned_value tol f d (fun k => y (monomial_from_name k)) dual l P (fun k' v' _ => Y _) CL) as [B1 B2]. change (dictionary_says y (image c l)) with (expr_at y (image c l)). rewrite (image_value c y l Z). split; [exact B1|exact B2].
Qed.
(** the lines of the dictionary that the user asks for exist unless all coefficients are chopped *)
Theorem C46_dictionary_exists c clean tol d dual : (exists D, certificate_as_dict c clean tol d dual = Some D) <->
  (some_coefficient dual -> clean = true -> exists k v, In (k, v) dual /\ (qabs tol < qabs v)%Qc).
Proof.
  unfold certificate_as_dict. destruct (forallb _ dual) eqn:F.
  - split; [|eauto]. intros _ (k & v & H & C) _. pose proof (proj1 (forallb_forall _ _) F (k, v) H) as X. cbn [snd] in X. congruence.
  - assert (SC : some_coefficient dual).
    { assert (X : existsb (fun p => negb (isclose0 (snd p))) dual = true). { clear - F. induction dual as [|p l IH]; [discriminate|]. cbn [forallb existsb] in *. destruct (isclose0 (snd p)); [apply IH, F|reflexivity]. }
      apply existsb_exists in X as ((k & v) & H & C). apply negb_true_iff in C. exists k, v. auto. }
    destruct clean.
    + destruct (clean_coefficients dual tol d) as [l|] eqn:El.
      * split; [|eauto]. intros _ _ _. destruct SC as (k & v & H & _). destruct (PropSearch.C31_cleaning dual tol d l) as (f & _ & ((k' & v') & Hk & Ek & Lt) & _); [intros ->; destruct H|exact El|]. exists k', v'. cbn [snd] in Ek. rewrite Ek. auto.
      * apply PropSearch.C31_fails_exactly in El as [_ El]. split; [intros (D & Q); discriminate|]. intros H. destruct (H SC eq_refl) as (k & v & Hk & Lt). specialize (El (k, v) Hk). cbn [snd] in El. exfalso. apply (Qcle_not_lt _ _ El Lt).
    + split; [discriminate|eauto].
Qed.

(** ** Evaluation *)
(** how much the rounding of coefficients to three decimals can change the value, for a certificate
    with coefficients of at least [f] on [n] moments *)
Definition rounding_error (n : nat) (f : Qc) : Qc := (count n * (Q2Qc (1 # 100000000) / f + Q2Qc (1 # 10000000000) + Q2Qc (5 # 10000)))%Qc.
Definition smallest_above (cert : list Qc) (f : Qc) : Prop := (0 < f)%Qc /\ forall v, In v cert -> isclose0 v = false -> (f <= qabs v)%Qc.
Lemma error_is n f : rounding_error n f = (count n * (atol / f + default_tol + half / ten_to default_decimals))%Qc.
Proof. unfold rounding_error. f_equal. Qed.
Lemma smallest_nth cert f : smallest_above cert f -> forall j, isclose0 (nth j cert 0%Qc) = false -> (f <= qabs (nth j cert 0))%Qc.
Proof. intros [_ H] j C. destruct (nth_in_or_default j cert 0%Qc) as [I|E]; [apply H; assumption|]. rewrite E in C. discriminate. Qed.

Section Evaluate.
Variables (sc : scenario) (RD : ready sc).
Lemma evaluation_point ao mx mx' arr arr' lpi shared nn rk ri nn' rk' ri' r s a t r' s' a' t' cert y0 : lpi = false \/ shared = true ->
  lp_run sc ao None mx (Some arr) lpi shared nn rk ri r s a t -> lp_run sc ao None mx' (Some arr') lpi shared nn' rk' ri' r' s' a' t' ->
  certificate_of a t cert -> lp_point (r_programme r') true s' y0 -> (forall m, In m (columns (r_programme r)) -> (y0 m <= 1)%Qc) ->
  exists v, evaluate_certificate (r_context r) (lp_atom_marginal sc r arr') (lp_dual_certificate (r_programme r) cert) = Some v /\
    forall f, smallest_above cert f -> (- rounding_error (List.length (columns (r_programme r))) f <= v)%Qc.
Proof.
  intros LP RUN RUN' CE PT Y1. destruct (runs_share _ _ _ _ _ _ _ _ _ _ _ _ _ _ _ _ _ _ _ _ _ _ RUN RUN') as (-> & s0 & s1 & E0 & E1 & E2 & E2'). destruct RUN as [G _ EP ET].
  destruct (state_after sc ao r None mx s0 s1 RD G E0 E1) as (L1 & U1 & O1 & R1 & _). destruct RD as [W AC Hout Hset Np FC]. specialize (O1 eq_refl).
  destruct (args_fresh sc W Hout Hset Np FC ao r G s1 L1 U1 O1 R1 (Some arr) lpi shared nn rk ri s a E2 EP) as (AO & NB & OF).
  destruct (possible_point sc W Hout Hset Np FC ao r G s1 L1 U1 O1 R1 arr arr' lpi shared nn rk ri s s' a y0 LP E2 E2' EP PT) as [PO _].
  assert (X : exists y N0, c_rows (s_matrix t) <= N0 /\ cert = certificate a t (map y (seq 0 N0)) /\ (0 <= LPSolveSpec.certificate_at (List.length (columns (r_programme r))) cert (spread (r_programme r) y0))%Qc).
  { destruct CE as [d y ED TF|y TF].
    - exists y, (t_numvar d). split; [apply (dual_rows _ a t d AO ET ED)|]. split; [reflexivity|]. apply (PropSolve.C26_certificate_is_valid _ a t d y AO NB OF ET ED TF _ PO).
    - exists y, (t_numcon (primal_task a t)). split; [apply le_n|]. split; [reflexivity|]. apply (PropSolve.C26_certificate_from_primal_is_valid _ a t y AO NB OF ET TF _ PO). }
  destruct X as (y & N0 & LEN & EC & NN).
  destruct (evaluation_at sc W Hout Hset Np FC ao r G s1 arr' lpi shared s' cert y0 LP E2') as (v & Ev & B).
  - intros j Hj NZ. apply (keys_agree sc W Hout Hset Np FC ao r G s1 L1 U1 O1 R1 arr arr' lpi shared s s' LP E2 E2'). rewrite EC in NZ. apply (certificate_columns sc W Hout Hset Np FC ao r G s1 L1 U1 O1 R1 arr lpi shared nn rk ri s a t N0 y j LP E2 EP ET LEN Hj NZ).
  - exact PT.
  - exact Y1.
  - exists v. split; [exact Ev|]. intros f SA. rewrite error_is. destruct (B f (proj1 SA) (smallest_nth cert f SA)) as [H|H]; [exfalso; apply (Qcle_not_lt _ _ NN H)|exact H].
Qed.
(** evaluate_certificate at a compatible distribution is not negative, up to the rounding. *)
Theorem C46_evaluation_at_compatible_distributions ao mx arr arr' lpi shared nn rk ri r s a t cert : lpi = false \/ shared = true ->
  lp_run sc ao None mx (Some arr) lpi shared nn rk ri r s a t -> certificate_of a t cert -> compatible_distribution sc arr' ->
  exists v, evaluate_certificate (r_context r) (lp_atom_marginal sc r arr') (lp_dual_certificate (r_programme r) cert) = Some v /\
    forall f, smallest_above cert f -> (- rounding_error (List.length (columns (r_programme r))) f <= v)%Qc.
Proof.
  intros LP RUN CE C. destruct (C43_problem_is_built sc ao (Some arr') lpi shared nn rk ri RD) as (r' & s' & a' & t' & RUN'). { intros x Q. injection Q as <-. apply C. }
  destruct (run_point _ _ _ _ _ _ _ _ _ _ _ _ _ _ RD RUN') with (2 := C) as (P & IO & PT); [intros -> ->; destruct LP; discriminate|].
  apply (evaluation_point _ _ _ _ _ _ _ _ _ _ _ _ _ _ _ _ _ _ _ _ _ _ _ LP RUN RUN' CE PT).
  assert (ER : r' = r) by (destruct RUN as [G _ _ _], RUN' as [G' _ _ _]; congruence). subst r'. destruct RUN as [G _ _ _], RD as [W AC Hout Hset Np FC]. intros m. apply (column_le_one sc W Hout FC ao r G arr' P m IO).
Qed.
(** ... and with shared randomness at a mixture of such distributions. *)
Theorem C46_evaluation_at_mixtures ao mx arr arr' lpi nn rk ri r s a t cert :
  lp_run sc ao None mx (Some arr) lpi true nn rk ri r s a t -> certificate_of a t cert -> mixture_of_compatible sc arr' ->
  exists v, evaluate_certificate (r_context r) (lp_atom_marginal sc r arr') (lp_dual_certificate (r_programme r) cert) = Some v /\
    forall f, smallest_above cert f -> (- rounding_error (List.length (columns (r_programme r))) f <= v)%Qc.
Proof.
  intros RUN CE C. pose proof C as (SH & l & HL & W1 & MX). destruct (C43_problem_is_built sc ao (Some arr') lpi true nn rk ri RD) as (r' & s' & a' & t' & RUN'). { intros x Q. injection Q as <-. exact SH. }
  destruct (mixture_inflations sc l RD HL) as (l' & EL & HL'). assert (ER : r' = r) by (destruct RUN as [G _ _ _], RUN' as [G' _ _ _]; congruence). subst r'.
  pose proof RUN' as [G (s0 & s1 & E0 & E1 & E2) _ _]. destruct (state_after sc ao r None true s0 s1 RD G E0 E1) as (L1 & U1 & _). pose proof RD as [W AC Hout Hset Np FC].
  apply (evaluation_point _ _ _ _ _ _ _ _ _ _ _ _ _ _ _ _ _ _ _ _ _ _ (mix (map (point_of sc r) l')) (or_intror eq_refl) RUN RUN' CE).
  - apply (mixture_point sc W Hout Hset FC ao r G s1 L1 U1 arr' lpi s' l' HL'); [| |exact E2].
    + rewrite <- W1, <- EL, map_map. reflexivity.
    + intros o x Ho Hx. rewrite (MX o x Ho Hx), <- EL, map_map. reflexivity.
  - intros m Hm. unfold mix. rewrite map_map. assert (W1' : sumQ (map (fun q => fst (fst q)) l') = 1%Qc) by (rewrite <- W1, <- EL, map_map; reflexivity). rewrite <- W1'.
    assert (X : (0 <= sumQ (map (fun q => fst (fst q)) l') - sumQ (map (fun q => fst (point_of sc r q) * snd (point_of sc r q) m) l'))%Qc); [|qclra].
    clear - HL' Hm W Hout FC G. induction l' as [|q l' IH]; [discriminate|]. cbn [map]. rewrite !sumQ_cons. specialize (IH (fun q' Hq' => HL' q' (or_intror Hq'))). destruct (HL' q (or_introl eq_refl)) as [IO Wq].
    pose proof (column_le_one sc W Hout FC ao r G _ _ m IO Hm) as LE. unfold point_of at 1 2. cbn [fst snd]. set (w := fst (fst q)) in *. set (z := moment_at _ m) in *. assert (w * z <= w)%Qc by qcnra. qclra.
Qed.
(** So a value below the possible error means that the distribution is incompatible. *)
Theorem C46_negative_evaluation_means_incompatible ao mx arr arr' lpi shared nn rk ri r s a t cert v f : lpi = false \/ shared = true ->
  lp_run sc ao None mx (Some arr) lpi shared nn rk ri r s a t -> certificate_of a t cert -> smallest_above cert f ->
  evaluate_certificate (r_context r) (lp_atom_marginal sc r arr') (lp_dual_certificate (r_programme r) cert) = Some v ->
  (v < - rounding_error (List.length (columns (r_programme r))) f)%Qc -> ~ compatible_distribution sc arr'.
Proof.
  intros LP RUN CE SA Ev V C. destruct (C46_evaluation_at_compatible_distributions _ _ _ _ _ _ _ _ _ _ _ _ _ _ LP RUN CE C) as (v' & Ev' & B). assert (v' = v) by congruence. subst v'. apply (Qcle_not_lt _ _ (B f SA) V).
Qed.
End Evaluate.

(** ** The text *)
Lemma set_keys_in m v (d : mdict Qc) q : In q (ProgramModel.set meq m v d) -> In q d \/ q = (m, v).
Proof.
  induction d as [|(k & w) d IH]; cbn [ProgramModel.set].
  - intros [<-|[]]. right. reflexivity.
  - destruct (meq m k) as [->|]; intros [<-|H]; cbn; auto. destruct (IH H); auto.
Qed.
Lemma update_in (l : mdict Qc) : forall d q, In q (update meq d l) -> In q d \/ In q l.
Proof.
  unfold update. induction l as [|(m & v) l IH]; intros d q H; cbn [fold_left] in H; [left; exact H|]. apply IH in H as [H|H]; [|right; right; exact H]. cbn [fst snd] in H. apply set_keys_in in H as [H|H]; [left; exact H|right; left; symmetry; exact H].
Qed.
Lemma sanitise_unique (l : mdict Qc) : forall d, NoDup (keys d ++ keys l) -> fold_left (fun d p => if isclose0 (snd p) then d else oadd (fst p) (snd p) d) l d = d ++ filter (fun p => negb (isclose0 (snd p))) l.
Proof.
  induction l as [|(m & v) l IH]; intros d N; cbn [fold_left filter]; [rewrite app_nil_r; reflexivity|]. cbn [fst snd]. unfold keys in N. cbn [map fst] in N. pose proof (NoDup_remove_2 _ _ _ N) as NI. pose proof (NoDup_remove_1 _ _ _ N) as N1.
  destruct (isclose0 v); cbn [negb]; [apply IH, N1|]. unfold oadd. assert (A : ~ In m (keys d)) by (intros H; apply NI, in_or_app; left; exact H). rewrite (proj2 (get_none meq m d) A). rewrite (set_absent m _ d A). replace (0 + v)%Qc with v by ring. rewrite IH; [rewrite <- app_assoc; reflexivity|].
  unfold keys. rewrite map_app. cbn [map fst]. rewrite <- app_assoc. exact N.
Qed.
Lemma clear_decimals d v : d <= 4 -> (exists z, v = (z2q z / ten_to d)%Qc) -> clear v.
Proof.
  intros Hd Z. split; [apply (decimals_kept d v Hd Z)|]. intros C. destruct Z as (z & ->).
  assert (NT : ten_to d <> 0%Qc) by (intros E; pose proof (ten_to_pos d) as T; rewrite E in T; discriminate).
  assert (Zt : exists zt, ten_to d = z2q zt) by (exists (10 ^ Z.of_nat d)%Z; destruct d as [|[|[|[|[|]]]]]; try lia; apply Qc_eq_bool_correct; reflexivity). destruct Zt as (zt & Zt).
  assert (M : forall w, (exists z, w = (z2q z / ten_to d)%Qc) -> isclose w 1 = true -> w = 1%Qc).
  { intros w (zw & ->) C'. assert (X : (z2q zw / ten_to d - 1)%Qc = (z2q (zw - zt) / ten_to d)%Qc).
    { rewrite Zt in NT |- *. unfold Z.sub. replace (z2q (zw + - zt)) with (z2q zw - z2q zt)%Qc; [field; exact NT|]. unfold z2q. apply Qc_is_canon. cbn [this Q2Qc Qcplus Qcminus Qcopp]. rewrite !Qred_correct, inject_Z_plus, inject_Z_opp. reflexivity. }
    destruct (Z.eq_dec (zw - zt) 0) as [E|N]; [rewrite E in X; change (z2q 0) with 0%Qc in X; assert (Y : (0 / ten_to d)%Qc = 0%Qc) by (field; exact NT); rewrite Y in X; replace (z2q zw / ten_to d)%Qc with (z2q zw / ten_to d - 1 + 1)%Qc by ring; rewrite X; ring|]. exfalso.
    unfold isclose in C'. apply qleb_true in C'. rewrite X in C'. change (qabs 1) with 1%Qc in C'. pose proof (ten_to_pos d) as TP. assert (TL : (ten_to d <= Q2Qc 10000)%Qc) by (destruct d as [|[|[|[|[|]]]]]; try lia; discriminate).
    assert (Z1 : (1 <= z2q (zw - zt))%Qc \/ (z2q (zw - zt) <= - (1))%Qc).
    { destruct (Z_lt_le_dec 0 (zw - zt)); [left|right]; unfold z2q, Qcle; cbn [this Q2Qc Qcopp]; rewrite ?Qred_correct; unfold Qle; cbn; lia. }
    set (q := (z2q (zw - zt) / ten_to d)%Qc) in *. assert (Q : (q * ten_to d = z2q (zw - zt))%Qc) by (unfold q; field; exact NT). assert (A : ((atol + rtol * 1) * Q2Qc 10000 < 1)%Qc) by reflexivity. assert (A0 : (0 < atol + rtol * 1)%Qc) by reflexivity. set (e := (atol + rtol * 1)%Qc) in *. clearbody e.
    apply qabs_bounds in C' as [C1 C2]. destruct Z1 as [Z1|Z1]; rewrite <- Q in Z1; qcnra. }
  apply M; [|exact C]. destruct (qabs_case (z2q z / ten_to d)) as [(_ & ->)|(_ & ->)]; [exists z; reflexivity|exists (- z)%Z].
  replace (z2q (- z)) with (- z2q z)%Qc; [field; exact NT|]. unfold z2q. apply Qc_is_canon. cbn [this Q2Qc Qcopp]. rewrite !Qred_correct, inject_Z_opp. reflexivity.
Qed.
(** The text of a certificate is a sum that says what its dictionary says (1 being the constant), then
    " < 0": if names can be told from numbers and signs, and coefficients are rounded to at most four decimals, or
    none is mistaken for 0 or 1. *)
Theorem C46_text_says_the_dictionary name show read (SN : sum_numbers show read) t c clean tol d dual s D :
  certificate_as_string name show t c clean tol d dual = Some s -> certificate_as_dict c clean tol d dual = Some D ->
  (forall m v, In (m, v) D -> m <> One -> readable_name (name m)) ->
  (clean = true /\ d <= 4) \/ (forall m v, In (m, v) D -> (isclose0 v = true -> v = 0%Qc) /\ (isclose (qabs v) 1 = true -> qabs v = 1%Qc)) ->
  exists p l, s = (p ++ " < 0")%string /\ read_sum read p = Some l /\
    forall x, sum_value x l = dictionary_says (fun m => if meq m One then 1%Qc else x (name m)) D.
Proof.
  intros E ED NM CO. unfold certificate_as_string in E. rewrite ED in E. destruct (string_from_dict name show t c D) as [p|] eqn:EP; [|discriminate]. assert (Es : s = (p ++ " < 0")%string) by congruence. clear E.
  assert (DU : exists l0, D = update meq [] (image c l0) /\ (clean = true -> forall k v, In (k, v) l0 -> exists z, v = (z2q z / ten_to d)%Qc)).
  { unfold certificate_as_dict in ED. destruct (forallb _ dual) eqn:F; [exists []; split; [inversion ED; reflexivity|intros _ k v []]|]. destruct clean.
    - destruct (clean_coefficients dual tol d) as [l0|] eqn:El; [|discriminate]. exists l0. split; [inversion ED; reflexivity|]. intros _ k v H. assert (NE : dual <> []) by (intros ->; discriminate). destruct (PropSearch.C31_cleaning dual tol d l0 NE El) as (f & _ & _ & _ & _ & CL).
      change v with (snd (k, v)). clear - CL H. induction CL as [|q q' dl l' C _ IH]; [destruct H|]. destruct H as [->|H]; [|apply IH, H]. destruct C as (_ & [(_ & C)|(_ & _ & C)] & _); [|exact C]. exists 0%Z. rewrite C. change (z2q 0) with 0%Qc. field. intros Q. pose proof (ten_to_pos d) as T. rewrite Q in T. discriminate.
    - exists dual. split; [inversion ED; reflexivity|discriminate]. }
  destruct DU as (l0 & DU & ZZ). assert (KN : NoDup (keys D)) by (rewrite DU; apply (update_keys (image c l0) []); constructor).
  assert (IN : forall m v, In (m, v) D -> moment_is_zero c m = false /\ exists k, In (k, v) l0).
  { intros m v H. rewrite DU in H. apply update_in in H as [[]|H]. unfold image in H. apply in_map_iff in H as ((k & w) & Eq & H). apply filter_In in H as [H Z]. cbn [fst snd] in *. assert (Em : monomial_from_name k = m) by congruence. assert (w = v) by congruence. subst w. rewrite Em in Z. apply negb_true_iff in Z. split; [exact Z|]. exists k. exact H. }
  assert (CL : forall m v, In (m, v) D -> clear v).
  { intros m v H. destruct CO as [(C1 & C2)|CO]; [|split; apply (CO m v H)]. destruct (IN m v H) as (_ & k & Hk). apply (clear_decimals d v C2), (ZZ C1 k v Hk). }
  assert (SU : sanitise_dict (fun m : moment => m) D = filter (fun p => negb (isclose0 (snd p))) D) by (apply (sanitise_unique D []), KN).
  destruct (string_reads name show read SN c t D p EP) as (l & RS & V).
  { intros m v H _ NO. rewrite SU in H. apply filter_In in H as [H _]. split; [apply (NM m v H NO)|apply (CL m v H)]. }
  exists p, l. split; [exact Es|]. split; [exact RS|]. intros x. rewrite V. rewrite (sanitised_exact _ D) by (intros m v H; apply (CL m v H)). unfold expr_at, dictionary_says. apply sumQ_ext. intros (m & v) H. cbn [fst snd]. f_equal. destruct (meq m One); [reflexivity|]. destruct (IN m v H) as [-> _]. reflexivity.
Qed.
(** There is a text for every dictionary of a linear programme, and for a semidefinite one if something
    is printed. *)
Theorem C46_text_exists name show t c clean tol d dual D : certificate_as_dict c clean tol d dual = Some D -> (t = lp \/ string_from_dict name show lp c D <> Some "0") ->
  exists s, certificate_as_string name show t c clean tol d dual = Some s.
Proof.
  intros E H. unfold certificate_as_string. rewrite E. assert (X : exists p, string_from_dict name show t c D = Some p).
  { unfold string_from_dict in *. cbv zeta in *. destruct (fold_left _ _ _) as [|ch tx]; [|eauto]. destruct t; [|eauto]. destruct H as [H|H]; [discriminate|]. exfalso. apply H. reflexivity. }
  destruct X as (p & ->). eauto.
Qed.

(** ** Examples *)
(** numbers as fractions *)
Definition show_n (n : N) : string := NilEmpty.string_of_uint (N.to_uint n).
Definition show_fraction (v : Qc) : string := (show_n (Z.abs_N (Qnum (this v))) ++ "/" ++ show_n (Npos (Qden (this v))))%string.
Fixpoint at_slash (s : string) : string * option string :=
  match s with EmptyString => ("", None) | String ch s' => if Ascii.eqb ch "/" then ("", Some s') else (String ch (fst (at_slash s')), snd (at_slash s')) end.
Definition read_n (s : string) : option N := match NilEmpty.uint_of_string s with Some u => Some (N.of_uint u) | None => None end.
Definition read_fraction (s : string) : option Qc :=
  match read_n (fst (at_slash s)), (match snd (at_slash s) with Some t => read_n t | None => Some 1%N end) with
  | Some n, Some (Npos d) => Some (Q2Qc (Z.of_N n # d))
  | _, _ => None end.
Lemma read_show_n n : read_n (show_n n) = Some n.
Proof. unfold read_n, show_n. rewrite NilEmpty.usu, DecimalN.Unsigned.of_to. reflexivity. Qed.
Lemma uint_chars u : has_no (fun ch => negb (is_digit ch)) (NilEmpty.string_of_uint u) = true.
Proof. induction u; cbn [NilEmpty.string_of_uint has_no]; rewrite ?IHu; reflexivity. Qed.
Lemma has_no_weaken (p q : ascii -> bool) s : (forall ch, q ch = true -> p ch = true) -> has_no p s = true -> has_no q s = true.
Proof.
  intros H. induction s as [|ch s IH]; [reflexivity|]. cbn [has_no]. intros E. apply andb_prop in E as [E1 E2]. rewrite (IH E2), andb_true_r. apply negb_true_iff in E1. apply negb_true_iff. destruct (q ch) eqn:Q; [|reflexivity]. apply H in Q. congruence.
Qed.
Lemma has_no_app (p : ascii -> bool) a b : has_no p (a ++ b)%string = has_no p a && has_no p b.
Proof. induction a as [|ch a IH]; [reflexivity|]. cbn [append has_no]. rewrite IH. apply andb_assoc. Qed.
Lemma slash_split a b : has_no (fun ch => Ascii.eqb ch "/") a = true -> at_slash (a ++ "/" ++ b)%string = (a, Some b).
Proof. induction a as [|ch a IH]; [reflexivity|]. cbn [append has_no at_slash]. intros E. apply andb_prop in E as [E1 E2]. apply negb_true_iff in E1. specialize (IH E2). cbn [append] in IH. rewrite E1, IH. reflexivity. Qed.
Lemma digit_not (ch x : ascii) : is_digit x = false -> Ascii.eqb ch x = true -> negb (is_digit ch) = true.
Proof. intros D E. apply Ascii.eqb_eq in E. subst. rewrite D. reflexivity. Qed.
Lemma fractions_are_numbers : sum_numbers show_fraction read_fraction.
Proof.
  constructor.
  - intros v V. unfold read_fraction, show_fraction. rewrite slash_split; [|eapply has_no_weaken; [|apply uint_chars]; intros ch; apply digit_not; reflexivity]. cbn [fst snd]. rewrite !read_show_n. f_equal.
    apply Qc_is_canon. cbn [this Q2Qc]. rewrite Qred_correct. rewrite N2Z.inj_abs_N, Z.abs_eq; [destruct (this v) as [n d]; reflexivity|]. unfold Qcle, Qle in V. cbn in V. lia.
  - intros v _. unfold show_fraction. assert (X : starts_with_digit (show_n (Z.abs_N (Qnum (this v)))) = true).
    { unfold show_n. assert (NN : N.to_uint (Z.abs_N (Qnum (this v))) <> Decimal.Nil) by (destruct (Z.abs_N (Qnum (this v))) as [|p]; [discriminate|apply DecimalPos.Unsigned.to_uint_nonnil]). destruct (N.to_uint _); [congruence|..]; reflexivity. }
    destruct (show_n (Z.abs_N (Qnum (this v)))); [discriminate|exact X].
  - assert (ND : forall u, has_no (fun ch => sign ch || Ascii.eqb ch "*") (NilEmpty.string_of_uint u) = true).
    { intros u. eapply has_no_weaken; [|apply uint_chars]. intros ch H. cbv beta in H. unfold sign in H. apply orb_prop in H as [H|H]; [apply orb_prop in H as [H|H]|]; (eapply digit_not; [|exact H]; reflexivity). }
    intros v _. unfold show_fraction. rewrite !has_no_app. unfold show_n. rewrite !ND. reflexivity.
  - apply (f_equal (@Some Qc)). apply Qc_eq_bool_correct. vm_compute. reflexivity.
Qed.
(** the Clauser-Horne certificate of the PR box *)
Definition bell_dual : list (key * Qc) := [(Some [0], 1%Qc); (Some [2], 1%Qc); (Some [5], (- (1))%Qc); (Some [6], (- (1))%Qc); (Some [7], (- (1))%Qc); (Some [8], 1%Qc)].
Definition bell_names (m : moment) : string :=
  match m with [0] => "P[A_0=0]" | [2] => "P[B_0=0]" | [5] => "P[A_0=0 B_0=0]" | [6] => "P[A_0=0 B_1=0]" | [7] => "P[A_1=0 B_0=0]" | [8] => "P[A_1=0 B_1=0]" | _ => "<x>" end%string.
Definition plain_context : context :=
  {| moments := []; is_knowable := fun _ => true; dagger := fun a => a; is_zero := fun _ => false; is_one := fun _ => false; hermitian_moments := []; zero_moment := None; supports_problem := false; minimal_equalities := []; minimal_inequalities := [] |}.
Example C46_bell_text : certificate_as_string bell_names show_fraction lp plain_context true default_tol default_decimals bell_dual
  = Some "P[A_0=0]+P[B_0=0]-P[A_0=0 B_0=0]-P[A_0=0 B_1=0]-P[A_1=0 B_0=0]+P[A_1=0 B_1=0] < 0".
Proof. vm_compute. reflexivity. Qed.
Example C46_bell_meets_hypotheses : one_constant bell_dual /\ some_coefficient bell_dual /\ default_tol <> 0%Qc /\
  exists D, certificate_as_dict plain_context true default_tol default_decimals bell_dual = Some D /\ List.length D = 6 /\ forall m v, In (m, v) D -> readable_name (bell_names m).
Proof.
  split; [unfold one_constant; cbn; repeat constructor; cbn; intuition discriminate|]. split; [exists (Some [0]), 1%Qc; split; [left; reflexivity|reflexivity]|]. split; [discriminate|].
  eexists. split; [reflexivity|]. split; [reflexivity|]. assert (X : forall m, readable_name (bell_names m)); [|auto]. intros m. unfold readable_name, bell_names.
  destruct m as [|[|[|[|[|[|[|[|[|[|]]]]]]]]] [|]]; (split; [discriminate|split; reflexivity]).
Qed.
(** a certificate evaluated: the Clauser-Horne certificate gives -1/2 at the PR box, below the error *)
Definition bell_evaluation : bool :=
  match full_run bell_sc pr_box false false true with
  | Some (r, s, a, t, d) => let cert := certificate a t (map ch_multipliers (seq 0 (t_numvar d))) in
      PropSolve.task_feasible_b d ch_multipliers && forallb (fun v => isclose0 v || qleb 1 (qabs v)) cert &&
      match evaluate_certificate (r_context r) (lp_atom_marginal bell_sc r pr_box) (lp_dual_certificate (r_programme r) cert) with
      | Some v => Qc_eq_bool v (- PropSound.half) && qltb v (- rounding_error (List.length (columns (r_programme r))) 1)
      | None => false end
  | None => false end.
Lemma bell_evaluated : bell_evaluation = true. Proof. vm_compute. reflexivity. Qed.
Example C46_pr_box_evaluation : exists r s a t cert v, lp_run bell_sc false None true (Some pr_box) false false true false false r s a t /\ certificate_of a t cert /\ smallest_above cert 1 /\
  evaluate_certificate (r_context r) (lp_atom_marginal bell_sc r pr_box) (lp_dual_certificate (r_programme r) cert) = Some v /\ (v < - rounding_error (List.length (columns (r_programme r))) 1)%Qc.
Proof.
  pose proof bell_evaluated as H. unfold bell_evaluation in H. destruct (full_run bell_sc pr_box false false true) as [((((r & s) & a) & t) & d)|] eqn:E; [|discriminate]. cbv zeta in H. set (cert := certificate a t (map ch_multipliers (seq 0 (t_numvar d)))) in *.
  apply andb_prop in H as [H V]. apply andb_prop in H as [F S']. destruct (evaluate_certificate _ _ _) as [v|] eqn:EV; [|discriminate]. apply andb_prop in V as [_ V]. apply qltb_true in V. destruct (full_run_is _ _ _ _ _ _ _ _ _ _ E) as [RUN ED].
  exists r, s, a, t, cert, v. split; [exact RUN|]. split; [apply (from_dual a t d ch_multipliers ED (PropSolve.task_feasible_b_ok _ _ F))|]. split; [|split; assumption].
  split; [reflexivity|]. intros w Hw C. pose proof (proj1 (forallb_forall _ _) S' w Hw) as X. cbv beta in X. rewrite C in X. apply qleb_true, X.
Qed.

(** ** What the code does not guarantee *)
(** The rounding can make the value at a compatible distribution negative: the certificate
    1.0012 A0 + B0 - 1.0006 A0 B0 - 1.0006 A0 B1 - A1 B0 + A1 B1, which excludes the PR box, becomes
    1.001 A0 + B0 - 1.001 A0 B0 - 1.001 A0 B1 - A1 B0 + A1 B1, which is -0.001 if all outcomes are 0. *)
Definition sharp_multipliers (j : nat) : Qc :=
  nth j (map (fun z => (Q2Qc (inject_Z z) / Q2Qc 10000)%Qc) [0; -10000; 0; -10000; -10006; -10000; -6; 0; -6; 0; -10006; -10000; -10012; 0; -10012; 0; 0; 10012; 0; 10000; 0; -10006; -10006; -10000; 10000]%Z) 0%Qc.
Definition all_zero : ndarray := {| nd_shape := [2; 2; 2; 2]; nd_at := fun i => match i with a :: b :: _ => if (a =? 0) && (b =? 0) then 1%Qc else 0%Qc | _ => 0%Qc end |}.
Definition zero_model : causal_model := {| source_distribution := fun _ => [(1%Qc, 0)]; noise_distribution := fun _ => [(1%Qc, 0)]; response := fun _ _ _ _ _ => 0 |}.
Lemma all_zero_compatible : compatible_distribution bell_sc all_zero.
Proof.
  split; [reflexivity|]. exists zero_model. split.
  - constructor.
    + intros k _. split; [intros wv [<-|[]]; cbn; discriminate|apply Qc_eq_bool_correct; vm_compute; reflexivity].
    + intros k _. split; [intros wv [<-|[]]; cbn; discriminate|apply Qc_eq_bool_correct; vm_compute; reflexivity].
    + intros p u e x os Hp. destruct p as [|[|p]]; cbn in *; lia.
    + reflexivity.
  - intros a x Ha Hx. inversion Ha as [|a0 ? a' ? A0 Ha']; subst. inversion Ha' as [|a1 ? a'' ? A1 Ha'']; subst. inversion Ha''; subst.
    inversion Hx as [|x0 ? x' ? X0 Hx']; subst. inversion Hx' as [|x1 ? x'' ? X1 Hx'']; subst. inversion Hx''; subst.
    destruct (lt2 _ A0) as [-> | ->], (lt2 _ A1) as [-> | ->]; apply Qc_eq_bool_correct; vm_compute; reflexivity.
Qed.
Definition sharp_check : bool :=
  match full_run bell_sc pr_box false false true with
  | Some (r, s, a, t, d) => let cert := certificate a t (map sharp_multipliers (seq 0 (t_numvar d))) in
      PropSolve.task_feasible_b d sharp_multipliers && qltb (certificate_value r cert (known s)) 0 &&
      match evaluate_certificate (r_context r) (lp_atom_marginal bell_sc r all_zero) (lp_dual_certificate (r_programme r) cert) with
      | Some v => Qc_eq_bool v (- (Q2Qc (1 # 1000))) | None => false end
  | None => false end.
Lemma sharp_checked : sharp_check = true. Proof. vm_compute. reflexivity. Qed.
Theorem C46_negative_evaluation_refuted : exists r s a t cert,
  lp_run bell_sc false None true (Some pr_box) false false true false false r s a t /\ certificate_of a t cert /\ (certificate_value r cert (known s) < 0)%Qc /\ compatible_distribution bell_sc all_zero /\
  evaluate_certificate (r_context r) (lp_atom_marginal bell_sc r all_zero) (lp_dual_certificate (r_programme r) cert) = Some (- (Q2Qc (1 # 1000)))%Qc.
Proof.
  pose proof sharp_checked as H. unfold sharp_check in H. destruct (full_run bell_sc pr_box false false true) as [((((r & s) & a) & t) & d)|] eqn:E; [|discriminate]. cbv zeta in H. set (cert := certificate a t (map sharp_multipliers (seq 0 (t_numvar d)))) in *.
  apply andb_prop in H as [H V]. apply andb_prop in H as [F S']. apply qltb_true in S'. destruct (evaluate_certificate _ _ _) as [v|] eqn:EV; [|discriminate]. apply Qc_eq_bool_correct in V. subst v. destruct (full_run_is _ _ _ _ _ _ _ _ _ _ E) as [RUN ED].
  exists r, s, a, t, cert. split; [exact RUN|]. split; [apply (from_dual a t d sharp_multipliers ED (PropSolve.task_feasible_b_ok _ _ F))|]. split; [exact S'|]. split; [exact all_zero_compatible|exact EV].
Qed.
(** A certificate of a semidefinite programme with both "1" and constant_term loses the first of the two
    (Constant_Term is a copy of One). *)
Theorem C46_constant_lost_refuted : exists dual D, certificate_as_dict plain_context false default_tol default_decimals dual = Some D /\
  exists y, y One = 1%Qc /\ dictionary_says y D <> certificate_says y dual.
Proof.
  exists [(None, 1%Qc); (Some [0], 1%Qc); (Some One, (- (1))%Qc)]. eexists. split; [reflexivity|]. exists (fun m => if meq m One then 1%Qc else 0%Qc). split; [reflexivity|]. intros E. apply (f_equal (fun v => Qc_eq_bool v 0)) in E. revert E. vm_compute. discriminate.
Qed.
(** There is no text of an empty certificate of a semidefinite programme (IndexError). *)
Theorem C46_empty_text_refuted name show tol d : certificate_as_string name show sdp plain_context true tol d [] = None /\ certificate_as_string name show lp plain_context true tol d [] = Some "0 < 0".
Proof. split; reflexivity. Qed.
(** Without cleaning, a coefficient that is close to 1 is not printed. *)
Theorem C46_near_one_refuted : certificate_as_string bell_names show_fraction lp plain_context false default_tol default_decimals [(Some [0], (Q2Qc (100001 # 100000))%Qc); (Some [2], (- (1))%Qc)] = Some "P[A_0=0]-P[B_0=0] < 0".
Proof. vm_compute. reflexivity. Qed.
