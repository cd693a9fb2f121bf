(** Certificates of linear programmes, evaluated. *)
From Coq Require Import List Arith Bool ZArith QArith Qcanon Lia Permutation Sorted.
From Verif Require Import QcArith CanonModel ScenarioModel ScenarioSpec SymModel SymSpec KnowModel KnowSpec FactorModel FactorSpec MargModel QcSum LPModel LPSpec LPSpec2 InflatedSpec SearchModel SearchProofs ProgramModel ProgramSpec ProgramProofs ProgramProofs2 ProgramProofs3 LPSolveModel LPSolveSpec LPSolveProofs ProgramLP ProgramLPProofs LPMomentModel LPMomentProofs LPMomentProofs2 ColumnsFacts SoundProofs SoundProofs2 GlueProofs GenerateProofs GenerateProofs2 SoundProofs3 SoundProofs4 SoundProofs5 CertModel CertProofs2.
From Verif Require UniqueProofs ScenarioProofs PropProgram PropSolve PropSearch.
Import ListNotations.
Close Scope Q_scope. Close Scope Qc_scope. Open Scope nat_scope.

(** ** Polynomials *)
Lemma evaluate_is c value y poly : (forall m, In m (keys (sanitise_dict (fun m => m) poly)) -> compute_marginal c value m = Some (y m)) ->
  evaluate_polynomial c value poly = Some (expr_at y (sanitise_dict (fun m => m) poly)).
Proof.
  intros H. unfold evaluate_polynomial. revert H. generalize (sanitise_dict (fun m : moment => m) poly). intros d H.
  assert (X : forall s, fold_left (fun acc p => match acc, compute_marginal c value (fst p) with Some s, Some v => Some (s + v * snd p)%Qc | _, _ => None end) d (Some s) = Some (s + expr_at y d)%Qc).
  { induction d as [|(m & v) d IH]; intros s; cbn [fold_left fst snd]; [f_equal; unfold expr_at; cbn [map]; rewrite sumQ_nil; ring|]. rewrite (H m (or_introl eq_refl)), IH by (intros m' Hm'; apply H; right; exact Hm').
    f_equal. unfold expr_at. cbn [map fst snd]. rewrite sumQ_cons. ring. }
  rewrite X. f_equal. ring.
Qed.
Lemma marginal_is c value y m : forallb (ProgramModel.is_knowable c) m = true -> (forall i, In i m -> value i = Some (y i)) -> compute_marginal c value m = Some (moment_at y m).
Proof.
  intros K H. unfold compute_marginal. rewrite K. clear K. assert (X : forall s, fold_left (fun acc a => match acc, value a with Some v, Some w => Some (v * w)%Qc | _, _ => None end) m (Some s) = Some (s * moment_at y m)%Qc).
  { unfold moment_at. induction m as [|i m IH]; intros s; cbn [fold_left map]; [f_equal; cbn; ring|]. rewrite (H i (or_introl eq_refl)), IH by (intros j Hj; apply H; right; exact Hj). f_equal. change product with prodQ. rewrite prodQ_cons. ring. }
  rewrite X. f_equal. ring.
Qed.
(** coefficients with at most four decimals are not lost *)
Lemma decimals_kept d v : d <= 4 -> (exists z, v = (z2q z / ten_to d)%Qc) -> isclose0 v = true -> v = 0%Qc.
Proof.
  intros Hd (z & ->) C. destruct (Z.eq_dec z 0) as [->|N]; [change (z2q 0) with 0%Qc; field; intros E; pose proof (ten_to_pos d) as T; rewrite E in T; discriminate|]. exfalso.
  unfold isclose0, isclose in C. apply qleb_true in C. replace (z2q z / ten_to d - 0)%Qc with (z2q z / ten_to d)%Qc in C by ring. rewrite (ltac:(reflexivity) : qabs 0 = 0%Qc) in C.
  pose proof (ten_to_pos d) as TP. assert (NT : ten_to d <> 0%Qc) by (intros E; rewrite E in TP; discriminate).
  assert (TL : (ten_to d <= Q2Qc 10000)%Qc) by (destruct d as [|[|[|[|[|]]]]]; try lia; discriminate).
  assert (Z1 : (1 <= z2q z)%Qc \/ (z2q z <= - (1))%Qc).
  { destruct (Z_lt_le_dec 0 z); [left|right]; unfold z2q, Qcle; cbn [this Q2Qc Qcopp]; rewrite ?Qred_correct; unfold Qle; cbn; lia. }
  set (w := (z2q z / ten_to d)%Qc) in *. assert (W : (w * ten_to d = z2q z)%Qc) by (unfold w; field; exact NT).
  assert (A : (atol * Q2Qc 10000 < 1)%Qc) by reflexivity. assert (A0 : (0 < atol)%Qc) by reflexivity. replace (atol + rtol * 0)%Qc with atol in C by ring.
  apply qabs_bounds in C as [C1 C2]. destruct Z1 as [Z1|Z1]; rewrite <- W in Z1; qcnra.
Qed.
Lemma sanitised_exact (y : moment -> Qc) D : (forall m v, In (m, v) D -> isclose0 v = true -> v = 0%Qc) -> expr_at y (sanitise_dict (fun m => m) D) = expr_at y D.
Proof.
  intros H. rewrite sanitise_value. unfold expr_at. induction D as [|(m & v) D IH]; [reflexivity|]. cbn [filter snd]. specialize (IH (fun m' v' Hm => H m' v' (or_intror Hm))). specialize (H m v (or_introl eq_refl)).
  cbn [map fst snd]. rewrite sumQ_cons. destruct (isclose0 v) eqn:E; cbn [negb].
  - rewrite IH, (H eq_refl). ring.
  - cbn [map fst snd]. rewrite sumQ_cons, IH. reflexivity.
Qed.

Lemma kept_length {A} f (l : list A) : length (filter f l) <= length l.
Proof. induction l as [|a l IH]; [apply le_n|]. cbn [filter]. destruct (f a); cbn [length]; lia. Qed.

(** ** Columns *)
Lemma columns_sum (y : moment -> Qc) : forall cols cert, CertProofs2.certificate_at y (combine (map Some cols) cert) = sumQ (map (fun j => nth j cert 0 * y (nth j cols []))%Qc (seq 0 (length cols))).
Proof.
  unfold CertProofs2.certificate_at, expr_at. induction cols as [|m cols IH]; intros cert; [reflexivity|]. destruct cert as [|v cert].
  - cbn [map combine]. rewrite sumQ_nil. symmetry. apply sumQ_zero. intros j _. destruct j; cbn [nth]; ring.
  - cbn [map combine fst snd length seq monomial_from_name nth]. rewrite !sumQ_cons, IH. f_equal. rewrite <- seq_shift, map_map. reflexivity.
Qed.
(** leaving out the coefficients close to zero *)
Lemma dropped_close (y : moment -> Qc) (l : list (key * Qc)) : (forall k v, In (k, v) l -> 0 <= y (monomial_from_name k) /\ y (monomial_from_name k) <= 1)%Qc ->
  (CertProofs2.certificate_at y l - count (length l) * atol <= CertProofs2.certificate_at y (filter (fun p => negb (isclose0 (snd p))) l))%Qc.
Proof.
  intros Y. assert (A0 : (0 < atol)%Qc) by reflexivity. unfold CertProofs2.certificate_at, expr_at. induction l as [|(k & v) l IH]; [discriminate|].
  specialize (IH (fun k' v' H => Y k' v' (or_intror H))). destruct (Y k v (or_introl eq_refl)) as [Y0 Y1]. cbn [filter snd length]. rewrite count_S. cbn [map fst snd]. rewrite sumQ_cons. destruct (isclose0 v) eqn:E; cbn [negb].
  - unfold isclose0, isclose in E. apply qleb_true in E. replace (v - 0)%Qc with v in E by ring. replace (atol + rtol * qabs 0)%Qc with atol in E by (change (qabs 0) with 0%Qc; ring). apply qabs_bounds in E as [E1 E2].
    destruct (term_error v (y (monomial_from_name k)) atol E1 E2 Y0 Y1) as [T1 T2]. qclra.
  - cbn [map fst snd]. rewrite sumQ_cons. qclra.
Qed.
Lemma dual_one_constant P cert : NoDup (columns P) -> one_constant (lp_dual_certificate P cert).
Proof.
  intros N. unfold one_constant, lp_dual_certificate. assert (X : NoDup (map (fun p : key * Qc => monomial_from_name (fst p)) (combine (map Some (columns P)) cert))).
  { revert cert. induction (columns P) as [|m l IH]; intros cert; [constructor|]. inversion N as [|? ? NI N']; subst. destruct cert as [|v cert]; [constructor|]. cbn [map combine fst monomial_from_name]. constructor; [|apply IH, N'].
    intros H. apply in_map_iff in H as ((k & w) & Ek & Hk). apply in_combine_l in Hk. apply in_map_iff in Hk as (m' & <- & Hm'). cbn in Ek. subst. contradiction. }
  revert X. generalize (combine (map Some (columns P)) cert). intros l X. induction l as [|p l IH]; [constructor|]. cbn [map] in X. inversion X as [|? ? NI X']; subst. cbn [filter]. destruct (negb _); [|apply IH, X']. cbn [map]. constructor; [|apply IH, X'].
  intros H. apply NI. apply in_map_iff in H as (q & Eq & Hq). apply filter_In in Hq as [Hq _]. rewrite <- Eq. apply in_map_iff. exists q. split; [reflexivity|exact Hq].
Qed.
Lemma dual_entry P cert k v : In (k, v) (lp_dual_certificate P cert) -> exists j, j < length (columns P) /\ k = Some (nth j (columns P) []) /\ v = nth j cert 0%Qc /\ isclose0 v = false.
Proof.
  unfold lp_dual_certificate. rewrite filter_In. intros [H C]. cbn [snd] in C. apply negb_true_iff in C. apply (In_nth _ _ (None, 0%Qc)) in H as (j & Hj & E). assert (Hl := Hj). rewrite combine_length, map_length in Hl.
  assert (X : nth_error (combine (map Some (columns P)) cert) j = Some (k, v)) by (rewrite <- E; apply nth_error_nth', Hj). exists j. split; [lia|].
  clear E Hj Hl. revert j cert X. induction (columns P) as [|m l IH]; intros j cert X; [destruct j; discriminate|]. destruct cert as [|w cert]; [destruct j; discriminate|]. destruct j as [|j]; cbn in X |- *; [injection X as <- <-; auto|apply (IH j cert X)].
Qed.

Section Run.
Variables (sc : scenario) (W : wf_scenario sc) (Hout : forall o, In o (outcomes sc) -> 1 <= o) (Hset : forall k, In k (private_settings sc) -> 1 <= k) (Np : 0 < nr_parties sc).
Hypothesis FC : few_copies sc.
Variables (ao : bool) (r : relaxation) (G : generate sc ao false = Some r).
Notation c := (r_context r).
Notation P := (r_programme r).
Lemma column_le_one arr Pr m : inflation_of sc arr Pr -> In m (columns P) -> (moment_at (the_atom sc r Pr) m <= 1)%Qc.
Proof.
  intros IO Hm. destruct (generate_is sc W Hout FC ao false r G) as (prog & E & _ & _ & EA & EC & _). destruct IO as [B Iv IND _].
  assert (EY : the_atom sc r Pr = atom_probability sc prog Pr) by (unfold the_atom, atom_probability; rewrite EA; reflexivity). rewrite EY. rewrite EC in Hm. apply (In_nth _ _ []) in Hm as (j & Hj & <-).
  refine (eq_ind_r (fun z => (z <= 1)%Qc) _ (column_value sc W Hout FC prog ao E Pr B Iv IND j Hj)). pose proof (columns_ok sc W Hout ao prog E) as CF.
  assert (K : In (nth j (lp_columns prog) []) (lp_columns prog)) by (apply nth_In; unfold lists_of in Hj; rewrite !map_length in Hj; exact Hj).
  destruct (cf_measurable _ _ CF _ K) as (ms & J & Hms). destruct (B ms J) as (ws & [D D1] & _ & H). rewrite (H _ (cf_length _ _ CF _ K) Hms). rewrite <- D1. unfold prob.
  assert (X : (0 <= sumQ (map fst ws) - sumQ (map (fun q => if happens (snd q) (nth j (lp_columns prog) []) then fst q else 0) ws))%Qc); [|qclra].
  clear D1 H. induction ws as [|q ws IH]; [discriminate|]. cbn [map]. rewrite !sumQ_cons. specialize (IH (fun q' Hq' => D q' (or_intror Hq'))). specialize (D q (or_introl eq_refl)). destruct (happens _ _); qclra.
Qed.
Lemma known_marginal arr lpi only s0 s m v : lpi = false \/ only = true -> set_distribution sc r (Some arr) lpi only s0 = Some s -> In (m, v) (known s) ->
  compute_marginal c (lp_atom_marginal sc r arr) m = Some v.
Proof.
  intros LP E Hm. unfold set_distribution in E. destruct (distribution_values sc r arr) as [values|] eqn:EV; [|discriminate].
  assert (Sh : nd_shape arr = outcomes sc ++ private_settings sc) by (unfold distribution_values in EV; destruct (list_eq_dec _ _ _) as [Sh|]; [exact Sh|discriminate]).
  pose proof (supports_is sc W Hout FC ao false r G) as SI. pose proof (wf_set lp c values lpi only s0 s E) as Wf.
  assert (BC : forall m v, base lp c values m = Some v -> compute_marginal c (lp_atom_marginal sc r arr) m = Some v).
  { intros m' v' H. destruct (base_is sc W Hout Hset FC ao false r G arr values m' v' EV H) as [(i & Hi & K & -> & ->)|[-> ->]]; [|reflexivity].
    rewrite (marginal_is c _ (fun i => marginal_of sc arr (nth i (r_atoms r) [])) [i]).
    - f_equal. unfold moment_at. cbn. ring.
    - cbn [forallb]. rewrite K. reflexivity.
    - intros i' [<-|[]]. apply (marginal_computed sc W Hout Hset FC ao false r G arr i Sh Hi K). }
  apply (in_get meq m v (known s) (wf_known _ Wf)) in Hm. destruct only.
  - destruct (PropProgram.C22_only_specified lp c values lpi s0 s SI E) as [_ K]. rewrite K in Hm. apply BC, Hm.
  - destruct LP as [->|]; [|discriminate]. destruct values as [|q values'] eqn:EQ.
    + destruct (PropProgram.C22_without_values lp c false false s0 s SI E) as [_ K]. rewrite K in Hm. apply BC, Hm.
    + rewrite <- EQ in *. assert (NE : values <> []) by (rewrite EQ; discriminate).
      apply (PropProgram.C22_known_exactly lp c values false s0 s (dagger_ok sc W Hout FC ao false r G) SI NE E) in Hm as (_ & KV). unfold known_value in KV. cbn [andb] in KV. rewrite orb_false_r in KV.
      destruct ((2 <=? length m) && forallb (valued lp c values) m) eqn:D; [|apply BC, KV]. apply andb_prop in D as [_ D]. injection KV as <-.
      assert (AV : forall i, In i m -> i < length (r_atoms r) /\ is_knowable c i = true /\ atom_value lp c values i = Some (marginal_of sc arr (nth i (r_atoms r) []))).
      { intros i Hi. pose proof (proj1 (forallb_forall _ _) D i Hi) as V. unfold valued in V. destruct (atom_value lp c values i) as [w|] eqn:A; [|discriminate].
        destruct (atom_value_is sc W Hout Hset FC ao false r G arr values i w EV A) as (X & Y & ->). auto. }
      rewrite (marginal_is c _ (fun i => marginal_of sc arr (nth i (r_atoms r) [])) m).
      * f_equal. unfold moment_at, coefficient. f_equal. apply map_ext_in. intros i Hi. destruct (AV i Hi) as (_ & _ & ->). reflexivity.
      * apply forallb_forall. intros i Hi. apply AV, Hi.
      * intros i Hi. destruct (AV i Hi) as (Hl & K & _). apply (marginal_computed sc W Hout Hset FC ao false r G arr i Sh Hl K).
Qed.
Lemma no_zero_moment m : moment_is_zero c m = false.
Proof.
  destruct (generate_is sc W Hout FC ao false r G) as (prog & _ & _ & _ & _ & _ & _ & _ & _ & _ & EZ & _). unfold moment_is_zero. rewrite EZ. induction m; [reflexivity|exact IHm].
Qed.
Variables (s0 : state) (L0 : lower s0 = []) (U0 : upper s0 = []) (O0 : ProgramModel.objective s0 = []) (R0 : reachable lp c s0).
(** the columns of a certificate are known *)
Lemma certificate_columns arr lpi only nn rk ri s a t N0 y j : lpi = false \/ only = true -> set_distribution sc r (Some arr) lpi only s0 = Some s -> prepare_lp P nn rk ri s = Some a -> prepare a = Some t -> c_rows (s_matrix t) <= N0 ->
  j < length (columns P) -> nth j (certificate a t (map y (seq 0 N0))) 0%Qc <> 0%Qc -> In (nth j (columns P) []) (keys (known s)).
Proof.
  intros LP E EP ET LEN Hj NZ. destruct (in_dec meq (nth j (columns P) []) (keys (known s))) as [I|NI]; [exact I|]. exfalso. apply NZ.
  pose proof (programme_is_ok sc W Hout Hset Np FC ao false r G) as OK. pose proof (po_columns _ OK) as NC.
  set (cert := certificate a t (map y (seq 0 N0))) in *. set (x := fun k => if k =? j then 1%Qc else 0%Qc).
  destruct (args_fresh sc W Hout Hset Np FC ao r G s0 L0 U0 O0 R0 (Some arr) lpi only nn rk ri s a E EP) as (AO & _ & _).
  destruct (known_columns sc W Hout Hset FC ao false r G (Some arr) lpi only s0 s eq_refl E) as [KC _].
  destruct (fresh_state sc W Hout FC ao r G s0 L0 U0 O0 R0 _ _ _ _ E) as (EL & EU & EX & EX' & Wf & EO & R).
  assert (X1 : LPSolveSpec.certificate_at (length (columns P)) cert x = nth j cert 0%Qc).
  { unfold LPSolveSpec.certificate_at, total. rewrite (sumQ_ext _ _ (fun k => if k =? j then nth k cert 0 else 0)%Qc) by (intros k _; unfold x; destruct (k =? j); ring).
    assert (In j (seq 0 (length (columns P)))) by (apply in_seq; lia). pose proof (seq_NoDup (length (columns P)) 0) as N. revert H N. generalize (seq 0 (length (columns P))). clear. intros l. induction l as [|k l IH]; intros I N; [destruct I|]. cbn [map]. rewrite sumQ_cons. inversion N as [|? ? NI N']; subst.
    destruct I as [->|I]; [rewrite Nat.eqb_refl, sumQ_zero; [ring|]|]. { intros k Hk. destruct (Nat.eqb_spec k j); [subst; contradiction|reflexivity]. } destruct (Nat.eqb_spec k j); [subst; contradiction|]. rewrite (IH I N'). ring. }
  rewrite <- X1. unfold cert. rewrite (certificate_on _ a t N0 y (map (column P) (keys (known s))) x AO ET LEN).
  - apply sumQ_zero. intros k Hk. unfold x. destruct (Nat.eqb_spec k j); [|ring]. exfalso. subst k. apply in_map_iff in Hk as (m & Em & Hm). apply NI. replace (nth j (columns P) []) with m; [exact Hm|]. rewrite <- Em. unfold column. symmetry. apply (UniqueProofs.index_of_in m_eqb m_eqb_eq m (columns P) [] (KC m Hm)).
  - rewrite (prepared_is P nn s a rk ri EP). cbn. rewrite EO. reflexivity.
  - assert (ND : NoDup (keys (known s))) by apply (wf_known _ Wf). revert ND KC. generalize (keys (known s)). clear - NC. intros l ND KC. induction ND as [|m l Nm _ IH]; [constructor|]. cbn [map]. constructor; [|apply IH; intros m' Hm'; apply KC; right; exact Hm'].
    intros I. apply in_map_iff in I as (m' & Em & Hm'). apply Nm. replace m with m'; [exact Hm'|]. eapply (UniqueProofs.index_of_inj m_eqb m_eqb_eq); [apply KC; right; exact Hm'|apply KC; left; reflexivity|exact Em].
  - intros k Hk. apply in_map_iff in Hk as (m & <- & Hm). unfold column. apply (UniqueProofs.index_of_in m_eqb m_eqb_eq m (columns P) [] (KC m Hm)).
  - intros e He. rewrite (prepared_is P nn s a rk ri EP) in He. apply coo_vec_in in He as (m & v & I & ->). cbn [e_col]. apply (in_map (column P)), (in_map fst _ _ I).
Qed.
(** The value of the cleaned certificate: [y0] are the moments of a point. *)
Lemma evaluation_at arr' lpi only s' cert y0 : lpi = false \/ only = true -> set_distribution sc r (Some arr') lpi only s0 = Some s' ->
  (forall j, j < length (columns P) -> nth j cert 0%Qc <> 0%Qc -> In (nth j (columns P) []) (keys (known s'))) ->
  lp_point P true s' y0 -> (forall m, In m (columns P) -> (y0 m <= 1)%Qc) ->
  exists v, evaluate_certificate c (lp_atom_marginal sc r arr') (lp_dual_certificate P cert) = Some v /\
    forall f, (0 < f)%Qc -> (forall j, isclose0 (nth j cert 0%Qc) = false -> (f <= qabs (nth j cert 0))%Qc) ->
      let n := count (length (columns P)) in
      ((LPSolveSpec.certificate_at (length (columns P)) cert (spread P y0) < 0)%Qc \/ (- (n * (atol / f + default_tol + half / ten_to default_decimals)) <= v)%Qc).
Proof.
  intros LP E' KN PT LE. pose proof (programme_is_ok sc W Hout Hset Np FC ao false r G) as OK. pose proof (po_columns _ OK) as NC.
  set (dual := lp_dual_certificate P cert). assert (ONE := dual_one_constant P cert NC). fold dual in ONE.
  assert (EN : forall k v, In (k, v) dual -> exists j, j < length (columns P) /\ k = Some (nth j (columns P) []) /\ v = nth j cert 0%Qc /\ isclose0 v = false) by (intros k v; apply dual_entry).
  assert (YB : forall m, In m (columns P) -> (0 <= y0 m /\ y0 m <= 1)%Qc) by (intros m Hm; split; [apply (lpp_nonneg _ _ _ _ PT eq_refl m Hm)|apply LE, Hm]).
  assert (CM : forall k v, In (k, v) dual -> compute_marginal c (lp_atom_marginal sc r arr') (monomial_from_name k) = Some (y0 (monomial_from_name k))).
  { intros k v Hk. destruct (EN k v Hk) as (j & Hj & -> & Ev & C). cbn [monomial_from_name]. assert (NZ : nth j cert 0%Qc <> 0%Qc) by (rewrite <- Ev; intros ->; discriminate). specialize (KN j Hj NZ).
    apply in_map_iff in KN as ((m & w) & Em & Hm). cbn [fst] in Em. rewrite <- Em. rewrite (known_marginal arr' lpi only s0 s' m w LP E' Hm). f_equal. symmetry. apply (lpp_known _ _ _ _ PT m w Hm). }
  assert (LD : length dual <= length (columns P)).
  { unfold dual, lp_dual_certificate. etransitivity; [apply kept_length|]. rewrite combine_length, map_length. lia. }
  assert (AP : (0 < atol)%Qc) by reflexivity. assert (TP : (0 <= default_tol)%Qc) by discriminate. assert (HP : (0 <= half / ten_to default_decimals)%Qc) by discriminate.
  unfold evaluate_certificate. destruct dual as [|p0 dual'] eqn:ED.
  - exists 0%Qc. split; [reflexivity|]. cbv zeta. intros f Pf _. set (n := count (length (columns P))). right. assert (N0 : (0 <= n)%Qc) by apply count_nonneg. assert (D : (0 <= atol / f)%Qc) by (apply div_nonneg; [exact Pf|discriminate]). qcnra.
  - rewrite <- ED in *. assert (NEd : dual <> []) by (rewrite ED; discriminate). destruct (EN (fst p0) (snd p0)) as (j0 & _ & _ & _ & C0); [rewrite ED; left; destruct p0; reflexivity|].
    assert (SOME : existsb (fun p => negb (isclose0 (snd p))) dual = true) by (rewrite ED; cbn [existsb]; rewrite C0; reflexivity).
    destruct (certificate_as_dict c true default_tol default_decimals dual) as [D|] eqn:EC.
    2:{ exfalso. unfold certificate_as_dict in EC. destruct (forallb _ dual); [discriminate|]. destruct (clean_coefficients dual default_tol default_decimals) eqn:EL; [discriminate|]. apply PropSearch.C31_fails_exactly in EL as [_ EL].
        specialize (EL p0). rewrite ED in EL. specialize (EL (or_introl eq_refl)). unfold isclose0, isclose in C0. rewrite <- not_true_iff_false, qleb_true in C0. apply C0. replace (snd p0 - 0)%Qc with (snd p0) by ring. eapply Qcle_trans; [exact EL|discriminate]. }
    destruct (dict_cleaned c default_tol default_decimals dual D ONE EC SOME) as (fc & l & Pfc & (kc & Hkc & Ekc) & CL & ->).
    assert (KL : map fst l = map fst dual) by apply (cleaned_keys _ _ _ _ _ CL).
    assert (IM : image c l = map (fun p => (monomial_from_name (fst p), snd p)) l).
    { unfold image. f_equal. generalize l. intros l1. induction l1 as [|p l1 IH]; [reflexivity|]. cbn [filter]. rewrite no_zero_moment. cbn [negb]. rewrite IH. reflexivity. }
    exists (expr_at y0 (image c l)). split.
    + rewrite (evaluate_is c _ y0).
      * f_equal. apply sanitised_exact. intros m v Hm. rewrite IM in Hm. apply in_map_iff in Hm as (q & Eq & Hq). injection Eq as _ Ev. intros CV.
        assert (Z : v = 0%Qc \/ exists z, v = (z2q z / ten_to default_decimals)%Qc).
        { rewrite <- Ev. clear - CL Hq. induction CL as [|p q' dl l' C _ IH]; [destruct Hq|]. destruct Hq as [->|Hq]; [|apply IH, Hq]. destruct C as (_ & [(_ & C)|(_ & _ & C)] & _); [left; exact C|right; exact C]. }
        destruct Z as [Z|Z]; [exact Z|]. apply (decimals_kept default_decimals v); [unfold default_decimals; lia|exact Z|exact CV].
      * intros m Hm. apply (proj1 (sanitise_key (fun m : moment => m) _ m)) in Hm as (k & v & Hk & <- & _). rewrite IM in Hk. apply in_map_iff in Hk as (q & Eq & Hq). injection Eq as <- _.
        assert (Hf : In (fst q) (map fst dual)) by (rewrite <- KL; apply in_map, Hq). apply in_map_iff in Hf as ((k & w) & Ek & Hk). cbn [fst] in Ek. rewrite <- Ek. apply (CM k w Hk).
    + cbv zeta. intros f Pf Hf. set (n := count (length (columns P))). destruct (Qclt_le_dec (LPSolveSpec.certificate_at (length (columns P)) cert (spread P y0)) 0) as [|NN]; [left; assumption|]. right.
      rewrite (image_value c y0 l) by (intros m Hm; rewrite no_zero_moment in Hm; discriminate).
      assert (YK : forall k v, In (k, v) dual -> (0 <= y0 (monomial_from_name k) /\ y0 (monomial_from_name k) <= 1)%Qc) by (intros k v Hk; destruct (EN k v Hk) as (j & Hj & -> & _); apply YB, nth_In, Hj).
      pose proof (cleaned_value default_tol fc default_decimals (fun k => y0 (monomial_from_name k)) dual l Pfc YK CL) as [CV _].
      assert (DC : (- (n * atol) <= CertProofs2.certificate_at y0 dual)%Qc).
      { pose proof (dropped_close y0 (combine (map Some (columns P)) cert)) as DC. unfold LPSolveSpec.certificate_at, total in NN. rewrite columns_sum in DC. unfold spread in NN.
        assert (CC : (count (length (combine (map Some (columns P)) cert)) <= n)%Qc) by (apply count_le; rewrite combine_length, map_length; lia).
        assert (DC' := DC (fun k v Hk => ltac:(apply in_combine_l in Hk; apply in_map_iff in Hk as (m & <- & Hm); apply YB, Hm))). change (filter (fun p : key * Qc => negb (isclose0 (snd p))) (combine (map Some (columns P)) cert)) with dual in DC'.
        eapply Qcle_trans; [|exact DC']. set (S0 := sumQ _) in *. assert (CA : (count (length (combine (map Some (columns P)) cert)) * atol <= n * atol)%Qc) by (apply Qcmult_le_compat_r; [exact CC|discriminate]). set (U := (count (length (combine (map Some (columns P)) cert)) * atol)%Qc) in *. set (V := (n * atol)%Qc) in *. change (0 <= S0)%Qc in NN. change (- V <= S0 - U)%Qc. clear - NN CA. clearbody U V S0. qclra. }
      assert (FC' : (f <= fc)%Qc). { destruct kc as (k & w). destruct (EN k w Hkc) as (j & _ & _ & Ew & C). cbn [snd] in Ekc. rewrite <- Ekc, Ew. apply Hf. rewrite <- Ew. exact C. }
      assert (NFC : fc <> 0%Qc) by (intros Q; rewrite Q in Pfc; discriminate). assert (NF : f <> 0%Qc) by (intros Q; rewrite Q in Pf; discriminate).
      unfold CertProofs2.certificate_at in DC |- *. set (e := expr_at (fun k => y0 (monomial_from_name k)) dual) in *. set (B := (default_tol + half / ten_to default_decimals)%Qc) in *.
      change (qabs default_tol) with default_tol in CV. fold B in CV. assert (BP : (0 <= B)%Qc) by discriminate.
      assert (CN : (count (length dual) <= n)%Qc) by (apply count_le, LD). assert (N0 : (0 <= n)%Qc) by apply count_nonneg.
      assert (Q1 : (- (n * (atol / f)) <= e / fc)%Qc).
      { set (u := (e / fc)%Qc). assert (U : (u * fc = e)%Qc) by (unfold u; field; exact NFC). set (w := (atol / f)%Qc). assert (Wf : (w * f = atol)%Qc) by (unfold w; field; exact NF). rewrite <- U, <- Wf in DC.
        destruct (Qclt_le_dec u (- (n * w))) as [H|H]; [|exact H]. exfalso. assert (W0 : (0 <= w)%Qc) by (apply div_nonneg; [exact Pf|discriminate]). clear - DC H Pf FC' W0 N0. assert (0 <= n * w)%Qc by qcnra. set (k := (n * w)%Qc) in *. replace (n * (w * f))%Qc with (k * f)%Qc in DC by (unfold k; ring).
        assert (X : (u * fc < - k * fc)%Qc) by qcnra. assert (Y : (k * f <= k * fc)%Qc) by qcnra. qclra. }
      assert (Q2 : (count (length dual) * B <= n * B)%Qc) by qcnra. replace (n * (atol / f + default_tol + half / ten_to default_decimals))%Qc with (n * (atol / f) + n * B)%Qc by (unfold B; ring). qclra.
Qed.
End Run.
