From Coq Require Import Permutation Relation_Operators QArith Qcanon.
From Verif Require Import CanonModel CanonSpec CanonProofs CanonProofs2 ScenarioModel ScenarioSpec SymModel SymSpec FactorModel FactorSpec
  ScenarioProofs SymProofs UniqueProofs FactorProofs ColsSpec PhysModel PhysSpec PhysProofs.
Open Scope nat_scope.

(** a square of operators of the product itself *)
Definition sum_free_square (nc ortho : table) (w : word) : Prop :=
  exists u, incl u w /\ proj_eq nc ortho w (rev u ++ u).
Lemma sfs_square nc ortho w : sum_free_square nc ortho w -> is_square nc ortho w.
Proof. intros (u & _ & H). exists u. exact H. Qed.

Section Sq.
Variables (nc ortho : table).
Hypothesis nc_sym : forall a b, nc a b = nc b a.
Notation "u == v" := (proj_eq nc ortho u v) (at level 70).
Lemma pe_ctx p q u v : u == v -> p ++ u ++ q == p ++ v ++ q.
Proof.
  induction 1 as [w|u v _ IH|u v w _ IH1 _ IH2|u a b v H|u a v|u a b v H|u v].
  - apply pe_refl.
  - apply pe_sym, IH.
  - eapply pe_trans; eassumption.
  - rewrite <- !app_assoc. cbn [app]. rewrite (app_assoc p u), (app_assoc p u (b :: _)). apply pe_comm, H.
  - rewrite <- !app_assoc. cbn [app]. rewrite (app_assoc p u), (app_assoc p u (a :: v ++ q)). apply pe_idem.
  - rewrite <- !app_assoc. cbn [app]. rewrite (app_assoc p u). eapply pe_trans; [apply pe_ortho, H|]. apply pe_sym, pe_zero.
  - rewrite <- !app_assoc. cbn [app]. rewrite (app_assoc p u). eapply pe_trans; [apply pe_zero|]. apply pe_sym, pe_zero.
Qed.
Lemma pe_app u u' v v' : u == u' -> v == v' -> u ++ v == u' ++ v'.
Proof.
  intros H H'. eapply pe_trans; [apply (pe_ctx [] v _ _ H)|]. pose proof (pe_ctx u' [] _ _ H') as K. rewrite !app_nil_r in K. exact K.
Qed.
Lemma pe_commute u v : (forall a b, In a u -> In b v -> nc a b = false) -> u ++ v == v ++ u.
Proof.
  induction u as [|a u IH]; intros H; [rewrite app_nil_r; apply pe_refl|].
  eapply pe_trans; [apply (pe_app [a] [a] (u ++ v) (v ++ u)); [apply pe_refl|apply IH; intros; apply H; [right|]; assumption]|].
  apply pe_sym, ce_pe, ce_move; [exact nc_sym|]. intros b Hb. apply H; [left; reflexivity|exact Hb].
Qed.
Lemma palindrome_square w : palindrome w -> sum_free_square nc ortho w.
Proof.
  unfold sum_free_square. remember (length w) as n eqn:En. revert w En. induction n as [n IH] using lt_wf_ind. intros w En P.
  destruct (list_ends w) as [->|[(x & ->)|(x & m & y & ->)]].
  - exists []. split; [intros ? []|apply pe_refl].
  - exists [x]. split; [intros ? H; exact H|]. apply pe_sym, (pe_idem nc ortho [] x []).
  - apply palin_ends in P as [-> P]. destruct (IH (length m)) with (w := m) as (u & Hu & E); [subst; cbn; rewrite app_length; lia|reflexivity|exact P|].
    exists (u ++ [y]). split.
    + intros z Hz. apply in_app_or in Hz as [Hz|Hz]; [right; apply in_or_app; left; apply Hu, Hz|right; apply in_or_app; right; exact Hz].
    + rewrite rev_app_distr. cbn [rev app]. pose proof (pe_ctx [y] [y] _ _ E) as K. rewrite <- app_assoc in K. exact K.
Qed.
(** a labelled word whose different classes commute splits into its classes *)
Lemma split_filter (f : nat * nat * nat -> bool) lw :
  (forall q q', In q lw -> In q' lw -> f q = true -> f q' = false -> nc (snd q) (snd q') = false) ->
  map snd lw == map snd (filter f lw) ++ map snd (filter (fun q => negb (f q)) lw).
Proof.
  induction lw as [|q lw IH]; intros H; [apply pe_refl|].
  assert (IH' := IH ltac:(intros; apply H; try (right; assumption); assumption)).
  cbn [map filter]. destruct (f q) eqn:E; cbn [negb map].
  - apply (pe_app [snd q] [snd q]); [apply pe_refl|exact IH'].
  - eapply pe_trans; [apply (pe_app [snd q] [snd q] _ _ (pe_refl _ _ _) IH')|].
    change ([snd q] ++ map snd (filter f lw) ++ map snd (filter (fun q0 => negb (f q0)) lw)) with ((snd q :: map snd (filter f lw) ++ map snd (filter (fun q0 => negb (f q0)) lw))).
    apply pe_sym, ce_pe, ce_move; [exact nc_sym|]. intros b Hb. apply in_map_iff in Hb as (q' & <- & Hq'). apply filter_In in Hq' as [Hq' Ef].
    rewrite nc_sym. apply H; auto; [right; exact Hq'|left; reflexivity].
Qed.
Definition leqb (a b : nat * nat) : bool := (fst a =? fst b) && (snd a =? snd b).
Lemma leqb_true a b : leqb a b = true <-> a = b.
Proof. unfold leqb. destruct a, b. cbn. rewrite andb_true_iff, !Nat.eqb_eq. split; [intros [-> ->]; reflexivity|intros E; injection E; auto]. Qed.
Lemma filter_filter {A} (f g : A -> bool) l : filter f (filter g l) = filter (fun x => f x && g x) l.
Proof. induction l as [|x l IH]; [reflexivity|]. cbn [filter]. destruct (g x) eqn:E; cbn [filter]; rewrite ?E, ?andb_true_r, ?andb_false_r, IH; reflexivity. Qed.
Lemma labelled_square n : forall lw : list (nat * nat * nat), length lw <= n ->
  (forall q q', In q lw -> In q' lw -> fst q <> fst q' -> nc (snd q) (snd q') = false) ->
  (forall l, palindrome (map snd (filter (fun q => leqb (fst q) l) lw))) ->
  sum_free_square nc ortho (map snd lw).
Proof.
  induction n as [|n IH]; intros lw Ln Hc Hp.
  - destruct lw; [|cbn in Ln; lia]. exists []. split; [intros ? []|apply pe_refl].
  - destruct lw as [|q0 lw0]; [exists []; split; [intros ? []|apply pe_refl]|]. set (lw := q0 :: lw0) in *.
    set (f := fun q : nat * nat * nat => leqb (fst q) (fst q0)).
    assert (S : map snd lw == map snd (filter f lw) ++ map snd (filter (fun q => negb (f q)) lw)).
    { apply split_filter. intros q q' Hq Hq' E E'. apply Hc; try assumption. intros K. apply leqb_true in E.
      assert (f q' = true); [|congruence]. apply leqb_true. congruence. }
    destruct (palindrome_square _ (Hp (fst q0))) as (v & Iv & Ev). fold f in Iv, Ev.
    destruct (IH (filter (fun q => negb (f q)) lw)) as (u & Iu & Eu).
    + unfold lw at 1. cbn [filter]. assert (Ef : f q0 = true) by (apply leqb_true; reflexivity). rewrite Ef. cbn [negb].
      pose proof (PhysProofs.filter_len (fun q => negb (f q)) lw0) as K. unfold lw in Ln. cbn [length] in Ln. lia.
    + intros q q' Hq Hq'. apply filter_In in Hq as [Hq _]. apply filter_In in Hq' as [Hq' _]. apply Hc; assumption.
    + intros l. rewrite filter_filter. destruct (leqb l (fst q0)) eqn:El.
      * apply leqb_true in El. subst l. replace (filter _ lw) with (@nil (nat * nat * nat)); [reflexivity|].
        symmetry. clear. induction lw as [|q l IH]; [reflexivity|]. cbn [filter]. unfold f at 1. destruct (leqb (fst q) (fst q0)); cbn; exact IH.
      * replace (filter _ lw) with (filter (fun q => leqb (fst q) l) lw); [apply Hp|]. apply filter_ext. intros q. unfold f.
        destruct (leqb (fst q) l) eqn:E1; [|reflexivity]. apply leqb_true in E1. rewrite E1, El. reflexivity.
    + assert (Sub : forall g x, In x (map snd (filter g lw)) -> exists q, In q lw /\ g q = true /\ snd q = x).
      { intros g x Hx. apply in_map_iff in Hx as (q & Eq & Hq). apply filter_In in Hq as [Hq Hg]. eauto. }
      exists (u ++ v). split.
      * intros x Hx. apply in_app_or in Hx as [Hx|Hx]; [apply Iu in Hx|apply Iv in Hx]; apply Sub in Hx as (q & Hq & _ & <-); apply in_map, Hq.
      * rewrite rev_app_distr. eapply pe_trans; [exact S|]. eapply pe_trans; [apply (pe_app _ _ _ _ Ev Eu)|].
        rewrite <- !app_assoc. apply pe_app; [apply pe_refl|]. eapply pe_trans; [apply (pe_commute v (rev u ++ u))|].
        2:{ rewrite <- app_assoc. apply pe_refl. }
        intros a b Ha Hb. apply Iv in Ha. assert (Hb' : In b u) by (apply in_app_or in Hb as [Hb|Hb]; [apply in_rev; rewrite ?rev_involutive|]; assumption).
        apply Iu in Hb'. apply Sub in Ha as (q & Hq & Fq & <-). apply Sub in Hb' as (q' & Hq' & Fq' & <-).
        apply Hc; try assumption. intros K. apply negb_true_iff in Fq'. apply leqb_true in Fq. assert (f q' = true) by (apply leqb_true; congruence). congruence.
Qed.
Lemma square_nonneg L w : state nc ortho L -> is_square nc ortho w -> (0 <= L w)%Qc.
Proof. intros [E _ P] (u & H). rewrite (E _ _ H). apply P. Qed.
End Sq.

(** the two-dimensional array of a monomial, as the code obtains it: self._lexorder[lexmon] *)
Section Sound.
Variables (sc : scenario) (w : word).
Hypothesis W : wf_scenario sc.
Hypothesis Sep : separate_parties sc.
Hypothesis Hw : forall x, In x w -> 1 <= x <= length (lexorder sc).
Hypothesis Hlen : length w <= 255.
Let m : list row := map (fun x => nth x (sdp_lexorder sc) []) w.
Let nc := sdp_notcomm sc.

Lemma m_len : length m = length w. Proof. apply map_length. Qed.
Lemma m_nth i : i < length w -> nth i m [] = nth (nth i w 0) (sdp_lexorder sc) [].
Proof.
  intros H. unfold m. rewrite nth_indep with (d' := nth 0 (sdp_lexorder sc) []) by (rewrite map_length; exact H).
  apply (map_nth (fun x => nth x (sdp_lexorder sc) [])).
Qed.
Lemma m_op i : i < length w -> exists p c s o, nth i m [] = mkrow (p + 1) c s o /\ valid_operator sc p c s o /\
  exists k, nth i w 0 = S k /\ nth_error (lexorder sc) k = Some (mkrow (p + 1) c s o).
Proof.
  intros H. rewrite m_nth by exact H. pose proof (Hw (nth i w 0) (nth_In _ _ H)) as R. destruct (nth i w 0) as [|k]; [lia|].
  destruct (lexorder_parts sc k W ltac:(lia)) as (p & c & s & o & E & V). exists p, c, s, o.
  split; [unfold sdp_lexorder; cbn [nth]; apply nth_error_nth, E|]. split; [exact V|]. exists k. auto.
Qed.
Lemma m_copies i : i < length m -> length (row_copies (nth i m [])) = nr_sources sc.
Proof. rewrite m_len. intros H. destruct (m_op i H) as (p & c & s & o & -> & V & _). rewrite mkrow_copies. apply V. Qed.
Lemma m_len255 : length m <= 255. Proof. rewrite m_len. exact Hlen. Qed.

Lemma unlinked_commute i j : i < length w -> j < length w -> ~ party_adjacent m i j -> nc (nth i w 0) (nth j w 0) = false.
Proof.
  intros Hi Hj N. destruct (m_op i Hi) as (p & c & s & o & Ei & Vi & k & Ek & Lk). destruct (m_op j Hj) as (q & c' & s' & o' & Ej & Vj & k' & Ek' & Lk').
  rewrite Ek, Ek'. unfold nc. cbn [sdp_notcomm]. apply (default_notcomm_spec sc k k' _ _ _ _ _ _ _ _ W Lk Lk'). left.
  intros a src Ha (Cl & J). destruct (Nat.eq_dec p q) as [<-|Hpq].
  - intros E. apply N. split; [rewrite m_len; exact Hi|]. split; [rewrite m_len; exact Hj|]. rewrite Ei, Ej, !mkrow_party, !mkrow_copies.
    split; [reflexivity|]. exists a. split; [|exact E]. destruct Vi as (_ & _ & V & _). destruct (V a src Ha) as [V1 _].
    assert (R : reaches src p) by (destruct J as [[_ J]|(l & L1 & _ & L3 & _)]; [left; exact J|right; eauto]). specialize (V1 R). lia.
  - exfalso. destruct J as [[X _]|(l & L1 & L2 & L3 & L4)]; [contradiction|]. apply Hpq. eapply Sep; eauto. eapply nth_error_In, Ha.
Qed.

Definition plabel (i : nat) : nat * nat :=
  let p := row_party (nth i m []) in (p, nth (index_of Nat.eqb i (pidx m p)) (plab m p) 0).
Lemma pidx_pos i : i < length m -> index_of Nat.eqb i (pidx m (row_party (nth i m []))) < length (pidx m (row_party (nth i m []))) /\
  nth (index_of Nat.eqb i (pidx m (row_party (nth i m [])))) (pidx m (row_party (nth i m []))) 0 = i.
Proof. intros H. apply (index_of_in Nat.eqb Nat.eqb_eq). apply (proj2 (pidx_in m _ i)). split; [exact H|reflexivity]. Qed.
Lemma plabel_linked i j : i < length m -> j < length m -> (plabel i = plabel j <-> party_linked m i j).
Proof.
  intros Hi Hj. destruct (pidx_pos i Hi) as [Pi Ei]. destruct (pidx_pos j Hj) as [Pj Ej].
  pose proof (plab_spec m (nr_sources sc) m_len255 m_copies) as PS. split.
  - unfold plabel. intros E. injection E as E1 E2. rewrite <- E1 in Pj, Ej, E2. apply PS in E2; [|assumption..]. rewrite Ei, Ej in E2. exact E2.
  - intros L. pose proof (linked_party m i j L) as E1. unfold plabel. rewrite E1. f_equal. rewrite E1 in Pi, Ei.
    apply PS; [assumption..|]. rewrite Ei, Ej. exact L.
Qed.
Let lw : list (nat * nat * nat) := map (fun i => (plabel i, nth i w 0)) (seq 0 (length w)).
Lemma lw_snd : map snd lw = w.
Proof.
  unfold lw. rewrite map_map. cbn [snd]. clear. induction w as [|x w' IH]; [reflexivity|]. cbn [length seq map nth]. f_equal.
  rewrite <- seq_shift, map_map. cbn [nth]. exact IH.
Qed.
Lemma filter_map {A B} (f : A -> B) (g : B -> bool) l : filter g (map f l) = map f (filter (fun x => g (f x)) l).
Proof. induction l as [|x l IH]; [reflexivity|]. cbn. destruct (g (f x)); cbn; rewrite IH; reflexivity. Qed.
Lemma op_inj x y : 1 <= x <= length (lexorder sc) -> 1 <= y <= length (lexorder sc) -> nth x (sdp_lexorder sc) [] = nth y (sdp_lexorder sc) [] -> x = y.
Proof.
  intros Hx Hy E. destruct x as [|x], y as [|y]; try lia. unfold sdp_lexorder in E. cbn [nth] in E. f_equal.
  apply (proj1 (NoDup_nth (lexorder sc) []) (lexorder_NoDup sc W)); [lia..|exact E].
Qed.
Lemma map_inj {A B} (f : A -> B) l l' : (forall x y, In x l -> In y l' -> f x = f y -> x = y) -> map f l = map f l' -> l = l'.
Proof.
  revert l'. induction l as [|x l IH]; intros [|y l'] H E; try discriminate; [reflexivity|]. cbn in E. injection E as E1 E2. f_equal.
  - apply H; [left; reflexivity..|exact E1].
  - apply IH; [|exact E2]. intros; apply H; try (right; assumption); assumption.
Qed.
Theorem physical_sound : nb_is_physical true m = Some true -> sum_free_square nc (sdp_orthomat sc) w.
Proof.
  intros P. destruct (physical_iff m (nr_sources sc) m_len255 m_copies true) as (b & Eb & Hb).
  rewrite P in Eb. injection Eb as <-. pose proof (proj1 Hb eq_refl) as HF. clear Hb P. cbn [good_rows] in HF.
  rewrite <- lw_snd. apply labelled_square with (n := length lw); [|reflexivity| |].
  - apply (gt_nc_sym _ _ (scenario_good_tables sc W)).
  - intros q q' Hq Hq'. unfold lw in Hq, Hq'. apply in_map_iff in Hq as (i & <- & Hi). apply in_map_iff in Hq' as (j & <- & Hj).
    cbn [fst snd]. apply in_seq in Hi, Hj. intros Hne. apply unlinked_commute; [lia..|]. intros Adj. apply Hne.
    apply plabel_linked; [rewrite m_len; lia..|]. apply rst_step, Adj.
  - intros l. unfold lw. rewrite filter_map, map_map. cbn [fst snd].
    set (idx := filter (fun i => leqb (plabel i) l) (seq 0 (length w))).
    destruct idx as [|i0 rest] eqn:Ei; [reflexivity|]. rewrite <- Ei.
    assert (I0 : In i0 idx) by (rewrite Ei; left; reflexivity). apply filter_In in I0 as [I0 L0]. apply in_seq in I0. apply leqb_true in L0.
    assert (IF : is_factor m idx).
    { exists i0. split; [rewrite m_len; lia|]. split.
      - intros j. unfold idx. rewrite filter_In, in_seq, m_len, leqb_true. split.
        + intros [H1 H2]. split; [lia|]. apply plabel_linked; [rewrite m_len; lia..|congruence].
        + intros [H1 H2]. split; [lia|]. apply plabel_linked in H2; [congruence|rewrite m_len; lia..].
      - unfold idx. apply (mono_filter m m_len255). intros x y Hxy. rewrite seq_length in Hxy. rewrite !seq_nth by lia. lia. }
    specialize (HF idx IF). unfold palindrome, factor_rows in *.
    assert (E : map (fun k => nth k m []) idx = map (fun x => nth x (sdp_lexorder sc) []) (map (fun i => nth i w 0) idx)).
    { rewrite map_map. apply map_ext_in. intros k Hk. apply filter_In in Hk as [Hk _]. apply in_seq in Hk. apply m_nth. lia. }
    rewrite E, <- map_rev in HF. apply map_inj in HF; [exact HF|].
    assert (R : forall x, In x (map (fun i => nth i w 0) idx) -> 1 <= x <= length (lexorder sc)).
    { intros x Hx. apply in_map_iff in Hx as (k & <- & Hk). apply filter_In in Hk as [Hk _]. apply in_seq in Hk. apply Hw, nth_In. lia. }
    intros x y Hx Hy. apply in_rev in Hx. apply op_inj; apply R; assumption.
Qed.
(** without the sandwich rule: pairwise commuting operators *)
Theorem physical_commuting i j : nb_is_physical false m = Some true -> i < length w -> j < length w -> nc (nth i w 0) (nth j w 0) = false.
Proof.
  intros P Hi Hj. destruct (physical_iff m (nr_sources sc) m_len255 m_copies false) as (b & Eb & Hb).
  rewrite P in Eb. injection Eb as <-. pose proof (proj1 Hb eq_refl) as HF. clear Hb P. cbn [good_rows] in HF.
  destruct (Nat.eq_dec i j) as [->|Hne]; [apply (gt_nc_diag _ _ (scenario_good_tables sc W))|]. apply unlinked_commute; [assumption..|]. intros Adj.
  set (idx := filter (fun k => leqb (plabel k) (plabel i)) (seq 0 (length w))).
  assert (IF : is_factor m idx).
  { exists i. split; [rewrite m_len; lia|]. split.
    - intros k. unfold idx. rewrite filter_In, in_seq, m_len, leqb_true. split.
      + intros [H1 H2]. split; [lia|]. apply plabel_linked; [rewrite m_len; lia..|congruence].
      + intros [H1 H2]. split; [lia|]. apply plabel_linked in H2; [congruence|rewrite m_len; lia..].
    - unfold idx. apply (mono_filter m m_len255). intros x y Hxy. rewrite seq_length in Hxy. rewrite !seq_nth by lia. lia. }
  specialize (HF idx IF). unfold factor_rows in HF. rewrite map_length in HF.
  assert (Ii : In i idx) by (apply filter_In; split; [apply in_seq; lia|apply leqb_true; reflexivity]).
  assert (Ij : In j idx).
  { apply filter_In; split; [apply in_seq; lia|]. apply leqb_true. symmetry. apply plabel_linked; [rewrite m_len; lia..|]. apply rst_step, Adj. }
  destruct idx as [|x [|y r]]; [destruct Ii| |cbn in HF; lia]. destruct Ii as [<-|[]], Ij as [<-|[]]. congruence.
Qed.
End Sound.
