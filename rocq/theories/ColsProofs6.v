(** Proofs about column generation, part 6: the columns of the three textual specifications, and
    their invariance under the symmetries of the inflation. *)
From Coq Require Import Permutation Sorted.
From Verif Require Import CanonModel CanonSpec CanonProofs CanonProofs2 ScenarioModel ScenarioSpec ScenarioProofs
  SymModel SymSpec SymProofs LPModel ColumnModel ColumnSpec ColumnProofs ColumnProofs3 MemoSpec
  ColsModel MemoModel MemoProofs ColsSpec ColsProofs ColsProofs2 ColsProofs3 ColsProofs4 ColsProofs5.
Close Scope Q_scope. Close Scope Qc_scope. Open Scope nat_scope.

Lemma no_duplicates_iff l : NoDup l -> no_duplicates l = true.
Proof.
  induction 1 as [|x l H N IH]; [reflexivity|]. cbn [no_duplicates]. rewrite IH, andb_true_r. apply negb_true_iff.
  destruct (seen x l) eqn:E; [|reflexivity]. apply seen_iff in E. contradiction.
Qed.
Lemma finish_NoDup l : NoDup l -> finish l = l.
Proof. intros H. unfold finish. rewrite no_duplicates_iff by exact H. reflexivity. Qed.

Section All.
Variables (sc : scenario) (hc : list bool) (commuting : bool).
Hypothesis W : wf_scenario sc.
Notation nc := (sdp_notcomm sc).
Notation ortho := (sdp_orthomat sc).
Notation L := (S (length (lexorder sc))).
Hypothesis Hc : commuting = true -> forall a b, nc a b = false.
Let G : good_tables nc ortho := scenario_good_tables sc W.

Lemma usable_range w x : usable_word sc hc w -> In x w -> x < L.
Proof.
  intros U Hx. destruct (U x Hx) as (p & _ & c & s & o & E & _). change L with (length (sdp_lexorder sc)). apply nth_error_Some. rewrite E. discriminate.
Qed.
Lemma make_good cols : NoDup cols -> (forall w, In w cols -> usable_word sc hc w) -> (forall w, In w cols -> canon sc commuting w = Some w) ->
  good_columns nc ortho L cols.
Proof.
  intros N U C. split; [exact N| |].
  - intros w x Hw Hx. apply (usable_range w x (U w Hw) Hx).
  - intros w Hw. rewrite <- (F_general nc ortho commuting G Hc). apply C, Hw.
Qed.

Lemma npa_bound level mml m : length m <= npa_length level mml <-> npa_allowed level mml m.
Proof.
  unfold npa_length, npa_allowed, within. destruct (Nat.ltb_spec 0 mml), (Nat.ltb_spec mml level); cbn [andb]; lia.
Qed.
Theorem npa_columns level mml : separate_parties sc ->
  exists cols, build_columns sc hc commuting (Npa level) mml = Some cols /\
    columns_for sc hc (npa_allowed level mml) cols /\ good_columns nc ortho L cols.
Proof.
  intros Sep. destruct (npa_correct sc hc commuting W Hc Sep level mml) as (cols & E & N & Hh & D & S1 & C1).
  exists cols. cbn [build_columns]. rewrite E. cbn [option_map]. rewrite finish_NoDup by exact N. split; [reflexivity|]. split; [split|].
  - exact Hh.
  - exact D.
  - intros w Hw. destruct (S1 w Hw) as (Z & U & Lw & _). split; [exact U|]. split; [apply npa_bound, Lw|exact Z].
  - intros m U A. apply C1; [exact U|apply npa_bound, A].
  - apply make_good; [exact N| |]; intros w Hw; apply S1, Hw.
Qed.

Lemma local_bound lengths mml m : length lengths = nr_parties sc -> usable_word sc hc m ->
  (local_allowed sc lengths mml m <-> length m <= local_length lengths mml /\ forall p, party_count sc p m <= nth p lengths 0).
Proof.
  intros HL U. unfold local_allowed, within, local_length.
  assert (Out : forall p, nr_parties sc <= p -> party_count sc p m = 0).
  { intros p Hp. rewrite (party_count_occ sc hc m p U). apply count_occ_not_In. intros K. apply in_map_iff in K as (x & E & Hx).
    destruct (U x Hx) as (q & Hq). rewrite (usable_party sc hc x q Hq) in E. destruct Hq as (Hq & _). lia. }
  assert (Len : length m = list_sum (freq_of sc (map (party_of sc) m))).
  { rewrite list_sum_counts; [rewrite map_length; reflexivity|]. intros p Hp. apply in_map_iff in Hp as (x & <- & Hx).
    destruct (U x Hx) as (q & Hq). rewrite (usable_party sc hc x q Hq). apply Hq. }
  assert (LS : (forall p, p < nr_parties sc -> party_count sc p m <= nth p lengths 0) -> length m <= list_sum lengths).
  { intros H. rewrite Len. unfold freq_of. rewrite <- HL in H |- *. clear -H U.
    assert (K : forall a l, (forall p, p < length l -> count_occ Nat.eq_dec (map (party_of sc) m) (a + p) <= nth p l 0) ->
      list_sum (map (fun p => count_occ Nat.eq_dec (map (party_of sc) m) p) (seq a (length l))) <= list_sum l).
    { intros a l. revert a. induction l as [|x l IH]; intros a K; [cbn; lia|]. cbn [length seq map list_sum fold_right]. 
      pose proof (K 0 ltac:(cbn; lia)) as K0. rewrite Nat.add_0_r in K0. cbn [nth] in K0.
      specialize (IH (S a)). unfold list_sum in *. cbn [fold_right]. apply Nat.add_le_mono; [exact K0|]. apply IH. intros p Hp. specialize (K (S p) ltac:(cbn; lia)). cbn [nth] in K.
      rewrite Nat.add_succ_r in K. exact K. }
    apply K. intros p Hp. rewrite <- (party_count_occ sc hc m _ U). apply H, Hp. }
  split.
  - intros [H1 H2]. split.
    + specialize (LS H1). destruct (Nat.ltb_spec 0 mml), (Nat.ltb_spec mml (list_sum lengths)); cbn [andb]; lia.
    + intros p. destruct (Nat.lt_ge_cases p (nr_parties sc)) as [Lp|Lp]; [apply H1, Lp|]. rewrite Out by exact Lp. lia.
  - intros [H1 H2]. split; [intros p _; apply H2|]. destruct (Nat.ltb_spec 0 mml), (Nat.ltb_spec mml (list_sum lengths)); cbn [andb] in H1; lia.
Qed.
Theorem local_columns lengths mml : separate_parties sc -> length lengths = nr_parties sc ->
  exists cols, build_columns sc hc commuting (Local lengths) mml = Some cols /\
    columns_for sc hc (local_allowed sc lengths mml) cols /\ good_columns nc ortho L cols.
Proof.
  intros Sep HL. destruct (local_correct sc hc commuting W Hc Sep lengths mml HL) as (cols & E & N & Hh & D & S1 & C1).
  exists cols. cbn [build_columns]. rewrite E. cbn [option_map]. rewrite finish_NoDup by exact N. split; [reflexivity|]. split; [split|].
  - exact Hh.
  - exact D.
  - intros w Hw. destruct (S1 w Hw) as (Z & U & _ & Lw & Pw). split; [exact U|]. split; [apply local_bound; auto|exact Z].
  - intros m U A. apply (local_bound lengths mml m HL U) in A as [A1 A2]. apply C1; assumption.
  - apply make_good; [exact N| |]; intros w Hw; apply S1, Hw.
Qed.

(** ** physical *)
Lemma perm_ce a b : Permutation a b -> all_commute nc a -> comm_eq nc a b.
Proof.
  assert (GC : good_comm nc) by (intros x y; apply (gt_nc_sym _ _ G)).
  induction 1 as [|x l l' P IH|x y l|l l' l'' P IH P' IH']; intros C.
  - constructor.
  - apply (ce_app_l nc [x]). apply IH. intros u v Hu Hv. apply C; right; assumption.
  - apply (ce_swap nc [] y x l). apply C; cbn; auto.
  - eapply ce_trans; [apply IH, C|]. apply IH'. intros u v Hu Hv. apply C; eapply Permutation_in; [apply Permutation_sym; exact P| |apply Permutation_sym; exact P|]; assumption.
Qed.
Lemma squeeze_SS l : forall x, StronglySorted le (x :: l) -> StronglySorted lt (squeeze_from x l) /\ Forall (lt x) (squeeze_from x l).
Proof.
  induction l as [|y l IH]; intros x H; [split; constructor|]. cbn [squeeze_from]. inversion H as [|? ? H1 F1]; subst. destruct (IH y H1) as [I1 I2].
  inversion F1; subst. destruct (Nat.eqb_spec y x) as [->|Hne]; [split; assumption|]. assert (x < y) by lia. split; constructor; auto.
  eapply Forall_impl; [|exact I2]. cbn. intros; lia.
Qed.
Lemma canonical_sorted r : all_commute nc r -> canon sc commuting r = Some r -> r <> [0] -> StronglySorted lt r.
Proof.
  intros C E NZ. unfold canon in E. rewrite (F_general nc ortho commuting G Hc) in E.
  destruct (Nat.leb_spec (length r) 1) as [Len|Len].
  - destruct r as [|x [|y r]]; [constructor|repeat constructor|cbn in Len; lia].
  - pose proof (np_sort_perm r) as P. 
    assert (Es : to_canonical_1d_internal nc ortho false false (np_sort r) = Some r).
    { rewrite <- E. symmetry. apply (F_eq nc ortho false G); [discriminate|]. apply (ce_pe nc ortho). apply perm_ce; [exact P|exact C]. }
    unfold to_canonical_1d_internal in Es. rewrite <- (Permutation_length P) in Es. destruct (Nat.leb_spec (length r) 1); [lia|].
    assert (GC : good_comm nc) by (intros x y; apply (gt_nc_sym _ _ G)).
    destruct (canon_correct nc GC (np_sort r)) as (c & Ec & Cc & _). rewrite Ec in Es.
    destruct (canon_least nc (np_sort r) c (np_sort r) GC Ec) as [_ Le]. specialize (Le (ce_refl _ _)).
    assert (c = np_sort r) as ->.
    { apply lex_antisym; [exact Le|]. apply sorted_lex_least; [apply np_sort_sorted|apply (ce_perm nc), Cc]. }
    destruct (lexmon_is_zero ortho (np_sort r)).
    + cbn in Es. congruence.
    + pose proof (np_sort_sorted r) as SS. destruct (np_sort r) as [|x l]; [cbn in Es; injection Es as <-; constructor|].
      cbn [remove_projector_squares] in Es. assert (r = x :: squeeze_from x l) as -> by congruence. destruct (squeeze_SS l x SS). constructor; assumption.
Qed.
Theorem physical_cols caps mml : (forall o, In o (outcomes sc) -> 1 <= o) ->
  exists cols, build_columns sc hc commuting (Physical caps) mml = Some cols /\
    columns_for sc hc (physical_allowed sc caps mml) cols /\ good_columns nc ortho L cols /\
    (forall w, In w cols -> StronglySorted lt w) /\ StronglySorted (fun a b => word_lt a b = true) cols.
Proof.
  intros Hout. destruct (physical_correct sc hc commuting W Hout Hc caps mml) as (cols & E & SO & N & Hh & Cn & In_).
  exists cols. cbn [build_columns]. rewrite E. cbn [option_map]. rewrite finish_NoDup by exact N. split; [reflexivity|]. split; [split|split; [|split]].
  - exact Hh.
  - apply (canonical_different sc commuting W Hc cols N Cn).
  - intros w Hw. apply In_ in Hw as (Sw & U & C & Z & Lw & Pw). split; [exact U|]. split; [split; [exact C|split; [exact Pw|exact Lw]]|exact Z].
  - intros m U (C & Pm & Lm). destruct (F_some nc ortho commuting G Hc m) as (r0 & Er0).
    destruct (list_eq_dec Nat.eq_dec r0 [0]) as [->|NZ0]; [left; apply (F_zero' nc ortho commuting G Hc), Er0|right].
    assert (Z : ~ is_zero_product nc ortho m).
    { intros Z. apply (F_zero' nc ortho commuting G Hc) in Z. apply NZ0. exact (f_equal (fun o => match o with Some x => x | None => [] end) (eq_trans (eq_sym Er0) Z)). }
    destruct (canonical_form sc hc commuting W Hc m U Z) as (r & Er0' & Er & NZ & Ur & Pe & Lr & Cr). exists r. split; [|exact Pe].
    assert (Ir : incl r m) by (apply (F_inc nc ortho commuting G Hc m r Er0' Z)).
    assert (Cmr : all_commute nc r) by (intros x y Hx Hy; apply C; apply Ir; assumption).
    apply In_. split; [apply canonical_sorted; assumption|]. split; [exact Ur|]. split; [exact Cmr|]. split.
    + intros Zr. apply Z. eapply pe_trans; [exact Pe|exact Zr].
    + split; [unfold within in Lm; destruct Lm as [Lm|Lm]; [left; exact Lm|right; lia]|]. intros p cap Hp. specialize (Pm p cap Hp). specialize (Cr p). lia.
  - apply make_good; [exact N| |exact Cn]. intros w Hw. apply In_ in Hw as (_ & U & _). exact U.
  - intros w Hw. apply In_ in Hw. apply Hw.
  - exact SO.
Qed.

(** ** the symmetries of the inflation keep these columns *)
Notation syms := (sdp_lexorder_symmetries sc).
Lemma sym_row g x p c s o : In g syms -> nth_error (sdp_lexorder sc) x = Some (mkrow (p + 1) c s o) ->
  exists c', nth_error (sdp_lexorder sc) (nth x g 0) = Some (mkrow (p + 1) c' s o).
Proof.
  intros Hg Hx. destruct x as [|x].
  { exfalso. assert (E : nth_error (sdp_lexorder sc) 0 = Some (zero_row sc)) by reflexivity. assert (K : mkrow (p + 1) c s o = zero_row sc) by congruence. 
    apply (f_equal row_party) in K. rewrite ScenarioProofs.mkrow_party in K. unfold zero_row, row_party in K. cbn in K. lia. }
  apply in_map_iff in Hg as (g0 & <- & Hg). apply discover_exact in Hg as (sg & R & I); [|exact W]. rewrite sdp_nth in Hx.
  destruct (proj2 I _ _ _ _ _ Hx) as (j & J1 & J2). exists (relabel sg c). rewrite nth_pad.
  destruct (Nat.ltb_spec x (length g0)) as [Lx|Lx]; [|assert (nth_error g0 x = None) by (apply nth_error_None; exact Lx); congruence].
  rewrite (nth_error_nth _ _ _ J1), sdp_nth. exact J2.
Qed.
Lemma usable_sym g x p : In g syms -> usable sc hc x p -> usable sc hc (nth x g 0) p.
Proof.
  intros Hg (Hp & c & s & o & E & D). destruct (sym_row g x p c s o Hg E) as (c' & E'). split; [exact Hp|]. exists c', s, o. auto.
Qed.
Lemma usable_word_sym g w : In g syms -> usable_word sc hc w -> usable_word sc hc (apply_lexsym g w).
Proof. intros Hg U x Hx. apply in_map_iff in Hx as (y & <- & Hy). destruct (U y Hy) as (p & Hp). exists p. apply usable_sym; assumption. Qed.
Lemma party_count_sym g w p : In g syms -> usable_word sc hc w -> party_count sc p (apply_lexsym g w) = party_count sc p w.
Proof.
  intros Hg U. rewrite !(party_count_occ sc hc) by (try apply usable_word_sym; assumption). f_equal. unfold apply_lexsym. rewrite map_map. apply map_ext_in.
  intros x Hx. destruct (U x Hx) as (q & Hq). rewrite (usable_party sc hc _ q (usable_sym g x q Hg Hq)), (usable_party sc hc _ q Hq). reflexivity.
Qed.
Lemma party_count_perm w w' p : Permutation w w' -> party_count sc p w = party_count sc p w'.
Proof. intros P. unfold party_count. apply filter_perm, P. Qed.

Theorem symmetric_columns allowed cols :
  columns_for sc hc allowed cols -> good_columns nc ortho L cols ->
  (forall g w, In g syms -> usable_word sc hc w -> allowed w -> allowed (apply_lexsym g w)) ->
  forall g, In g syms -> keeps_columns nc cols g.
Proof.
  intros CF GC A g Hg w Hw. pose proof (scenario_symmetries sc W) as OS.
  destruct (cf_sound _ _ _ _ CF w Hw) as (U & Aw & Z).
  assert (Ew : to_canonical_1d_internal nc ortho false false w = Some w) by apply (gcol_canon _ _ _ _ GC w Hw).
  assert (NZ : w <> [0]) by (intros ->; apply Z; constructor).
  assert (F0 : false = true -> forall a b, nc a b = false) by discriminate.
  pose proof (canonical_reduced nc ortho false G F0 w w Ew NZ) as R.
  pose proof (reduced_gf nc ortho L syms G OS g w Hg R) as Rg.
  assert (Ag : apply_lexsym g w = map (gf g) w).
  { apply (apply_gf nc ortho L syms [] OS g w Hg). intros x Hx. apply (gcol_range _ _ _ _ GC w x Hw Hx). }
  rewrite <- Ag in Rg.
  assert (GCm : good_comm nc) by (intros x y; apply (gt_nc_sym _ _ G)).
  destruct (canon_correct nc GCm (apply_lexsym g w)) as (r & Er & Cr & _).
  pose proof (reduced_canon nc ortho false G F0 _ Rg) as Fr. rewrite Er in Fr.
  destruct (cf_complete _ _ _ _ CF (apply_lexsym g w)) as [K|(w' & Hw' & Pe)].
  - apply usable_word_sym; assumption.
  - apply A; assumption.
  - exfalso. apply Z. apply (proj1 (zero_moved nc ortho L syms [] G OS g w Hg)). rewrite <- Ag. exact K.
  - exists w'. split; [exact Hw'|]. apply (F_eq nc ortho false G F0) in Pe.
    assert (E' : to_canonical_1d_internal nc ortho false false w' = Some w') by apply (gcol_canon _ _ _ _ GC w' Hw').
    assert (r = w') as <- by congruence. exact Cr.
Qed.
Lemma npa_sym level mml g w : In g syms -> usable_word sc hc w -> npa_allowed level mml w -> npa_allowed level mml (apply_lexsym g w).
Proof. unfold npa_allowed, within, apply_lexsym. rewrite map_length. tauto. Qed.
Lemma local_sym lengths mml g w : In g syms -> usable_word sc hc w -> local_allowed sc lengths mml w -> local_allowed sc lengths mml (apply_lexsym g w).
Proof.
  intros Hg U [H1 H2]. split; [|unfold within, apply_lexsym in *; rewrite map_length; exact H2]. intros p Hp. rewrite party_count_sym by assumption. apply H1, Hp.
Qed.
Lemma physical_sym caps mml g w : In g syms -> usable_word sc hc w -> physical_allowed sc caps mml w -> physical_allowed sc caps mml (apply_lexsym g w).
Proof.
  intros Hg U (H1 & H2 & H3). pose proof (scenario_symmetries sc W) as OS. split; [|split; [|unfold within, apply_lexsym in *; rewrite map_length; exact H3]].
  - intros x y Hx Hy. apply in_map_iff in Hx as (a & <- & Ha). apply in_map_iff in Hy as (b & <- & Hb).
    rewrite (os_nc _ _ _ _ OS g a b Hg (usable_range w a U Ha) (usable_range w b U Hb)). apply H1; assumption.
  - intros p cap Hp. rewrite party_count_sym by assumption. apply H2, Hp.
Qed.
End All.
