(** Proofs about column generation, part 2: which products the blocks give; npa and local. *)
From Coq Require Import Permutation Sorted.
From Verif Require Import CanonModel CanonSpec CanonProofs CanonProofs2 ScenarioModel ScenarioSpec ScenarioProofs
  SymProofs ColsModel MemoModel ColsSpec ColsProofs.

Section Cols.
Variables (sc : scenario) (hc : list bool) (commuting : bool).
Hypothesis W : wf_scenario sc.
Notation nc := (sdp_notcomm sc).
Notation ortho := (sdp_orthomat sc).
Hypothesis Hc : commuting = true -> forall a b, nc a b = false.
Let G : good_tables nc ortho := scenario_good_tables sc W.

Lemma mkrow_party p c s o : row_party (mkrow p c s o) = p. Proof. reflexivity. Qed.
Lemma mkrow_out p c s o : row_outcome (mkrow p c s o) = o.
Proof. apply mkrow_outcome. Qed.

Lemma meas_ops_in p x : In x (meas_ops sc hc p) <-> usable sc hc x p.
Proof.
  unfold meas_ops, usable. rewrite filter_In, in_seq. split.
  - intros [Hx H]. destruct (nth_error (sdp_lexorder sc) x) as [r|] eqn:E; [|discriminate].
    apply andb_prop in H as [H1 H2]. apply Nat.eqb_eq in H1. apply negb_true_iff, Nat.eqb_neq in H2.
    destruct x as [|x]; [cbn in E; injection E as <-; cbn in H1; lia|]. rewrite sdp_nth in E.
    assert (Hl : x < length (lexorder sc)) by (apply nth_error_Some; rewrite E; discriminate).
    destruct (lexorder_parts sc x W Hl) as (p' & c & s & o & E' & V).
    assert (r = mkrow (p' + 1) c s o) as -> by congruence. rewrite mkrow_party in H1. rewrite mkrow_out in H2.
    assert (p' = p) as -> by lia. destruct V as (V1 & _ & _ & _ & V5). split; [exact V1|].
    exists c, s, o. split; [rewrite <- E'; apply sdp_nth|]. destruct (nth p hc false); [left; reflexivity|right]. cbn [b2n] in H2. lia.
  - intros (Hp & c & s & o & E & D).
    assert (Hx : x < length (sdp_lexorder sc)) by (apply nth_error_Some; rewrite E; discriminate).
    split; [lia|]. rewrite E. rewrite mkrow_party, mkrow_out, Nat.eqb_refl. cbn [andb]. apply negb_true_iff, Nat.eqb_neq.
    destruct x as [|x]; [cbn in E; discriminate (f_equal (fun o => match o with Some r => row_party r | None => 1 end) E) || (injection E; intros; lia)|].
    rewrite sdp_nth in E. cbn [sdp_lexorder length] in Hx. destruct (lexorder_parts sc x W) as (p' & c' & s' & o' & E' & V); [lia|].
    assert (EE : mkrow (p + 1) c s o = mkrow (p' + 1) c' s' o') by congruence.
    pose proof (f_equal row_party EE) as E1. pose proof (f_equal row_outcome EE) as E2. rewrite !mkrow_party in E1. rewrite !mkrow_out in E2.
    assert (p' = p) as -> by lia. subst o'. destruct V as (_ & _ & _ & _ & V5).
    destruct (nth p hc false); cbn [b2n]; [lia|]. destruct D as [D|D]; [discriminate|lia].
Qed.
Lemma usable_nz x p : usable sc hc x p -> x <> 0.
Proof. intros (_ & c & s & o & E & _) ->. cbn in E. injection E as E _. lia. Qed.
Lemma of_block_cart m block : In m (cart (map (meas_ops sc hc) block)) <-> of_block sc hc m block.
Proof.
  rewrite cart_in. unfold of_block. revert block. induction m as [|x m IH]; intros [|p block]; cbn [map]; split; intros H; inversion H; subst; constructor; try (apply meas_ops_in; assumption); apply IH; assumption.
Qed.
Lemma of_block_length m block : of_block sc hc m block -> length m = length block.
Proof. induction 1; cbn; congruence. Qed.

(** what a list of blocks produces *)
Lemma produced_iff specs w : produced sc hc commuting specs w <->
  exists block m, In block specs /\ of_block sc hc m block /\ canon sc commuting m = Some w /\ w <> [0] /\ length w = length block.
Proof.
  unfold produced, yields. split.
  - intros (block & Hb & [[-> ->]|[_ (m & Hm & E)]]).
    + exists [], []. split; [exact Hb|]. split; [constructor|]. split; [|split; [discriminate|reflexivity]]. reflexivity.
    + apply of_block_cart in Hm. exists block, m. split; [exact Hb|]. split; [exact Hm|exact E].
  - intros (block & m & Hb & Hm & E). exists block. split; [exact Hb|]. destruct block as [|p b].
    + left. inversion Hm; subst. destruct E as (E & _). injection E as <-. auto.
    + right. split; [discriminate|]. exists m. split; [apply of_block_cart, Hm|exact E].
Qed.
Lemma produced_comm specs w : produced sc hc commuting specs w ->
  canon sc commuting w = Some w /\ ~ is_zero_product nc ortho w /\
  exists block m, In block specs /\ of_block sc hc m block /\ comm_eq nc m w.
Proof.
  intros H. apply produced_iff in H as (block & m & Hb & Hm & E & NZ & L).
  pose proof (F_idem' nc ortho commuting G Hc m w E) as E2. split; [exact E2|].
  assert (Z : ~ is_zero_product nc ortho m).
  { intros Z. apply (F_zero' nc ortho commuting G Hc) in Z. unfold canon in E. congruence. }
  split. { intros Zw. apply Z. eapply pe_trans; [apply (F_pe nc ortho commuting G Hc m w E)|exact Zw]. }
  exists block, m. split; [exact Hb|]. split; [exact Hm|]. apply (F_same_length nc ortho commuting G Hc); [exact E|exact Z|].
  rewrite L. symmetry. apply of_block_length, Hm.
Qed.
Lemma canonical_different cols : NoDup cols -> (forall w, In w cols -> canon sc commuting w = Some w) -> pairwise_different nc ortho cols.
Proof.
  intros N C i j w w' Hi Hj H. apply (F_eq nc ortho commuting G Hc) in H.
  pose proof (C w (nth_error_In _ _ Hi)) as E. pose proof (C w' (nth_error_In _ _ Hj)) as E'. unfold canon in *.
  assert (w = w') as -> by congruence. apply (proj1 (NoDup_nth_error cols) N).
  - apply nth_error_Some. rewrite Hi. discriminate.
  - exact (eq_trans Hi (eq_sym Hj)).
Qed.

Theorem blocks_correct specs : count_occ (list_eq_dec Nat.eq_dec) specs [] <= 1 ->
  exists cols, build_cols_from_specs sc hc commuting specs = Some cols /\ NoDup cols /\
    pairwise_different nc ortho cols /\
    (forall w, In w cols -> ~ is_zero_product nc ortho w /\ canon sc commuting w = Some w /\
       exists block m, In block specs /\ of_block sc hc m block /\ comm_eq nc m w) /\
    (forall block m, In block specs -> of_block sc hc m block ->
       is_zero_product nc ortho m \/ (exists m', proj_eq nc ortho m m' /\ length m' < length m) \/
       exists w, In w cols /\ comm_eq nc m w).
Proof.
  intros HC. destruct (build_spec sc hc commuting W Hc specs HC) as (cols & E & N & P). exists cols. split; [exact E|]. split; [exact N|].
  split. { apply canonical_different; [exact N|]. intros w Hw. apply P in Hw. apply produced_comm in Hw. tauto. }
  split. { intros w Hw. apply P in Hw. apply produced_comm in Hw. tauto. }
  intros block m Hb Hm. destruct (F_some nc ortho commuting G Hc m) as (r & Er).
  destruct (list_eq_dec Nat.eq_dec r [0]) as [->|NZ]; [left; apply (F_zero' nc ortho commuting G Hc), Er|].
  assert (Z : ~ is_zero_product nc ortho m).
  { intros Z. apply (F_zero' nc ortho commuting G Hc) in Z. apply NZ. exact (f_equal (fun o => match o with Some x => x | None => [] end) (eq_trans (eq_sym Er) Z)). }
  right. destruct (F_inc nc ortho commuting G Hc m r Er Z) as [_ L].
  destruct (Nat.lt_ge_cases (length r) (length m)) as [Lt|Ge].
  - left. exists r. split; [apply (F_pe nc ortho commuting G Hc), Er|exact Lt].
  - right. exists r. split; [|apply (F_same_length nc ortho commuting G Hc); [exact Er|exact Z|lia]].
    apply P. apply produced_iff. exists block, m. split; [exact Hb|]. split; [exact Hm|]. split; [exact Er|]. split; [exact NZ|].
    rewrite <- (of_block_length _ _ Hm). lia.
Qed.

(** ** ordering by party *)
Definition party_of (x : nat) : nat := match nth_error (sdp_lexorder sc) x with Some r => row_party r - 1 | None => 0 end.
Lemma usable_party x p : usable sc hc x p -> party_of x = p.
Proof. intros (_ & c & s & o & E & _). unfold party_of. rewrite E, mkrow_party. lia. Qed.
Fixpoint pinsert (x : nat) (l : word) : word :=
  match l with [] => [x] | y :: l' => if party_of x <=? party_of y then x :: l else y :: pinsert x l' end.
Fixpoint psort (l : word) : word := match l with [] => [] | x :: l' => pinsert x (psort l') end.
Lemma pinsert_perm x l : Permutation (x :: l) (pinsert x l).
Proof.
  induction l as [|y l IH]; cbn; [reflexivity|]. destruct (party_of x <=? party_of y); [reflexivity|].
  rewrite perm_swap. constructor. exact IH.
Qed.
Lemma psort_perm l : Permutation l (psort l).
Proof. induction l as [|x l IH]; cbn; [constructor|]. rewrite <- pinsert_perm. constructor. exact IH. Qed.
Hypothesis Sep : separate_parties sc.
Lemma different_commute x y p q : usable sc hc x p -> usable sc hc y q -> p <> q -> nc x y = false.
Proof.
  intros Hx Hy Hpq. pose proof (usable_nz _ _ Hx) as Nx. pose proof (usable_nz _ _ Hy) as Ny.
  destruct Hx as (_ & c & s & o & E & _), Hy as (_ & c' & s' & o' & E' & _).
  destruct x as [|x]; [congruence|]. destruct y as [|y]; [congruence|]. rewrite sdp_nth in E, E'. cbn [sdp_notcomm].
  apply (default_notcomm_spec sc x y p c s o q c' s' o' W E E').
  left. intros k src Hk (Cl & [[X _]|(l & L1 & L2 & L3 & L4)]); [contradiction|].
  exfalso. apply Hpq. eapply Sep; eauto. eapply nth_error_In; eassumption.
Qed.
Lemma pinsert_comm x l : usable_word sc hc (x :: l) -> comm_eq nc (x :: l) (pinsert x l).
Proof.
  induction l as [|y l IH]; intros U; cbn; [constructor|]. destruct (Nat.leb_spec (party_of x) (party_of y)); [constructor|].
  eapply ce_trans; [apply (ce_swap nc [] x y l)|].
  - destruct (U x (or_introl eq_refl)) as (p & Hp). destruct (U y (or_intror (or_introl eq_refl))) as (q & Hq).
    apply (different_commute x y p q Hp Hq). apply usable_party in Hp, Hq. lia.
  - cbn [app]. apply ce_cons, IH. intros z [<-|Hz]; apply U; cbn; auto.
Qed.
Lemma usable_perm l l' : Permutation l l' -> usable_word sc hc l -> usable_word sc hc l'.
Proof. intros P U x Hx. apply U. eapply Permutation_in; [apply Permutation_sym, P|exact Hx]. Qed.
Lemma psort_comm l : usable_word sc hc l -> comm_eq nc l (psort l).
Proof.
  induction l as [|x l IH]; intros U; cbn; [constructor|]. eapply ce_trans; [apply ce_cons, IH; intros z Hz; apply U; right; exact Hz|].
  apply pinsert_comm. eapply usable_perm; [|exact U]. constructor. apply psort_perm.
Qed.
Lemma pinsert_sorted x l : StronglySorted le (map party_of l) -> StronglySorted le (map party_of (pinsert x l)).
Proof.
  induction l as [|y l IH]; intros H; cbn [pinsert map]; [repeat constructor|]. inversion H as [|? ? H1 H2]; subst.
  destruct (Nat.leb_spec (party_of x) (party_of y)); cbn [map]; constructor.
  - exact H.
  - constructor; [assumption|]. eapply Forall_impl; [|exact H2]. cbn. intros; lia.
  - apply IH, H1.
  - assert (P : Permutation (map party_of (x :: l)) (map party_of (pinsert x l))) by apply Permutation_map, pinsert_perm.
    rewrite Forall_forall in *. intros z Hz. apply (Permutation_in _ (Permutation_sym P)) in Hz. destruct Hz as [<-|Hz]; [lia|apply H2, Hz].
Qed.
Lemma psort_sorted l : StronglySorted le (map party_of (psort l)).
Proof. induction l as [|x l IH]; cbn [psort map]; [constructor|]. apply pinsert_sorted, IH. Qed.
Lemma SS_increasing l : StronglySorted le l -> increasing l = true.
Proof.
  induction 1 as [|x l H IH F]; [reflexivity|]. cbn. destruct l as [|y l]; [reflexivity|]. inversion F; subst. rewrite IH, andb_true_r. apply Nat.leb_le. assumption.
Qed.
Lemma usable_of_block m : usable_word sc hc m -> of_block sc hc m (map party_of m).
Proof.
  induction m as [|x m IH]; intros U; cbn [map]; constructor.
  - destruct (U x (or_introl eq_refl)) as (p & Hp). rewrite (usable_party _ _ Hp). exact Hp.
  - apply IH. intros z Hz. apply U. right; exact Hz.
Qed.
Lemma of_block_usable m block : of_block sc hc m block -> usable_word sc hc m.
Proof. induction 1 as [|x p m b H _ IH]; intros z Hz; [destruct Hz|]. destruct Hz as [<-|Hz]; [eauto|apply IH, Hz]. Qed.
Lemma of_block_parties m block : of_block sc hc m block -> block = map party_of m /\ (forall p, In p block -> p < nr_parties sc).
Proof.
  induction 1 as [|x p m b H _ [IH1 IH2]]; cbn [map]; [split; [reflexivity|intros ? []]|].
  split; [rewrite <- IH1, (usable_party _ _ H); reflexivity|]. intros q [<-|Hq]; [apply H|apply IH2, Hq].
Qed.

(** any canonical non-zero word of usable operators whose sorted parties are a block is produced *)
Lemma canonical_produced specs r : usable_word sc hc r -> canon sc commuting r = Some r -> r <> [0] ->
  In (map party_of (psort r)) specs -> produced sc hc commuting specs r.
Proof.
  intros U E NZ Hin. apply produced_iff. exists (map party_of (psort r)), (psort r). split; [exact Hin|].
  split; [apply usable_of_block; eapply usable_perm; [apply psort_perm|exact U]|].
  split; [|split; [exact NZ|]].
  - unfold canon. rewrite <- (F_eq nc ortho commuting G Hc r); [exact E|]. apply (ce_pe nc ortho). apply psort_comm, U.
  - rewrite map_length. apply Permutation_length, psort_perm.
Qed.
(** the canonical form of a usable non-zero word *)
Lemma canonical_form m : usable_word sc hc m -> ~ is_zero_product nc ortho m ->
  exists r, canon sc commuting m = Some r /\ canon sc commuting r = Some r /\ r <> [0] /\ usable_word sc hc r /\ proj_eq nc ortho m r /\
    length r <= length m /\ forall p, party_count sc p r <= party_count sc p m.
Proof.
  intros U NZ. destruct (F_some nc ortho commuting G Hc m) as (r & Er). exists r. split; [exact Er|].
  split; [apply (F_idem' nc ortho commuting G Hc m r Er)|].
  split. { intros ->. apply NZ, (F_zero' nc ortho commuting G Hc), Er. }
  destruct (F_inc nc ortho commuting G Hc m r Er NZ) as [I L]. split; [intros x Hx; apply U, I, Hx|].
  split; [apply (F_pe nc ortho commuting G Hc), Er|]. split; [exact L|]. intros p. apply (F_count nc ortho commuting G Hc _ _ _ Er NZ).
Qed.

(** ** npa *)
Lemma increasing_SS l : increasing l = true -> StronglySorted le l.
Proof.
  induction l as [|x l IH]; intros H; [constructor|]. cbn in H. destruct l as [|y l]; [repeat constructor|].
  apply andb_prop in H as [H1 H2]. apply Nat.leb_le in H1. specialize (IH H2). constructor; [exact IH|].
  inversion IH as [|? ? _ F]; subst. constructor; [exact H1|]. eapply Forall_impl; [|exact F]. cbn. intros; lia.
Qed.
Lemma npa_in level mml block : In block (npa_specs sc level mml) <->
  length block <= npa_length level mml /\ (forall p, In p block -> p < nr_parties sc) /\ StronglySorted le block.
Proof.
  unfold npa_specs. cbn [In]. rewrite in_flat_map. split.
  - intros [<-|(len & Hl & H)]; [split; [cbn; lia|split; [intros ? []|constructor]]|].
    apply filter_In in H as [H1 H2]. apply in_seq in Hl. apply cart_in in H1. split; [|split].
    + assert (length block = len); [|lia]. clear -H1. revert len H1. induction block as [|p b IH]; intros [|len] H; inversion H; subst; cbn; auto.
    + clear -H1. revert len H1. induction block as [|q b IH]; intros [|len] H p Hp; inversion H; subst; [destruct Hp|].
      destruct Hp as [<-|Hp]; [|eapply IH; eassumption]. match goal with K : In q (seq 0 _) |- _ => apply in_seq in K; lia end.
    + apply increasing_SS, H2.
  - intros (H1 & H2 & H3). destruct block as [|p b]; [left; reflexivity|]. right. exists (length (p :: b)).
    split; [apply in_seq; cbn [length] in *; lia|]. apply filter_In. split; [|apply SS_increasing, H3].
    apply cart_in. clear -H2. induction (p :: b) as [|q l IH]; cbn [length repeat]; constructor.
    + apply in_seq. specialize (H2 q (or_introl eq_refl)). lia.
    + apply IH. intros r Hr. apply H2. right; exact Hr.
Qed.
Lemma npa_one_empty level mml : count_occ (list_eq_dec Nat.eq_dec) (npa_specs sc level mml) [] = 1 /\ exists t, npa_specs sc level mml = [] :: t.
Proof.
  split; [|eexists; reflexivity]. unfold npa_specs. cbn [count_occ].
  match goal with |- (if ?d then _ else _) = _ => destruct d as [_|K]; [|congruence] end. f_equal. apply count_occ_not_In.
  rewrite in_flat_map. intros (len & Hl & H). apply filter_In in H as [H _]. apply cart_in in H. apply in_seq in Hl. destruct len; [lia|]. inversion H.
Qed.
Lemma first_is_identity specs cols : count_occ (list_eq_dec Nat.eq_dec) ([] :: specs) [] = 1 ->
  build_cols_from_specs sc hc commuting ([] :: specs) = Some cols -> hd_error cols = Some [].
Proof.
  intros HC E. cbn [count_occ] in HC. destruct (build_first sc hc commuting W Hc specs) as (t & Et).
  - match type of HC with (if ?d then _ else _) = _ => destruct d as [_|K]; [|congruence] end. lia.
  - rewrite E in Et. injection Et as ->. reflexivity.
Qed.
Theorem npa_correct level mml :
  exists cols, build_cols_from_specs sc hc commuting (npa_specs sc level mml) = Some cols /\ NoDup cols /\
    hd_error cols = Some [] /\ pairwise_different nc ortho cols /\
    (forall w, In w cols -> ~ is_zero_product nc ortho w /\ usable_word sc hc w /\ length w <= npa_length level mml /\ canon sc commuting w = Some w) /\
    (forall m, usable_word sc hc m -> length m <= npa_length level mml ->
       is_zero_product nc ortho m \/ exists w, In w cols /\ proj_eq nc ortho m w).
Proof.
  destruct (npa_one_empty level mml) as [C1 (t & Et)].
  destruct (build_spec sc hc commuting W Hc (npa_specs sc level mml)) as (cols & E & N & P); [lia|].
  exists cols. split; [exact E|]. split; [exact N|]. split; [rewrite Et in *; eapply first_is_identity; eassumption|].
  split. { apply canonical_different; [exact N|]. intros w Hw. apply P, produced_comm in Hw. tauto. }
  split.
  - intros w Hw. apply P, produced_comm in Hw as (Cw & NZ & block & m & Hb & Hm & C). split; [exact NZ|].
    split; [eapply usable_perm; [apply (ce_perm nc), C|eapply of_block_usable, Hm]|]. split; [|exact Cw].
    rewrite <- (ce_length nc _ _ C), (of_block_length _ _ Hm). apply npa_in in Hb. tauto.
  - intros m U L. destruct (F_some nc ortho commuting G Hc m) as (r0 & Er0).
    destruct (list_eq_dec Nat.eq_dec r0 [0]) as [->|NZ0]; [left; apply (F_zero' nc ortho commuting G Hc), Er0|right].
    assert (Z : ~ is_zero_product nc ortho m).
    { intros Z. apply (F_zero' nc ortho commuting G Hc) in Z. apply NZ0. exact (f_equal (fun o => match o with Some x => x | None => [] end) (eq_trans (eq_sym Er0) Z)). }
    destruct (canonical_form m U Z) as (r & _ & Er & NZ & Ur & Pr & Lr & _). exists r. split; [|exact Pr].
    apply P. apply canonical_produced; [exact Ur|exact Er|exact NZ|]. apply npa_in.
    split; [rewrite map_length, <- (Permutation_length (psort_perm r)); lia|]. split; [|apply psort_sorted].
    intros p Hp. apply in_map_iff in Hp as (x & <- & Hx). apply (Permutation_in _ (Permutation_sym (psort_perm r))) in Hx.
    destruct (Ur x Hx) as (q & Hq). rewrite (usable_party _ _ Hq). apply Hq.
Qed.
End Cols.
