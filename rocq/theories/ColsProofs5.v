(** Proofs about column generation, part 5: which products the physical specification gives. *)
From Coq Require Import Permutation Sorted.
From Verif Require Import CanonModel CanonSpec CanonProofs CanonProofs2 ScenarioModel ScenarioSpec ScenarioProofs
  SymProofs LPModel CliqueModel CliqueSpec CliqueProofs LPProofs LPProofs2 LPProofs3 LPProofs8 PropClique
  ColsModel MemoModel ColsSpec ColsProofs ColsProofs2 ColsProofs3 ColsProofs4.
Close Scope Q_scope. Close Scope Qc_scope. Open Scope nat_scope.

Lemma map_S_SS l : StronglySorted lt l -> StronglySorted lt (map S l).
Proof. induction 1 as [|x l H IH F]; cbn; constructor; [exact IH|]. rewrite Forall_forall in *. intros y Hy. apply in_map_iff in Hy as (z & <- & Hz). specialize (F z Hz). lia. Qed.
Lemma filter_map_length {A B} (f : A -> B) (q : B -> bool) l : length (filter q (map f l)) = length (filter (fun x => q (f x)) l).
Proof. induction l as [|x l IH]; cbn; [reflexivity|]. destruct (q (f x)); cbn; congruence. Qed.
Lemma filter_length_ext {A} (f g : A -> bool) l : (forall x, In x l -> f x = g x) -> length (filter f l) = length (filter g l).
Proof. intros H. induction l as [|x l IH]; cbn; [reflexivity|]. rewrite (H x (or_introl eq_refl)). destruct (g x); cbn; rewrite IH; auto; intros y Hy; apply H; right; exact Hy. Qed.

Lemma sorted_hd (l : list word) : StronglySorted (fun a b => word_lt a b = true) l -> In [] l -> hd_error l = Some [].
Proof.
  intros SO. destruct l as [|w l]; [intros []|]; intros [->|H0]; [reflexivity|].
  inversion SO as [|? ? _ F]; subst. rewrite Forall_forall in F. specialize (F _ H0). unfold word_lt in F. cbn [length] in F.
  destruct w as [|x w]; [reflexivity|]. cbn in F. discriminate.
Qed.

Section Physical.
Variables (sc : scenario) (hc : list bool) (commuting : bool).
Hypothesis W : wf_scenario sc.
Hypothesis Hout : forall o, In o (outcomes sc) -> 1 <= o.
Notation nc := (sdp_notcomm sc).
Notation ortho := (sdp_orthomat sc).
Hypothesis Hc : commuting = true -> forall a b, nc a b = false.
Let G : good_tables nc ortho := scenario_good_tables sc W.
Notation N := (length (lexorder sc)).
Notation T := (tagged_groups sc false).
Notation groups' := (groups' sc hc).
Variables (caps : list (option nat)) (mml : nat).

(** ** commuting words *)
Lemma sorted_fix w : StronglySorted lt w -> usable_word sc hc w -> all_commute nc w ->
  (forall x y, In x w -> In y w -> x <> y -> ortho x y = false) -> canon sc commuting w = Some w /\ ~ is_zero_product nc ortho w.
Proof.
  intros Hs U C O.
  assert (N0 : ~ In 0 w) by (intros H; destruct (U 0 H) as (p & Hp); apply (usable_nz sc hc) in Hp; congruence).
  assert (Fw : to_canonical_1d_internal nc ortho false false w = Some w).
  { unfold to_canonical_1d_internal. destruct (Nat.leb_spec (length w) 1); [reflexivity|].
    assert (GC : good_comm nc) by (intros a b; apply (gt_nc_sym _ _ G)).
    destruct (canon_correct nc GC w) as (c & E & Cc & _). rewrite E.
    destruct (canon_least nc w c w GC E) as [_ L]. specialize (L (ce_refl _ _)).
    assert (c = w) as ->.
    { apply lex_antisym; [exact L|]. apply sorted_lex_least; [|apply (ce_perm nc), Cc].
      clear -Hs. induction Hs as [|x l H IH F]; constructor; [exact IH|]. eapply Forall_impl; [|exact F]. cbn. intros; lia. }
    assert (lexmon_is_zero ortho w = false) as ->.
    { destruct (lexmon_is_zero ortho w) eqn:Z; [|reflexivity]. apply (is_zero_iff nc ortho G) in Z as [->|(u & a & b & v & -> & Ho)]; [exfalso; apply N0; left; reflexivity|].
      rewrite O in Ho; [discriminate| | |].
      - apply in_or_app; right; left; reflexivity.
      - apply in_or_app; right; right; left; reflexivity.
      - apply SS_app_inv in Hs as (_ & S2 & _). inversion S2 as [|? ? _ F]; subst. inversion F; subst. lia. }
    f_equal. clear -Hs. destruct w as [|x w]; [reflexivity|]. cbn [remove_projector_squares]. f_equal.
    revert x Hs. induction w as [|y w IH]; intros x Hs; [reflexivity|]. cbn [squeeze_from]. inversion Hs as [|? ? H F]; subst. inversion F; subst.
    destruct (Nat.eqb_spec y x); [lia|]. f_equal. apply IH, H. }
  assert (Ec : canon sc commuting w = Some w).
  { unfold canon. rewrite (F_general nc ortho commuting G Hc). exact Fw. }
  split; [exact Ec|]. intros Z. apply (F_zero' nc ortho commuting G Hc) in Z. unfold canon in Ec. rewrite Ec in Z.
  assert (w = [0]) as -> by congruence. apply N0. left; reflexivity.
Qed.
Lemma commuting_zero w x y : all_commute nc w -> In x w -> In y w -> x <> y -> ortho x y = true -> is_zero_product nc ortho w.
Proof.
  intros C Hx Hy Hne Ho. assert (GC : good_comm nc) by (intros a b; apply (gt_nc_sym _ _ G)).
  apply in_split in Hx as (u & v & ->).
  assert (Cx : comm_eq nc (u ++ x :: v) (x :: u ++ v)).
  { apply ce_move; [exact GC|]. intros b Hb. apply C; [apply in_or_app; right; left; reflexivity|apply in_or_app; left; exact Hb]. }
  assert (Hy' : In y (u ++ v)) by (rewrite in_app_iff in *; destruct Hy as [K|[K|K]]; [left|congruence|right]; exact K).
  destruct (in_split _ _ Hy') as (u' & v' & E). rewrite E in Cx.
  assert (Cy : comm_eq nc (x :: u' ++ y :: v') (x :: y :: u' ++ v')).
  { apply (ce_app_l nc [x]). apply ce_move; [exact GC|]. intros b Hb. apply C.
    - exact Hy.
    - assert (K : In b (u ++ v)) by (rewrite E; apply in_or_app; left; exact Hb). rewrite in_app_iff in *. cbn. tauto. }
  eapply pe_trans; [apply (ce_pe nc ortho), (ce_trans nc _ _ _ Cx Cy)|]. apply (pe_ortho nc ortho [] x y). exact Ho.
Qed.

(** ** the generated vectors *)
Definition raw (templates : list (list nat)) : list bvec :=
  flat_map (fun t => template_to_event (S N) t (CG_limited (S N) (sdp_groups sc hc))) (filter (short_enough sc caps) templates).
Lemma template_ext c : (forall t, In t c -> t < length T) ->
  template_to_event (S N) c (CG_limited (S N) (sdp_groups sc hc)) = template_to_event (S N) c (CG_limited (S N) groups').
Proof.
  intros H. unfold template_to_event. destruct c as [|t c]; [reflexivity|]. f_equal. apply map_ext_in. intros u Hu. apply in_rev in Hu. specialize (H u Hu).
  unfold CG_limited, ColsProofs4.groups'. rewrite map_app, app_nth1; [reflexivity|]. rewrite map_length, sdp_length. exact H.
Qed.
Let cat := cat' sc hc.
Let ne := ne' sc hc Hout.
Notation sel := (lim groups').
Lemma sel_grp t i : In i (sel t) -> In i (grp groups' t).
Proof. apply (lim_in (S N) groups' cat ne). Qed.
Lemma clique_NoDup c : is_clique (length T) (compatible sc) c -> NoDup c.
Proof. intros (H & _). apply (ScenarioProofs.SS_NoDup lt); [intros x; lia|exact H]. Qed.
Lemma template_sel c v : is_clique (length T) (compatible sc) c ->
  (In v (template_to_event (S N) c (CG_limited (S N) (sdp_groups sc hc))) <-> selected (S N) groups' sel c v).
Proof.
  intros Hcl. rewrite template_ext by apply Hcl.
  apply (template_in (S N) groups' cat ne sel sel_grp _ (nth_CG_limited (S N) groups')). apply clique_NoDup, Hcl.
Qed.
Lemma sel_inj c c' v : is_clique (length T) (compatible sc) c -> is_clique (length T) (compatible sc) c' ->
  selected (S N) groups' sel c v -> selected (S N) groups' sel c' v -> c = c'.
Proof.
  intros (C1 & _) (C2 & _) (_ & A1 & A2 & _) (_ & B1 & B2 & _). apply SS_lt_ext; [exact C1|exact C2|]. intros t. split; intros Ht.
  - destruct (A2 t Ht) as (i & Hi & Vi). destruct (B1 i Vi) as (t' & Ht' & Hi'). rewrite (grp_unique (S N) groups' cat ne t t' i); auto using sel_grp.
  - destruct (B2 t Ht) as (i & Hi & Vi). destruct (A1 i Vi) as (t' & Ht' & Hi'). rewrite (grp_unique (S N) groups' cat ne t t' i); auto using sel_grp.
Qed.
Lemma raw_NoDup templates : NoDup templates -> (forall c, In c templates -> is_clique (length T) (compatible sc) c) -> NoDup (raw templates).
Proof.
  intros Nt Hcl. unfold raw. apply NoDup_flat_map_intro.
  - apply NoDup_filter, Nt.
  - intros c Hin. apply filter_In in Hin as [Hin _]. rewrite template_ext by apply (Hcl c Hin).
    apply (template_NoDup (S N) groups' cat ne sel sel_grp (lim_NoDup (S N) groups' cat ne) _ (nth_CG_limited (S N) groups')). apply clique_NoDup, Hcl, Hin.
  - intros c c' v Hin Hin' Hv Hv'. apply filter_In in Hin as [Hin _]. apply filter_In in Hin' as [Hin' _].
    apply template_sel in Hv; [|apply Hcl, Hin]. apply template_sel in Hv'; [|apply Hcl, Hin']. apply (sel_inj c c' v); auto.
Qed.

(** ** from a clique to a word *)
Definition word_of (v : bvec) : word := map S (flatnonzero v).
Lemma word_of_inj v v' : length v = S N -> length v' = S N -> word_of v = word_of v' -> v = v'.
Proof.
  intros L L' E. apply (bvec_ext (S N)); [exact L|exact L'|]. intros i _. apply eq_true_iff_eq. rewrite <- !flatnonzero_in.
  assert (K : forall u, In i (flatnonzero u) <-> In (S i) (word_of u)).
  { intros u. unfold word_of. rewrite in_map_iff. split; [intros H; exists i; auto|intros (j & [= ->] & H); exact H]. }
  rewrite !K, E. reflexivity.
Qed.
Section One.
Variables (c : list nat) (v : bvec).
Hypothesis Cl : is_clique (length T) (compatible sc) c.
Hypothesis Se : selected (S N) groups' sel c v.
Lemma word_in x : In x (word_of v) -> exists i t, x = S i /\ In t c /\ In i (sel t) /\ In i (grp T t) /\ t < length T.
Proof.
  intros H. apply in_map_iff in H as (i & <- & H). apply flatnonzero_in in H. destruct Se as (_ & A & _). destruct (A i H) as (t & Ht & Hi).
  assert (L : t < length T) by (apply Cl, Ht). exists i, t. split; [reflexivity|]. split; [exact Ht|]. split; [exact Hi|]. split; [|exact L].
  apply (lim_grp sc hc Hout t i L Hi).
Qed.
Lemma word_usable : usable_word sc hc (word_of v).
Proof.
  intros x H. destruct (word_in x H) as (i & t & -> & Ht & Hi & _ & L). destruct (measures_exists sc Hout false t L) as (p & cc & s & M).
  exists p. apply (usable_group sc hc Hout). exists i, t, cc, s. auto.
Qed.
Lemma word_one x y i j t : x = S i -> y = S j -> In x (word_of v) -> In y (word_of v) -> In i (grp T t) -> In j (grp T t) -> In t c -> x = y.
Proof.
  intros -> -> Hx Hy Hi Hj Ht. f_equal. apply in_map_iff in Hx as (i' & [= ->] & Hx). apply in_map_iff in Hy as (j' & [= ->] & Hy).
  apply flatnonzero_in in Hx, Hy. destruct Se as (_ & _ & _ & U). assert (L : t < length T) by (apply Cl, Ht).
  apply (U t i j Ht); [rewrite (grp_eq sc hc t L); exact Hi|rewrite (grp_eq sc hc t L); exact Hj|exact Hx|exact Hy].
Qed.
Lemma word_commute : all_commute nc (word_of v).
Proof.
  intros x y Hx Hy. destruct (word_in x Hx) as (i & t & Ex & Ht & _ & Hi & Lt). destruct (word_in y Hy) as (j & u & Ey & Hu & _ & Hj & Lu).
  destruct (Nat.eq_dec t u) as [->|Hne].
  - rewrite (word_one x y i j u Ex Ey Hx Hy Hi Hj Hu). apply (gt_nc_diag _ _ G).
  - subst. apply (compat_nc sc W Hout t u i j Hi Hj). destruct Cl as (_ & _ & K). apply K; assumption.
Qed.
Lemma word_no_ortho x y : In x (word_of v) -> In y (word_of v) -> x <> y -> ortho x y = false.
Proof.
  intros Hx Hy Hne. destruct (ortho x y) eqn:E; [|reflexivity]. exfalso. apply Hne.
  destruct (word_in x Hx) as (i & t & Ex & Ht & _ & Hi & Lt). destruct (word_in y Hy) as (j & u & Ey & Hu & _ & Hj & Lu). subst.
  apply (word_one _ _ i j t eq_refl eq_refl Hx Hy Hi); [|exact Ht]. apply (ortho_same sc W Hout t i j Hi E).
Qed.
Lemma word_tm : Permutation (map (tm sc) (word_of v)) c.
Proof.
  apply NoDup_Permutation.
  - assert (Ns : NoDup (word_of v)) by (apply (ScenarioProofs.SS_NoDup lt); [intros x; lia|apply map_S_SS, flatnonzero_SS]).
    assert (I : forall x y, In x (word_of v) -> In y (word_of v) -> tm sc x = tm sc y -> x = y).
    { intros x y Hx Hy E. destruct (word_in x Hx) as (i & t & Ex & Ht & _ & Hi & Lt). destruct (word_in y Hy) as (j & u & Ey & Hu & _ & Hj & Lu).
      subst x y. rewrite (tm_of sc Hout i t Hi), (tm_of sc Hout j u Hj) in E. subst u. apply (word_one _ _ i j t); auto. }
    revert Ns I. generalize (word_of v) as l. intros l; induction l as [|x l IH]; intros Ns I; [constructor|]. cbn [map]. inversion Ns; subst. constructor.
    + intros K. apply in_map_iff in K as (y & E & Hy). apply I in E; [subst; contradiction|right; exact Hy|left; reflexivity].
    + apply IH; [assumption|]. intros a b Ha Hb. apply I; right; assumption.
  - apply clique_NoDup, Cl.
  - intros t. rewrite in_map_iff. split.
    + intros (x & E & Hx). destruct (word_in x Hx) as (i & u & -> & Hu & _ & Hi & _). rewrite (tm_of sc Hout i u Hi) in E. subst; exact Hu.
    + intros Ht. destruct Se as (_ & _ & A & _). destruct (A t Ht) as (i & Hi & Vi). assert (L : t < length T) by (apply Cl, Ht).
      exists (S i). split; [apply (tm_of sc Hout); apply (lim_grp sc hc Hout t i L Hi)|]. apply in_map, flatnonzero_in, Vi.
Qed.
End One.
(** the party of an operator is that of its measurement *)
Lemma party_tm x : usable_word sc hc [x] -> forall p,
  (match nth_error (sdp_lexorder sc) x with Some r => row_party r =? p + 1 | None => false end) = (nth (tm sc x) (group_parties sc) 0 =? p).
Proof.
  intros U p. destruct (U x (or_introl eq_refl)) as (q & Hq). pose proof Hq as Hq'.
  apply (usable_group sc hc Hout) in Hq as (i & t & c & s & -> & M & Hi).
  assert (L : t < length T) by apply M. rewrite (tm_of sc Hout i t (lim_grp sc hc Hout t i L Hi)).
  rewrite (proj2 (flag_eq sc hc Hout t q c s M)). destruct Hq' as (_ & c' & s' & o & E & _). rewrite E, mkrow_party.
  destruct (Nat.eqb_spec q p) as [->|Hne]; [apply Nat.eqb_refl|]. apply Nat.eqb_neq. lia.
Qed.
Lemma party_count_tm w p : usable_word sc hc w -> party_count sc p w = length (filter (fun t => nth t (group_parties sc) 0 =? p) (map (tm sc) w)).
Proof.
  intros U. unfold party_count. rewrite filter_map_length. apply filter_length_ext. intros x Hx. apply party_tm. intros y [<-|[]]. apply U, Hx.
Qed.
Lemma short_iff c : short_enough sc caps c = true <->
  forall p cap, nth_error caps p = Some (Some cap) -> length (filter (fun t => nth t (group_parties sc) 0 =? p) c) <= cap.
Proof.
  unfold short_enough. rewrite forallb_forall. split.
  - intros H p cap E. assert (L : p < length caps) by (apply nth_error_Some; rewrite E; discriminate).
    specialize (H (p, Some cap)). cbn [fst snd] in H. apply Nat.leb_le, H.
    assert (K : nth_error (combine (seq 0 (length caps)) caps) p = Some (p, Some cap)).
    { clear -E L. assert (K : forall a l p, nth_error l p = Some (Some cap) -> nth_error (combine (seq a (length l)) l) p = Some (a + p, Some cap)).
      { intros a l. revert a. induction l as [|y l IH]; intros a [|q] H; cbn in *; try discriminate; [injection H as ->; rewrite Nat.add_0_r; reflexivity|]. rewrite (IH (S a) q H), Nat.add_succ_r. reflexivity. }
      rewrite (K 0 caps p E). reflexivity. }
    eapply nth_error_In, K.
  - intros H [p [cap|]] Hin; cbn [fst snd]; [|reflexivity]. apply Nat.leb_le, H.
    assert (K : forall (l : list (option nat)) a, In (p, Some cap) (combine (seq a (length l)) l) -> a <= p /\ nth_error l (p - a) = Some (Some cap)).
    { induction l as [|y l IH]; intros a Hl; [destruct Hl|]. cbn [length seq combine] in Hl. destruct Hl as [E|Hl]; [injection E as -> ->; split; [lia|rewrite Nat.sub_diag; reflexivity]|].
      apply IH in Hl as [L E]. split; [lia|]. destruct (p - a) as [|k] eqn:Ek; [lia|]. cbn. replace k with (p - S a) by lia. exact E. }
    apply K in Hin as [_ E]. rewrite Nat.sub_0_r in E. exact E.
Qed.

(** ** from a word to a clique *)
Section Back.
Variable w : word.
Hypothesis Sw : StronglySorted lt w.
Hypothesis Uw : usable_word sc hc w.
Hypothesis Cw : all_commute nc w.
Hypothesis NZ : ~ is_zero_product nc ortho w.
Definition clique_of : list nat := filter (fun t => existsb (fun x => tm sc x =? t) w) (seq 0 (length T)).
Definition vec_of : bvec := map (fun i => existsb (Nat.eqb (S i)) w) (seq 0 (S N)).
Lemma w_in x : In x w -> exists i t, x = S i /\ i < N /\ In i (sel t) /\ In i (grp T t) /\ t < length T /\ tm sc x = t.
Proof.
  intros H. destruct (Uw x H) as (p & Hp). apply (usable_group sc hc Hout) in Hp as (i & t & c & s & -> & M & Hi). assert (L : t < length T) by apply M.
  assert (Hg : In i (grp T t)) by apply (lim_grp sc hc Hout t i L Hi).
  exists i, t. repeat split; auto; [apply (grp_range N T (groups_cat sc false) (groups_ne sc Hout false) t i Hg)|apply (tm_of sc Hout), Hg].
Qed.
Lemma clique_of_in t : In t clique_of <-> exists x, In x w /\ tm sc x = t.
Proof.
  unfold clique_of. rewrite filter_In, existsb_exists. split.
  - intros [_ (x & Hx & E)]. apply Nat.eqb_eq in E. eauto.
  - intros (x & Hx & <-). destruct (w_in x Hx) as (i & t & _ & _ & _ & _ & L & E). split; [apply in_seq; lia|]. exists x. split; [exact Hx|apply Nat.eqb_refl].
Qed.
Lemma clique_of_clique : is_clique (length T) (compatible sc) clique_of.
Proof.
  split; [|split].
  - unfold clique_of. apply SS_filter, SS_seq.
  - intros t H. apply clique_of_in in H as (x & Hx & <-). destruct (w_in x Hx) as (i & t & _ & _ & _ & _ & L & ->). exact L.
  - intros t u Ht Hu _. apply clique_of_in in Ht as (x & Hx & <-). apply clique_of_in in Hu as (y & Hy & <-).
    destruct (w_in x Hx) as (i & t & -> & _ & _ & Hi & _ & ->). destruct (w_in y Hy) as (j & u & -> & _ & _ & Hj & _ & ->).
    apply (compat_nc sc W Hout t u i j Hi Hj). apply Cw; assumption.
Qed.
Lemma vec_nth i : nth i vec_of false = true <-> In (S i) w.
Proof.
  unfold vec_of. destruct (Nat.lt_ge_cases i (S N)) as [L|L].
  - rewrite (nth_indep _ false (existsb (Nat.eqb (S 0)) w)) by (rewrite map_length, seq_length; exact L).
    rewrite (map_nth (fun i => existsb (Nat.eqb (S i)) w)), seq_nth by exact L. rewrite existsb_exists. split.
    + intros (x & Hx & E). apply Nat.eqb_eq in E. cbn in E. subst; exact Hx.
    + intros H. exists (S i). split; [exact H|apply Nat.eqb_refl].
  - rewrite nth_overflow by (rewrite map_length, seq_length; exact L). split; [discriminate|]. intros H. destruct (w_in _ H) as (j & t & [= ->] & Lj & _). lia.
Qed.
Lemma vec_word : word_of vec_of = w.
Proof.
  apply SS_lt_ext; [apply map_S_SS, flatnonzero_SS|exact Sw|]. intros x. unfold word_of. rewrite in_map_iff. split.
  - intros (i & <- & H). apply flatnonzero_in, vec_nth in H. exact H.
  - intros H. destruct (w_in x H) as (i & _ & -> & _). exists i. split; [reflexivity|]. apply flatnonzero_in, vec_nth, H.
Qed.
Lemma vec_selected : selected (S N) groups' sel clique_of vec_of.
Proof.
  split; [unfold vec_of; rewrite map_length, seq_length; reflexivity|]. split; [|split].
  - intros i H. apply vec_nth in H. destruct (w_in _ H) as (j & t & [= <-] & _ & Hs & _ & _ & E). exists t. split; [|exact Hs]. apply clique_of_in. eauto.
  - intros t H. apply clique_of_in in H as (x & Hx & <-). destruct (w_in x Hx) as (i & t & -> & _ & Hs & _ & _ & ->). exists i. split; [exact Hs|]. apply vec_nth, Hx.
  - intros t i j Ht Hi Hj Vi Vj. assert (L : t < length T) by (apply clique_of_clique, Ht). rewrite (grp_eq sc hc t L) in Hi, Hj.
    apply vec_nth in Vi, Vj. destruct (Nat.eq_dec i j) as [E|E]; [exact E|]. exfalso. apply NZ.
    apply (commuting_zero w (S i) (S j) Cw Vi Vj); [lia|]. apply (same_ortho sc Hout t i j Hi Hj E).
Qed.
End Back.

Definition physical_word (w : word) : Prop :=
  StronglySorted lt w /\ usable_word sc hc w /\ all_commute nc w /\ ~ is_zero_product nc ortho w /\
  (mml = 0 \/ length w <= mml) /\ forall p cap, nth_error caps p = Some (Some cap) -> party_count sc p w <= cap.

Theorem physical_correct : exists cols, physical_columns sc hc caps mml = Some cols /\
  StronglySorted (fun a b => word_lt a b = true) cols /\ NoDup cols /\ hd_error cols = Some [] /\
  (forall w, In w cols -> canon sc commuting w = Some w) /\ (forall w, In w cols <-> physical_word w).
Proof.
  unfold physical_columns.
  assert (Len : length (ortho_idxs sc) = length T) by (rewrite <- (snd_groups sc false), map_length; reflexivity). rewrite Len.
  destruct (C18_all_cliques (length T) (compatible sc) mml false (compat_und sc false)) as (all & mx & E & Na & Hh & _ & Ha). rewrite E.
  eexists. split; [reflexivity|]. fold (raw all). change (fun v : bvec => map S (flatnonzero v)) with word_of.
  assert (Hcl : forall c, In c all -> is_clique (length T) (compatible sc) c) by (intros c H; apply Ha in H; tauto).
  assert (Rin : forall v, In v (raw all) <-> exists c, is_clique (length T) (compatible sc) c /\ (mml = 0 \/ length c <= mml) /\ short_enough sc caps c = true /\ selected (S N) groups' sel c v).
  { intros v. unfold raw. rewrite in_flat_map. split.
    - intros (c & H & Hv). apply filter_In in H as [H1 H2]. exists c. apply template_sel in Hv; [|apply Hcl, H1]. apply Ha in H1. tauto.
    - intros (c & H1 & H2 & H3 & H4). exists c. split; [apply filter_In; split; [apply Ha; tauto|exact H3]|]. apply template_sel; assumption. }
  assert (Nw : NoDup (map word_of (raw all))).
  { assert (Nr : NoDup (raw all)) by (apply raw_NoDup; assumption).
    assert (Lv : forall v, In v (raw all) -> length v = S N) by (intros v H; apply Rin in H as (c & _ & _ & _ & K); apply K).
    revert Nr Lv. generalize (raw all). induction l as [|v l IH]; intros Nr Lv; [constructor|]. cbn [map]. inversion Nr; subst. constructor.
    - intros K. apply in_map_iff in K as (v' & E' & Hv'). apply word_of_inj in E'; [subst; contradiction|apply Lv; right; exact Hv'|apply Lv; left; reflexivity].
    - apply IH; [assumption|]. intros u Hu. apply Lv. right; exact Hu. }
  assert (Win : forall w, In w (py_sorted word_lt (map word_of (raw all))) <-> physical_word w).
  { intros w. split.
    - intros H. apply (Permutation_in _ (Permutation_sym (py_sorted_perm word_lt _))) in H. apply in_map_iff in H as (v & <- & H). apply Rin in H as (c & Cl & Lm & Sh & Se).
      pose proof (word_usable c v Cl Se) as U. pose proof (word_tm c v Cl Se) as P.
      split; [apply map_S_SS, flatnonzero_SS|]. split; [exact U|]. split; [apply (word_commute c v Cl Se)|].
      split; [apply sorted_fix; [apply map_S_SS, flatnonzero_SS|exact U|apply (word_commute c v Cl Se)|apply (word_no_ortho c v Cl Se)]|]. split.
      + rewrite <- (map_length (tm sc)), (Permutation_length P). exact Lm.
      + intros p cap Hp. rewrite (party_count_tm _ p U), (filter_perm _ _ _ P). apply (proj1 (short_iff c) Sh p cap Hp).
    - intros (Sw & U & C & NZ & Lm & Cap). apply (Permutation_in _ (py_sorted_perm word_lt _)). apply in_map_iff. exists (vec_of w). split; [apply vec_word; assumption|].
      apply Rin. exists (clique_of w). pose proof (clique_of_clique w U C) as Cl. pose proof (vec_selected w U C NZ) as Se.
      pose proof (word_tm _ _ Cl Se) as P. rewrite (vec_word w Sw U) in P. split; [exact Cl|]. split; [|split; [|exact Se]].
      + rewrite <- (Permutation_length P), map_length. exact Lm.
      + apply short_iff. intros p cap Hp. rewrite <- (filter_perm _ _ _ P), <- (party_count_tm w p U). apply Cap, Hp. }
  assert (SO : StronglySorted (fun a b => word_lt a b = true) (py_sorted word_lt (map word_of (raw all)))) by (apply py_sorted_strict, Nw).
  split; [exact SO|]. split; [apply (Permutation_NoDup (py_sorted_perm word_lt _)), Nw|]. split.
  - assert (H0 : In [] (py_sorted word_lt (map word_of (raw all)))).
    { apply Win. split; [constructor|]. split; [intros ? []|]. split; [intros ? ? []|]. split.
      - intros Z. apply (F_zero' nc ortho commuting G Hc) in Z. destruct commuting; discriminate.
      - split; [right; cbn; lia|intros; cbn; lia]. }
    exact (sorted_hd _ SO H0).
  - split; [|exact Win]. intros w H. apply (Permutation_in _ (Permutation_sym (py_sorted_perm word_lt _))) in H. apply in_map_iff in H as (v & <- & H). apply Rin in H as (c & Cl & Lm & Sh & Se).
    apply sorted_fix; [apply map_S_SS, flatnonzero_SS|apply (word_usable c v Cl Se)|apply (word_commute c v Cl Se)|apply (word_no_ortho c v Cl Se)].
Qed.
End Physical.
