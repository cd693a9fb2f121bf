(** Proofs about to_canonical_1d_internal: complete normal form for products of projectors. *)
From Coq Require Import Permutation.
From Verif Require Import CanonModel CanonSpec CanonProofs.

Section Meets.
Variable nc : table.
Hypothesis nc_sym : good_comm nc.
Variable P : nat -> nat -> Prop.
Hypothesis P_sym : forall a b, P a b -> P b a.
Hypothesis P_row : forall a b c, P a b -> nc a c = nc b c.
Hypothesis P_int : forall x q y, P x q -> x <= y <= q -> y <> q -> P y q.

(** some letter [q] later in the word is related to an earlier letter and
    everything between commutes with it *)
Fixpoint meetsR (w : word) : Prop :=
  match w with
  | [] => False
  | x :: w' => (exists q r, P x q /\ pull nc q w' = Some r) \/ meetsR w'
  end.

Lemma meetsR_swap u x y v : nc x y = false ->
  meetsR (u ++ x :: y :: v) -> meetsR (u ++ y :: x :: v).
Proof.
  intros Hxy. induction u as [|z u IH]; cbn [app meetsR].
  - assert (Hyx : nc y x = false) by (rewrite nc_sym; exact Hxy).
    intros [(q & r & HP & Hq)|[(q & r & HP & Hq)|H]].
    + cbn in Hq. destruct (Nat.eqb_spec y q) as [->|Hne].
      * left. exists x, v. split; [apply P_sym, HP|apply pull_head].
      * destruct (nc q y); [discriminate|]. destruct (pull nc q v) as [r'|] eqn:E; [|discriminate].
        right; left. exists q, r'. split; [exact HP|exact E].
    + left. cbn. destruct (Nat.eqb_spec x q) as [->|Hne].
      * exists q, v. split; [exact HP|apply pull_head].
      * exists q, (x :: r). split; [exact HP|]. cbn.
        destruct (Nat.eqb_spec x q); [congruence|].
        rewrite <- (P_row y q x HP), Hyx, Hq. reflexivity.
    + right; right; exact H.
  - intros [(q & r & HP & Hq)|H]; [left|right; auto].
    destruct (pull_app_swap nc nc_sym _ _ _ _ _ _ Hxy Hq) as (r' & Hr' & _).
    eauto.
Qed.

Lemma meetsR_ce w1 w2 : comm_eq nc w1 w2 -> (meetsR w1 <-> meetsR w2).
Proof.
  induction 1 as [w|u x y v Hc|w1 w2 _ IH|w1 w2 w3 _ IH1 _ IH2].
  - reflexivity.
  - split; apply meetsR_swap; [exact Hc|rewrite nc_sym; exact Hc].
  - symmetry; exact IH.
  - etransitivity; eassumption.
Qed.

Lemma meetsR_app u w : meetsR w -> meetsR (u ++ w).
Proof. intros H; induction u; cbn; auto. Qed.

Fixpoint adjacentP (w : word) : Prop :=
  match w with
  | x :: ((y :: _) as w') => P x y \/ adjacentP w'
  | _ => False
  end.

Lemma adjacentP_app u w : adjacentP w -> adjacentP (u ++ w).
Proof.
  intros H; induction u as [|x u IH]; [exact H|].
  cbn [app]. destruct (u ++ w) as [|y l] eqn:E; [destruct IH|]. cbn; right; exact IH.
Qed.

Lemma adjacentP_meetsR w : adjacentP w -> meetsR w.
Proof.
  induction w as [|x [|y w] IH]; [intros []|intros []|].
  cbn [adjacentP]. intros [H|H].
  - cbn [meetsR]. left. exists y, w. split; [exact H|apply pull_head].
  - cbn [meetsR]. right. exact (IH H).
Qed.

Lemma anf_app_r u w : anf nc (u ++ w) -> anf nc w.
Proof. induction u as [|x u IH]; cbn; [auto|intros [_ H]; auto]. Qed.

Lemma anf_meets_adjacent : forall n w, length w <= n -> anf nc w -> meetsR w -> adjacentP w.
Proof.
  induction n as [|n IH]; intros w Hlen Hanf Hm.
  - destruct w; [destruct Hm|cbn in Hlen; lia].
  - destruct w as [|x w]; [destruct Hm|].
    cbn [meetsR] in Hm. destruct Hm as [(q & r & HP & Hq)|Hm].
    + destruct (pull_split nc _ _ _ Hq) as (m & v & -> & _ & Hc & Hni).
      destruct m as [|y m].
      * cbn. left; exact HP.
      * assert (Hxy : nc y x = false).
        { rewrite nc_sym, (P_row x q y HP). apply Hc; left; reflexivity. }
        assert (H1 : x <= y).
        { apply (anf_pair nc [] x [] y (m ++ q :: v)); [exact Hanf|].
          intros z [<-|[]]. exact Hxy. }
        assert (H2 : y <= q).
        { apply (anf_pair nc [x] y m q v); [exact Hanf|]. exact Hc. }
        assert (Hyq : y <> q) by (intros ->; apply Hni; left; reflexivity).
        pose proof (P_int x q y HP (conj H1 H2) Hyq) as HPy.
        apply (adjacentP_app [x]). apply IH.
        -- cbn in *; lia.
        -- destruct Hanf as [_ Hanf]; exact Hanf.
        -- cbn [app meetsR]. left. destruct (pull_avail nc m q v) as [r' Hr'].
           { intros b Hb; apply Hc; right; exact Hb. }
           exists q, r'. split; assumption.
    + apply (adjacentP_app [x]). apply IH; [cbn in Hlen; lia|apply Hanf|exact Hm].
Qed.

End Meets.

Section Tables.
Variable nc ortho : table.
Hypothesis G : good_tables nc ortho.

Let nc_sym : good_comm nc := gt_nc_sym _ _ G.
Notation "u ~ v" := (comm_eq nc u v) (at level 70).
Notation "u == v" := (proj_eq nc ortho u v) (at level 70).

Definition orthoP (a b : nat) : Prop := a <> 0 /\ b <> 0 /\ ortho a b = true.

Lemma orthoP_sym a b : orthoP a b -> orthoP b a.
Proof. intros (H1 & H2 & H3). unfold orthoP. rewrite (gt_ortho_sym _ _ G). auto. Qed.
Lemma orthoP_row a b c : orthoP a b -> nc a c = nc b c.
Proof. intros (H1 & H2 & H3). apply (gt_same_row _ _ G); assumption. Qed.
Lemma orthoP_int x q y : orthoP x q -> x <= y <= q -> y <> q -> orthoP y q.
Proof.
  intros (H1 & H2 & H3) [Hl Hr] Hne.
  destruct (Nat.eq_dec x y) as [->|Hxy]; [repeat split; assumption|].
  assert (Hy : y <> 0) by lia.
  repeat split; try assumption.
  apply (gt_ortho_trans _ _ G y x q); auto.
  rewrite (gt_ortho_sym _ _ G). apply (gt_interval _ _ G x q y); auto. lia.
Qed.

(** the post-processing applied to the commutation-canonical word *)
Definition post (r : word) : word :=
  remove_projector_squares (if lexmon_is_zero ortho r then [0] else r).

Lemma internal_eq w :
  to_canonical_1d_internal nc ortho false false w
  = option_map post (nb_lexmon_to_canonical nc w).
Proof.
  unfold to_canonical_1d_internal.
  destruct (Nat.leb_spec (length w) 1) as [Hs|Hl].
  - destruct (canon_correct nc nc_sym w) as (r & E & C & _). rewrite E. cbn.
    assert (r = w) as ->.
    { destruct w as [|a [|b w]]; cbn in Hs; [..|lia].
      - apply ce_length in C. destruct r; [reflexivity|discriminate].
      - apply ce_perm, Permutation_length_1_inv in C. exact C. }
    unfold post. destruct w as [|a [|b w]]; cbn in Hs; [reflexivity| |lia].
    destruct a; reflexivity.
  - destruct (nb_lexmon_to_canonical nc w); reflexivity.
Qed.

Lemma adjacent_ortho_iff r :
  adjacent_ortho ortho r = true <-> exists u a b v, r = u ++ a :: b :: v /\ ortho a b = true.
Proof.
  split.
  - induction r as [|x [|y r] IH]; cbn [adjacent_ortho]; try discriminate.
    intros H. apply orb_true_iff in H as [H|H].
    + exists [], x, y, r. split; [reflexivity|]. rewrite (gt_ortho_sym _ _ G); exact H.
    + destruct (IH H) as (u & a & b & v & E & Ho). exists (x :: u), a, b, v.
      cbn; rewrite E. auto.
  - intros (u & a & b & v & -> & Ho). induction u as [|x u IH].
    + cbn [app adjacent_ortho]. rewrite (gt_ortho_sym _ _ G), Ho. reflexivity.
    + cbn [app]. revert IH. destruct (u ++ a :: b :: v) as [|y l]; [discriminate|]. intros IH.
      cbn [adjacent_ortho] in *. rewrite IH. apply orb_true_r.
Qed.

Lemma is_zero_iff r : lexmon_is_zero ortho r = true <->
  r = [0] \/ exists u a b v, r = u ++ a :: b :: v /\ ortho a b = true.
Proof.
  rewrite <- adjacent_ortho_iff. unfold lexmon_is_zero.
  destruct r as [|[|x] [|y r]]; cbn [adjacent_ortho]; intuition; try discriminate.
Qed.

Lemma contains_zero_iszero u v : lexmon_is_zero ortho (u ++ 0 :: v) = true.
Proof.
  apply is_zero_iff. destruct v as [|b v].
  - destruct u as [|a u] using rev_ind; [left; reflexivity|]. right.
    exists u, a, 0, []. rewrite <- app_assoc. split; [reflexivity|].
    rewrite (gt_ortho_sym _ _ G). apply (gt_ortho_zero _ _ G).
  - right. exists u, 0, b, v. split; [reflexivity|apply (gt_ortho_zero _ _ G)].
Qed.

Lemma squeeze_double_from p s a t :
  squeeze_from p (s ++ a :: a :: t) = squeeze_from p (s ++ a :: t).
Proof.
  revert p; induction s as [|x s IH]; intros p; cbn.
  - rewrite Nat.eqb_refl. destruct (a =? p); reflexivity.
  - rewrite !IH. reflexivity.
Qed.
Lemma squeeze_double s a t :
  remove_projector_squares (s ++ a :: a :: t) = remove_projector_squares (s ++ a :: t).
Proof.
  destruct s as [|x s]; cbn.
  - rewrite Nat.eqb_refl. reflexivity.
  - rewrite squeeze_double_from. reflexivity.
Qed.

Lemma adjacent_ortho_double s a t : ortho a a = false ->
  adjacent_ortho ortho (s ++ a :: a :: t) = adjacent_ortho ortho (s ++ a :: t).
Proof.
  intros Ha. induction s as [|x s IH].
  - cbn [app adjacent_ortho]. rewrite Ha. reflexivity.
  - destruct s as [|y s].
    + cbn [app] in *. cbn [adjacent_ortho] in *. rewrite IH. reflexivity.
    + cbn [app] in *. change (adjacent_ortho ortho (x :: y :: s ++ a :: a :: t)) with
        (ortho y x || adjacent_ortho ortho (y :: s ++ a :: a :: t)).
      rewrite IH. reflexivity.
Qed.

Lemma post_double s a t : post (s ++ a :: a :: t) = post (s ++ a :: t).
Proof.
  unfold post. destruct (Nat.eq_dec a 0) as [->|Ha].
  - rewrite !contains_zero_iszero. reflexivity.
  - assert (E : lexmon_is_zero ortho (s ++ a :: a :: t) = lexmon_is_zero ortho (s ++ a :: t)).
    { pose proof (adjacent_ortho_double s a t (gt_ortho_irrefl _ _ G a Ha)) as E.
      unfold lexmon_is_zero. destruct s as [|x [|y s]]; cbn [app] in *.
      - destruct a; [lia|]. exact E.
      - destruct x; exact E.
      - destruct x; exact E. }
    rewrite E. destruct (lexmon_is_zero ortho (s ++ a :: t)); [reflexivity|apply squeeze_double].
Qed.

(** ** the canonical form is invariant under the relations *)
Definition F (w : word) : option word := to_canonical_1d_internal nc ortho false false w.

Lemma F_comm u v : u ~ v -> F u = F v.
Proof. intros H. unfold F. rewrite !internal_eq. f_equal. apply canon_complete; assumption. Qed.

Lemma F_idem u a v : F (u ++ a :: a :: v) = F (u ++ a :: v).
Proof.
  unfold F. rewrite !internal_eq.
  destruct (canon_correct nc nc_sym (u ++ a :: v)) as (r & E & _).
  destruct (canon_double nc nc_sym _ _ _ _ E) as (s & t & -> & E2).
  rewrite E, E2. cbn. f_equal. apply post_double.
Qed.

Lemma F_zero u v : F (u ++ 0 :: v) = Some [0].
Proof.
  unfold F. rewrite internal_eq.
  destruct (canon_correct nc nc_sym (u ++ 0 :: v)) as (r & E & C & _).
  rewrite E. cbn. apply ce_perm in C.
  assert (Hin : In 0 r).
  { eapply Permutation_in; [exact C|]. apply in_or_app; right; left; reflexivity. }
  apply in_split in Hin as (s & t & ->). unfold post. rewrite contains_zero_iszero. reflexivity.
Qed.

Lemma adjacentP_ortho r : adjacentP orthoP r -> adjacent_ortho ortho r = true.
Proof.
  induction r as [|x [|y r] IH]; [intros []|intros []|].
  cbn [adjacentP adjacent_ortho]. intros [(_ & _ & H)|H].
  - rewrite (gt_ortho_sym _ _ G), H. reflexivity.
  - specialize (IH H). cbn [adjacent_ortho] in IH. rewrite IH. apply orb_true_r.
Qed.

Lemma iszero_post r : lexmon_is_zero ortho r = true -> post r = [0].
Proof. unfold post. intros ->. reflexivity. Qed.

Lemma F_ortho u a b v : ortho a b = true -> F (u ++ a :: b :: v) = Some [0].
Proof.
  intros Ho.
  destruct (Nat.eq_dec a 0) as [->|Ha]; [apply F_zero|].
  destruct (Nat.eq_dec b 0) as [->|Hb].
  { replace (u ++ a :: 0 :: v) with ((u ++ [a]) ++ 0 :: v) by (rewrite <- app_assoc; reflexivity).
    apply F_zero. }
  unfold F. rewrite internal_eq.
  destruct (canon_correct nc nc_sym (u ++ a :: b :: v)) as (r & E & C & L).
  rewrite E. cbn. f_equal. apply iszero_post.
  assert (HM : meetsR nc orthoP r).
  { apply (meetsR_ce nc nc_sym orthoP orthoP_sym orthoP_row _ _ C).
    apply meetsR_app. cbn [meetsR]. left. exists b, v.
    split; [repeat split; assumption|apply pull_head]. }
  pose proof (anf_meets_adjacent nc nc_sym orthoP orthoP_row orthoP_int
                (length r) r (le_n _) (lexmin_anf nc nc_sym _ L) HM) as HA.
  apply adjacentP_ortho in HA. apply adjacent_ortho_iff in HA. apply is_zero_iff. right; exact HA.
Qed.

Lemma F_invariant u v : u == v -> F u = F v.
Proof.
  induction 1 as [w|w1 w2 _ IH|w1 w2 w3 _ IH1 _ IH2|u a b v Hc|u a v|u a b v Ho|u v].
  - reflexivity.
  - symmetry; exact IH.
  - congruence.
  - apply F_comm, ce_swap, Hc.
  - apply F_idem.
  - rewrite F_ortho by exact Ho. reflexivity.
  - rewrite F_zero. reflexivity.
Qed.

Lemma ce_pe u v : u ~ v -> u == v.
Proof.
  induction 1 as [w|u x y v Hc|w1 w2 _ IH|w1 w2 w3 _ IH1 _ IH2].
  - apply pe_refl.
  - apply pe_comm; exact Hc.
  - apply pe_sym; exact IH.
  - eapply pe_trans; eassumption.
Qed.

Lemma squeeze_from_pe p l : forall s, s ++ p :: l == s ++ p :: squeeze_from p l.
Proof.
  revert p; induction l as [|x l IH]; intros p s; cbn; [apply pe_refl|].
  destruct (Nat.eqb_spec x p) as [->|Hne].
  - eapply pe_trans; [apply pe_idem|]. apply IH.
  - specialize (IH x (s ++ [p])). rewrite <- !app_assoc in IH. exact IH.
Qed.

Lemma post_pe r : r == post r.
Proof.
  unfold post. destruct (lexmon_is_zero ortho r) eqn:E.
  - apply is_zero_iff in E as [->|(u & a & b & v & -> & Ho)]; [apply pe_refl|].
    apply pe_ortho; exact Ho.
  - destruct r as [|x r]; [apply pe_refl|]. apply (squeeze_from_pe x r []).
Qed.

Lemma F_sound w : exists r, F w = Some r /\ w == r.
Proof.
  unfold F. rewrite internal_eq.
  destruct (canon_correct nc nc_sym w) as (r & E & C & _). rewrite E. cbn.
  exists (post r). split; [reflexivity|]. eapply pe_trans; [apply ce_pe, C|apply post_pe].
Qed.

Lemma F_complete u v : F u = F v <-> u == v.
Proof.
  split; [|apply F_invariant]. intros H.
  destruct (F_sound u) as (r & E & C). destruct (F_sound v) as (r' & E' & C').
  rewrite E, E' in H. injection H as ->. eapply pe_trans; [exact C|apply pe_sym, C'].
Qed.

Lemma F_single a : F [a] = Some [a].
Proof. reflexivity. Qed.

Lemma F_zero_iff w : F w = Some [0] <-> w == [0].
Proof. rewrite <- F_complete. rewrite F_single. reflexivity. Qed.

(** ** idempotence and shape *)
Lemma squeeze_anf r : anf nc r -> anf nc (remove_projector_squares r).
Proof.
  destruct r as [|x r]; cbn [remove_projector_squares]; [auto|].
  assert (H : forall p l s, anf nc (s ++ p :: l) -> anf nc (s ++ p :: squeeze_from p l)).
  { intros p l; revert p; induction l as [|y l IH]; intros p s Ha; cbn; [exact Ha|].
    destruct (Nat.eqb_spec y p) as [->|Hne].
    - apply anf_double in Ha. apply IH, Ha.
    - specialize (IH y (s ++ [p])). rewrite <- !app_assoc in IH. apply IH, Ha. }
  apply (H x r []).
Qed.

Fixpoint no_adj_eq (l : word) : Prop :=
  match l with x :: ((y :: _) as l') => x <> y /\ no_adj_eq l' | _ => True end.

Lemma squeeze_no_adj p l : no_adj_eq (p :: squeeze_from p l).
Proof.
  revert p; induction l as [|y l IH]; intros p; cbn [squeeze_from]; [cbn; auto|].
  destruct (Nat.eqb_spec y p) as [->|Hne]; [apply IH|]. split; [congruence|apply IH].
Qed.

Lemma no_adj_squeeze l : no_adj_eq l -> remove_projector_squares l = l.
Proof.
  destruct l as [|x l]; [reflexivity|]. cbn [remove_projector_squares]. intros H. f_equal.
  revert x H; induction l as [|y l IH]; intros x H; [reflexivity|].
  destruct H as [H1 H2]. cbn. destruct (Nat.eqb_spec y x); [congruence|]. f_equal. apply IH, H2.
Qed.

Lemma adjacent_ortho_squeeze r : adjacent_ortho ortho r = false ->
  adjacent_ortho ortho (remove_projector_squares r) = false.
Proof.
  destruct r as [|x r]; [reflexivity|]. cbn [remove_projector_squares].
  revert x; induction r as [|y r IH]; intros x H; [reflexivity|].
  cbn [squeeze_from]. cbn [adjacent_ortho] in H. apply orb_false_iff in H as [H1 H2].
  destruct (Nat.eqb_spec y x) as [->|Hne]; [apply IH, H2|].
  cbn [adjacent_ortho]. rewrite H1. apply IH, H2.
Qed.

Lemma squeeze_len p l : length (squeeze_from p l) <= length l.
Proof. revert p; induction l as [|y l IH]; intros p; cbn; [lia|]. destruct (y =? p); cbn; specialize (IH y); lia. Qed.
Lemma squeeze_incl p l : incl (squeeze_from p l) l.
Proof.
  revert p; induction l as [|y l IH]; intros p z Hz; cbn in *; [exact Hz|].
  destruct (y =? p); [right; eapply IH, Hz|]. destruct Hz as [->|Hz]; [left; reflexivity|right; eapply IH, Hz].
Qed.

Definition nonzero_nf (r : word) : Prop :=
  anf nc r /\ no_adj_eq r /\ adjacent_ortho ortho r = false /\ ~ In 0 r.

Lemma F_shape w r : F w = Some r ->
  r = [0] \/ (nonzero_nf r /\ incl r w /\ length r <= length w).
Proof.
  unfold F. rewrite internal_eq.
  destruct (canon_correct nc nc_sym w) as (c & E & C & L). rewrite E. cbn.
  intros [= <-]. unfold post. destruct (lexmon_is_zero ortho c) eqn:Z; [left; reflexivity|right].
  assert (H0 : ~ In 0 c).
  { intros H. apply in_split in H as (s & t & ->). rewrite contains_zero_iszero in Z. discriminate. }
  assert (Hincl : incl (remove_projector_squares c) c).
  { destruct c as [|x c]; cbn; [intros z []|]. intros z [->|Hz]; [left; reflexivity|right].
    eapply squeeze_incl, Hz. }
  assert (HA : adjacent_ortho ortho c = false).
  { destruct (adjacent_ortho ortho c) eqn:A; [|reflexivity].
    apply adjacent_ortho_iff in A. assert (lexmon_is_zero ortho c = true) by (apply is_zero_iff; auto).
    congruence. }
  repeat split.
  - apply squeeze_anf, (lexmin_anf nc nc_sym), L.
  - destruct c; [cbn; auto|apply squeeze_no_adj].
  - apply adjacent_ortho_squeeze, HA.
  - intros H; apply H0, Hincl, H.
  - intros z Hz. eapply Permutation_in; [apply Permutation_sym, (ce_perm nc), C|]. apply Hincl, Hz.
  - rewrite (ce_length _ _ _ C). destruct c as [|x c]; cbn; [lia|]. pose proof (squeeze_len x c). lia.
Qed.

Lemma F_fix r : nonzero_nf r -> F r = Some r.
Proof.
  intros (H1 & H2 & H3 & H4). unfold F. rewrite internal_eq, (canon_fix nc nc_sym r H1). cbn.
  f_equal. unfold post. assert (lexmon_is_zero ortho r = false) as ->.
  { destruct (lexmon_is_zero ortho r) eqn:Z; [|reflexivity].
    apply is_zero_iff in Z as [->|Z]; [exfalso; apply H4; left; reflexivity|].
    apply adjacent_ortho_iff in Z. congruence. }
  apply no_adj_squeeze, H2.
Qed.

Lemma F_idempotent w r : F w = Some r -> F r = Some r.
Proof.
  intros H. destruct (F_shape w r H) as [->|[Hn _]]; [reflexivity|apply F_fix, Hn].
Qed.

(** the [commuting] flag *)
Lemma np_sort_canon w : (forall a b, nc a b = false) ->
  nb_lexmon_to_canonical nc w = Some (np_sort w).
Proof.
  intros Hc. destruct (canon_correct nc nc_sym w) as (c & E & C & L). rewrite E. f_equal.
  apply (lexmin_unique nc); [exact L|apply np_sort_lexmin|].
  eapply ce_trans; [apply ce_sym, C|]. apply commuting_perm_ce; [apply np_sort_perm|auto].
Qed.

Lemma internal_commuting b w : (forall a b, nc a b = false) ->
  to_canonical_1d_internal nc ortho true b w = to_canonical_1d_internal nc ortho false b w.
Proof. intros Hc. unfold to_canonical_1d_internal. rewrite np_sort_canon by exact Hc. reflexivity. Qed.

(** ** reversal (Hermitian conjugation) *)
Lemma pe_rev u v : u == v -> rev u == rev v.
Proof.
  induction 1 as [w|w1 w2 _ IH|w1 w2 w3 _ IH1 _ IH2|u a b v Hc|u a v|u a b v Ho|u v].
  - apply pe_refl.
  - apply pe_sym, IH.
  - eapply pe_trans; eassumption.
  - rewrite !rev_app_distr. cbn. rewrite <- !app_assoc. apply pe_comm. rewrite (gt_nc_sym _ _ G); exact Hc.
  - rewrite !rev_app_distr. cbn. rewrite <- !app_assoc. apply pe_idem.
  - rewrite !rev_app_distr. cbn. rewrite <- !app_assoc. apply pe_ortho.
    rewrite (gt_ortho_sym _ _ G); exact Ho.
  - rewrite !rev_app_distr. cbn. rewrite <- !app_assoc. apply pe_zero.
Qed.

(** conjugate of a non-zero canonical word: commutations alone suffice *)
Lemma eqP_row (a b c : nat) : a = b -> nc a c = nc b c.
Proof. intros ->; reflexivity. Qed.

Lemma adjacentP_eq r : adjacentP eq r -> ~ no_adj_eq r.
Proof.
  induction r as [|x [|y r] IH]; [intros []|intros []|].
  cbn [adjacentP no_adj_eq]. intros [->|H] [H1 H2]; [congruence|]. exact (IH H H2).
Qed.
Lemma not_no_adj r : no_adj_eq r \/ adjacentP eq r.
Proof.
  induction r as [|x [|y r] IH]; [left; exact I|left; exact I|].
  cbn [adjacentP no_adj_eq]. destruct (Nat.eq_dec x y); destruct IH; tauto.
Qed.

Lemma adjacentP_rev (P : nat -> nat -> Prop) r : (forall a b, P a b -> P b a) ->
  adjacentP P r -> adjacentP P (rev r).
Proof.
  intros Hs. induction r as [|x [|y r] IH]; [intros []|intros []|].
  cbn [adjacentP]. intros [H|H].
  - cbn [rev]. rewrite <- app_assoc. apply adjacentP_app. cbn. left; apply Hs, H.
  - specialize (IH H). change (rev (x :: y :: r)) with (rev (y :: r) ++ [x]).
    revert IH. generalize (rev (y :: r)). intros l. induction l as [|a [|b l] IHl]; [intros []|intros []|].
    cbn [app adjacentP]. intros [Hl|Hl]; [left; exact Hl|right; exact (IHl Hl)].
Qed.

Lemma conj_nf r c : nonzero_nf r -> nb_lexmon_to_canonical nc (rev r) = Some c ->
  nonzero_nf c /\ F (rev r) = Some c.
Proof.
  intros (H1 & H2 & H3 & H4) E.
  destruct (canon_correct nc nc_sym (rev r)) as (c' & E' & C & L).
  rewrite E in E'; injection E' as <-.
  assert (Cr : comm_eq nc (rev c) r).
  { eapply ce_trans; [apply ce_rev; [exact nc_sym|]; apply ce_sym, C|]. rewrite rev_involutive. apply ce_refl. }
  assert (N : nonzero_nf c).
  { repeat split.
    - apply lexmin_anf; assumption.
    - destruct (not_no_adj c) as [|HA]; [assumption|exfalso].
      apply adjacentP_rev in HA; [|auto].
      apply adjacentP_meetsR with (nc := nc) in HA.
      apply (meetsR_ce nc nc_sym eq (@eq_sym nat) eqP_row _ _ Cr) in HA.
      apply (anf_meets_adjacent nc nc_sym eq eqP_row) with (n := length r) in HA; [|lia|lia|exact H1].
      exact (adjacentP_eq _ HA H2).
    - destruct (adjacent_ortho ortho c) eqn:A; [exfalso|reflexivity].
      assert (Hc0 : ~ In 0 c).
      { intros Hin. apply H4. apply in_rev. eapply Permutation_in; [apply Permutation_sym, (ce_perm nc), C|exact Hin]. }
      apply adjacent_ortho_iff in A as (u & a & b & v & -> & Ho).
      assert (HA : adjacentP orthoP (u ++ a :: b :: v)).
      { apply adjacentP_app. cbn. left. repeat split; [..|exact Ho]; intros ->; apply Hc0, in_or_app; right; cbn; auto. }
      apply adjacentP_rev in HA; [|apply orthoP_sym].
      apply adjacentP_meetsR with (nc := nc) in HA.
      apply (meetsR_ce nc nc_sym orthoP orthoP_sym orthoP_row _ _ Cr) in HA.
      apply (anf_meets_adjacent nc nc_sym orthoP orthoP_row orthoP_int) with (n := length r) in HA; [|lia|exact H1].
      apply adjacentP_ortho in HA. congruence.
    - intros Hin. apply H4. apply in_rev. eapply Permutation_in; [apply Permutation_sym, (ce_perm nc), C|exact Hin]. }
  split; [exact N|].
  rewrite <- (F_fix c N). apply F_comm, C.
Qed.

End Tables.

Lemma no_adj_eq_split u : forall a b v, no_adj_eq (u ++ a :: b :: v) -> a <> b.
Proof.
  induction u as [|x u IH]; intros a b v H; [exact (proj1 H)|].
  cbn [app no_adj_eq] in H. destruct (u ++ a :: b :: v) as [|y l] eqn:E; [destruct u; discriminate|].
  apply (IH a b v). rewrite E. apply H.
Qed.

Lemma F_shape_spec : forall nc ortho w r, good_tables nc ortho ->
  to_canonical_1d_internal nc ortho false false w = Some r ->
  r = [0] \/
  (~ In 0 r /\ incl r w /\ length r <= length w /\
   forall u a b v, r = u ++ a :: b :: v -> a <> b /\ ortho a b = false).
Proof.
  intros nc ortho w r G H. destruct (F_shape nc ortho G w r H) as [->|((H1 & H2 & H3 & H4) & H5 & H6)]; [auto|].
  right. repeat split; auto.
  - subst r. eapply no_adj_eq_split, H2.
  - subst r. apply not_true_iff_false. intros Ho.
    rewrite (proj2 (adjacent_ortho_iff nc ortho G _)) in H3; [discriminate|]. eauto 6.
Qed.
