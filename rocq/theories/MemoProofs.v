(** Proofs about the memoised canonicaliser and the inflation representative. *)
From Coq Require Import Sorted Permutation.
From Verif Require Import CanonModel CanonSpec CanonProofs CanonProofs2 MomentProofs UniqueProofs.
From Verif Require Import OrbitSpec ColumnModel ColumnSpec ColumnProofs MemoModel MemoSpec.

Lemma word_eqb_true a b : word_eqb a b = true <-> a = b.
Proof. unfold word_eqb. destruct (list_eq_dec Nat.eq_dec a b); intuition congruence. Qed.
Lemma word_eqb_refl a : word_eqb a a = true.
Proof. now apply word_eqb_true. Qed.

Lemma compare_lex_le u : forall v, lex_compare u v <> Gt -> lex_le u v.
Proof.
  induction u as [|x u IH]; intros [|y v] H; cbn in H; try (now constructor); try congruence.
  destruct (Nat.compare_spec x y) as [->|L|L]; [apply ll_eq, IH, H|apply ll_lt, L|congruence].
Qed.
Lemma pymin_spec l : l <> [] -> exists r, pymin l = Some r /\ In r l /\ forall x, In x l -> lex_le r x.
Proof.
  destruct l as [|x l]; [congruence|]. intros _. cbn [pymin]. eexists. split; [reflexivity|].
  assert (H : forall l x, (fold_left (fun m y => match lex_compare y m with Lt => y | _ => m end) l x = x \/
                 In (fold_left (fun m y => match lex_compare y m with Lt => y | _ => m end) l x) l) /\
              lex_le (fold_left (fun m y => match lex_compare y m with Lt => y | _ => m end) l x) x /\
              forall z, In z l -> lex_le (fold_left (fun m y => match lex_compare y m with Lt => y | _ => m end) l x) z).
  { clear. induction l as [|y l IH]; intros x; [cbn; split; [now left|]; split; [apply lex_refl|intros ? []]|]. cbn [fold_left].
    assert (A : exists x', match lex_compare y x with Lt => y | _ => x end = x' /\ (x' = y \/ x' = x) /\ lex_le x' y /\ lex_le x' x).
    { destruct (lex_compare y x) eqn:E.
      - exists x. split; [reflexivity|]. split; [now right|]. split; [|apply lex_refl]. pose proof (proj1 (gc_eq _ lex_good_cmp y x) E). subst. apply lex_refl.
      - exists y. split; [reflexivity|]. split; [now left|]. split; [apply lex_refl|]. apply compare_lex_le. congruence.
      - exists x. split; [reflexivity|]. split; [now right|]. split; [|apply lex_refl].
        destruct (lex_total x y) as [H|H]; [exact H|]. apply lex_le_compare in H. congruence. }
    destruct A as (x' & -> & A1 & A2 & A3). destruct (IH x') as (I1 & I2 & I3). split; [|split].
    - destruct I1 as [I1|I1]; [rewrite I1; destruct A1 as [-> | ->]; [right; now left|now left]|right; now right].
    - eapply lex_trans; eassumption.
    - intros z [<-|Hz]; [eapply lex_trans; eassumption|now apply I3]. }
  destruct (H l x) as (H1 & H2 & H3). split.
  - destruct H1 as [H1|H1]; [left; now symmetry|now right].
  - intros z [<-|Hz]; [exact H2|now apply H3].
Qed.

Lemma adjacentP_eq_split r : adjacentP eq r -> exists u a b v, r = u ++ a :: b :: v /\ a = b.
Proof.
  induction r as [|x [|y r] IH]; cbn; try tauto. intros [->|H]; [exists [], y, y, r; auto|]. destruct (IH H) as (u & a & b & v & E & Q).
  exists (x :: u), a, b, v. cbn. rewrite <- E. auto.
Qed.
Section M.
Variables (nc ortho : table) (commuting : bool) (L : nat) (syms : list (list nat)).
Hypothesis G : good_tables nc ortho.
Hypothesis Hcomm : commuting = true -> forall a b, nc a b = false.
Hypothesis OS : operator_symmetries nc ortho L syms.
Let nc_sym : good_comm nc := gt_nc_sym _ _ G.
Notation "u ~ v" := (comm_eq nc u v) (at level 70).
Notation Fn := (to_canonical_1d_internal nc ortho commuting false).
Notation rep := (is_representative nc syms).

Lemma reduced_ce u v : u ~ v -> reduced nc ortho u -> reduced nc ortho v.
Proof.
  intros E [H0 H]. split.
  - intros H1. apply H0. eapply Permutation_in; [apply Permutation_sym, (ce_perm nc), E|exact H1].
  - intros a b c d E'. eapply H. eapply ce_trans; eassumption.
Qed.
Lemma reduced_canon w : reduced nc ortho w -> Fn w = nb_lexmon_to_canonical nc w.
Proof.
  intros R. rewrite (internal_any_comm nc ortho G commuting Hcomm), (internal_eq nc ortho G).
  destruct (canon_correct nc nc_sym w) as (r & E & C & _). rewrite E. cbn. f_equal.
  destruct (reduced_ce _ _ C R) as [R0 R1]. unfold post.
  assert (lexmon_is_zero ortho r = false) as ->.
  { destruct (lexmon_is_zero ortho r) eqn:Z; [|reflexivity]. apply (is_zero_iff nc ortho G) in Z as [->|(u & a & b & v & -> & O)].
    - exfalso. apply R0. now left.
    - destruct (R1 u a b v (ce_refl _ _)). congruence. }
  apply no_adj_squeeze. destruct (not_no_adj r) as [N|N]; [exact N|]. destruct (adjacentP_eq_split r N) as (u & a & b & v & Er & Eab).
  exfalso. destruct (R1 u a b v); [rewrite Er; apply ce_refl|contradiction].
Qed.
Lemma reduced_gf g w : In g syms -> reduced nc ortho w -> reduced nc ortho (map (gf g) w).
Proof.
  intros Hg [R0 R1]. destruct (inverse nc ortho L syms [] OS g Hg) as (h & Hh & Ih). split.
  - intros H. apply in_map_iff in H as (x & E & Hx). destruct (Nat.eq_dec x 0) as [->|N]; [contradiction|].
    now apply (gf_nonzero nc ortho L syms [] OS g x Hg N).
  - intros u a b v E. apply (ce_gf nc ortho L syms [] OS h) in E; [|exact Hh]. rewrite Ih, !map_app in E. cbn [map] in E.
    apply R1 in E. destruct E as [E1 E2]. split; [congruence|]. rewrite (gf_ortho nc ortho L syms [] G OS) in E2 by exact Hh. exact E2.
Qed.
Lemma reduced_rev w : reduced nc ortho w -> reduced nc ortho (rev w).
Proof.
  intros [R0 R1]. split; [intros H; apply R0, in_rev, H|]. intros u a b v E. apply (ce_rev nc) in E; try exact nc_sym. rewrite rev_involutive, rev_app_distr in E. cbn in E.
  rewrite <- !app_assoc in E. cbn in E. apply R1 in E. destruct E as [E1 E2]. split; [congruence|]. now rewrite (gt_ortho_sym _ _ G).
Qed.
Lemma ranged_gf g w : In g syms -> in_range L w -> in_range L (map (gf g) w).
Proof.
  intros Hg H x Hx. apply in_map_iff in Hx as (y & <- & Hy). destruct (gf_in nc ortho L syms [] OS g y Hg (H _ Hy)) as [-> Q]. exact Q.
Qed.
Lemma ranged_ce u v : u ~ v -> in_range L u -> in_range L v.
Proof. intros E H x Hx. apply H. eapply Permutation_in; [apply Permutation_sym, (ce_perm nc), E|exact Hx]. Qed.

(** the representative depends only on the orbit *)
Lemma rep_orbit g w w' r : In g syms -> in_range L w -> apply_lexsym g w ~ w' -> rep w r -> rep w' r.
Proof.
  intros Hg Hw E [(h & Hh & Eh) H]. 
  assert (AG : forall g w, In g syms -> in_range L w -> apply_lexsym g w = map (gf g) w) by (intros; apply (apply_gf nc ortho L syms [] OS); assumption).
  rewrite (AG _ _ Hg Hw) in E. rewrite (AG _ _ Hh Hw) in Eh.
  assert (Hw' : in_range L w') by (eapply ranged_ce; [exact E|]; apply ranged_gf; assumption).
  destruct (inverse nc ortho L syms [] OS g Hg) as (k & Hk & Ik).
  assert (Ek : map (gf k) w' ~ w).
  { apply ce_sym. rewrite <- (Ik w). apply (ce_gf nc ortho L syms [] OS); assumption. }
  split.
  - exists (compose h k). split; [apply (os_comp _ _ _ _ OS); assumption|]. rewrite AG; [|apply (os_comp _ _ _ _ OS); assumption|exact Hw'].
    eapply ce_trans; [|exact Eh]. rewrite (map_ext _ (fun x => gf h (gf k x))) by (intros; apply (gf_comp nc ortho L syms [] OS); assumption). rewrite <- map_map.
    apply (ce_gf nc ortho L syms [] OS); assumption.
  - intros g' r' Hg' E'. rewrite (AG _ _ Hg' Hw') in E'. apply (H (compose g' g)); [apply (os_comp _ _ _ _ OS); assumption|].
    rewrite AG; [|apply (os_comp _ _ _ _ OS); assumption|exact Hw]. eapply ce_trans; [|exact E'].
    rewrite (map_ext _ (fun x => gf g' (gf g x))) by (intros; apply (gf_comp nc ortho L syms [] OS); assumption). rewrite <- map_map. apply (ce_gf nc ortho L syms [] OS); assumption.
Qed.
Lemma id_in' : In (seq 0 L) syms.
Proof. eapply id_in; eauto. Qed.
Lemma apply_id w : in_range L w -> apply_lexsym (seq 0 L) w = w.
Proof.
  intros H. unfold apply_lexsym. rewrite <- (map_id w) at 2. apply map_ext_in. intros x Hx. rewrite seq_nth; [reflexivity|now apply H].
Qed.
Lemma rep_ce w w' r : in_range L w -> w ~ w' -> rep w r -> rep w' r.
Proof. intros Hw E. apply (rep_orbit (seq 0 L)); [apply id_in'|exact Hw|]. now rewrite apply_id. Qed.
Lemma rep_unique w r r' : rep w r -> rep w r' -> r = r'.
Proof. intros [(g & Hg & Eg) H] [(h & Hh & Eh) H']. apply lex_antisym; eauto. Qed.
Lemma rep_iff w w' r r' : in_range L w -> in_range L w' -> rep w r -> rep w' r' ->
  (r = r' <-> exists g, In g syms /\ apply_lexsym g w ~ w').
Proof.
  intros Hw Hw' R R'. split.
  - intros <-. destruct R as [(g & Hg & Eg) _], R' as [(h & Hh & Eh) _].
    assert (AG : forall g w, In g syms -> in_range L w -> apply_lexsym g w = map (gf g) w) by (intros; apply (apply_gf nc ortho L syms [] OS); assumption).
    rewrite AG in Eg, Eh by assumption.
    destruct (inverse nc ortho L syms [] OS h Hh) as (k & Hk & Ik). exists (compose k g).
    assert (Hc : In (compose k g) syms) by (apply (os_comp _ _ _ _ OS); assumption). split; [exact Hc|]. rewrite AG by assumption.
    rewrite (map_ext _ (fun x => gf k (gf g x))) by (intros; apply (gf_comp nc ortho L syms [] OS); assumption). rewrite <- map_map. rewrite <- (Ik w').
    apply (ce_gf nc ortho L syms [] OS); [exact Hk|]. eapply ce_trans; [exact Eg|apply ce_sym, Eh].
  - intros (g & Hg & E). eapply rep_unique; [|exact R']. apply (rep_orbit g w); assumption.
Qed.

(** ** the invariant of the caches *)
Definition triv1 (w : word) : Prop := w = [] \/ w = [0].
Record inv (m : memo) : Prop := {
  i_canon : forall k v, cfind (m_canon m) k = Some v -> Fn k = Some v;
  i_sym : forall k v, cfind (m_sym m) k = Some v -> triv1 k \/ (reduced nc ortho k /\ in_range L k /\ rep k v)
}.
Lemma triv1_trivial w : triv1 w -> trivial w = true.
Proof. intros [-> | ->]; reflexivity. Qed.
Lemma trivial_len w : trivial w = true -> length w <= 1 -> triv1 w.
Proof.
  destruct w as [|a [|b w]]; cbn [trivial length]; [now left| |lia]. unfold trivial. cbn. rewrite andb_true_r. intros E _. destruct a; [now right|discriminate].
Qed.
Lemma reduced_trivial w : reduced nc ortho w -> trivial w = true -> w = [].
Proof.
  intros [R0 _]. unfold trivial. destruct w as [|a w]; [reflexivity|]. cbn. intros H. apply andb_true_iff in H as [H _]. destruct a; [|discriminate]. exfalso. apply R0. now left.
Qed.
Lemma Fn_total w : exists r, Fn w = Some r /\ Fn r = Some r.
Proof.
  assert (E : forall w, Fn w = F nc ortho w) by (intros; apply (internal_any_comm nc ortho G commuting Hcomm)).
  destruct (F_sound nc ortho G w) as (r & Er & _). exists r. rewrite !E. split; [exact Er|]. eapply F_idempotent; eauto.
Qed.
Lemma cfind_cons k v c k' : cfind ((k, v) :: c) k' = if word_eqb k k' then Some v else cfind c k'.
Proof. reflexivity. Qed.

Lemma memo_canonical_ok only w m : inv m -> good_call nc ortho L (Canon only w) ->
  exists r m', memo_canonical nc ortho commuting only w m = Some (r, m') /\ inv m' /\ m_sym m' = m_sym m /\
    Fn w = Some r /\ to_canonical_1d_internal nc ortho commuting only w = Some r.
Proof.
  intros I GC.
  assert (ON : to_canonical_1d_internal nc ortho commuting only w = Fn w).
  { destruct only; [|reflexivity]. destruct GC as [->|[->|[R _]]]; [reflexivity..|]. rewrite reduced_canon by exact R. apply (only_comm nc ortho commuting [] G Hcomm). }
  rewrite ON. unfold memo_canonical. destruct (cfind (m_canon m) w) as [r|] eqn:E.
  - exists r, m. pose proof (i_canon m I _ _ E). auto.
  - destruct (trivial w) eqn:T.
    + assert (T1 : triv1 w).
      { destruct only; cbn in GC; [|apply trivial_len; auto]. destruct GC as [->|[->|[R _]]]; [now left|now right|left; now apply reduced_trivial]. }
      exists w. eexists. split; [reflexivity|]. assert (FW : Fn w = Some w) by (destruct T1 as [-> | ->]; reflexivity).
      split; [|split; [reflexivity|auto]]. split; cbn [m_canon m_sym]; [|apply I]. intros k v. rewrite cfind_cons.
      destruct (word_eqb w k) eqn:Q; [|apply I]. apply word_eqb_true in Q. subst k. intros [= <-]. exact FW.
    + rewrite ON. destruct (Fn_total w) as (r & Er & Err). rewrite Er. exists r. eexists. split; [reflexivity|].
      split; [|split; [reflexivity|auto]]. split; cbn [m_canon m_sym]; [|apply I]. intros k v. rewrite !cfind_cons.
      destruct (word_eqb r k) eqn:Q; [apply word_eqb_true in Q; subst k; intros [= <-]; exact Err|].
      destruct (word_eqb w k) eqn:Q'; [apply word_eqb_true in Q'; subst k; intros [= <-]; exact Er|apply I].
Qed.
Lemma memo_all_ok l : forall m, inv m -> (forall w, In w l -> reduced nc ortho w /\ in_range L w) ->
  exists rs m', memo_all nc ortho commuting l m = Some (rs, m') /\ inv m' /\ m_sym m' = m_sym m /\
    length rs = length l /\ (forall r, In r rs <-> exists w, In w l /\ nb_lexmon_to_canonical nc w = Some r).
Proof.
  induction l as [|w l IH]; intros m I H.
  - exists [], m. split; [reflexivity|]. split; [exact I|]. split; [reflexivity|]. split; [reflexivity|]. intros r. split; [intros []|intros (? & [] & _)].
  - cbn [memo_all]. destruct (memo_canonical_ok true w m I) as (r & m1 & E & I1 & S1 & F1 & _); [cbn; auto using in_eq|]. rewrite E.
    destruct (IH m1 I1) as (rs & m2 & E2 & I2 & S2 & L2 & R2); [auto using in_cons|]. rewrite E2. exists (r :: rs), m2.
    split; [reflexivity|]. split; [exact I2|]. split; [congruence|]. split; [cbn; lia|].
    assert (RW := proj1 (H w (or_introl eq_refl))). rewrite (reduced_canon w RW) in F1.
    intros x. split.
    + intros [<-|Hx]; [exists w; split; [now left|exact F1]|]. apply R2 in Hx as (w' & Hw' & E'). exists w'. split; [now right|exact E'].
    + intros (w' & [<-|Hw'] & E'); [left; congruence|right; apply R2; eauto].
Qed.
Lemma cfind_fold r l : forall c k, cfind (fold_left (fun c k => (k, r) :: c) l c) k = if existsb (fun x => word_eqb x k) l then Some r else cfind c k.
Proof.
  induction l as [|x l IH]; intros c k; [reflexivity|]. cbn [fold_left existsb]. rewrite IH, cfind_cons.
  destruct (word_eqb x k), (existsb (fun x => word_eqb x k) l); reflexivity.
Qed.
Lemma orbit_and_rep_ok w m : inv m -> reduced nc ortho w -> in_range L w ->
  exists outs r m', orbit_and_rep nc ortho commuting syms w m = Some (outs, r, m') /\ inv m' /\ m_sym m' = m_sym m /\ rep w r /\
   (forall o, In o outs -> exists g, In g syms /\ apply_lexsym g w ~ o).
Proof.
  intros I R Hw. unfold orbit_and_rep.
  assert (V : forall v, In v (np_unique lex_compare (map (fun g => apply_lexsym g w) syms)) <-> exists g, In g syms /\ v = apply_lexsym g w).
  { intros v. rewrite (np_unique_in _ lex_good_cmp), in_map_iff. split; intros (g & H1 & H2); exists g; auto. }
  assert (AG : forall g, In g syms -> apply_lexsym g w = map (gf g) w) by (intros; apply (apply_gf nc ortho L syms [] OS); assumption).
  destruct (memo_all_ok (np_unique lex_compare (map (fun g => apply_lexsym g w) syms)) m I) as (outs & m' & E & I' & S' & LL & O).
  { intros v Hv. apply V in Hv as (g & Hg & ->). rewrite AG by exact Hg. split; [apply reduced_gf|apply ranged_gf]; assumption. }
  rewrite E. assert (NE : outs <> []).
  { intros ->. cbn in LL. symmetry in LL. apply length_zero_iff_nil in LL. assert (H : In (apply_lexsym (seq 0 L) w) []) by (rewrite <- LL; apply V; eexists; split; [apply id_in'|reflexivity]). destruct H. }
  destruct (pymin_spec outs NE) as (r & Er & Hr & Hmin). rewrite Er. exists outs, r, m'. split; [reflexivity|]. split; [exact I'|]. split; [exact S'|].
  assert (OG : forall o, In o outs -> exists g, In g syms /\ apply_lexsym g w ~ o).
  { intros o Ho. apply O in Ho as (v & Hv & Ev). apply V in Hv as (g & Hg & ->). exists g. split; [exact Hg|]. eapply canon_least; eauto. }
  split; [|exact OG]. split; [now apply OG|]. intros g r' Hg Eg.
  destruct (canon_correct nc nc_sym (apply_lexsym g w)) as (c & Ec & Cc & Lc).
  eapply lex_trans; [apply Hmin, O; exists (apply_lexsym g w); split; [apply V; eauto|exact Ec]|]. apply Lc. eapply ce_trans; [apply ce_sym, Eg|exact Cc].
Qed.

Lemma memo_repr_ok only w m : inv m -> good_call nc ortho L (Repr only w) ->
  exists r m', memo_repr nc ortho commuting syms only w m = Some (r, m') /\ inv m' /\ right_answer nc ortho commuting syms (Repr only w) r.
Proof.
  intros I GC. unfold memo_repr, right_answer. destruct (trivial w) eqn:T.
  - exists w. eexists. split; [reflexivity|]. split; [|reflexivity]. split; cbn [m_canon m_sym]; [apply I|]. intros k v. rewrite cfind_cons.
    destruct (word_eqb w k) eqn:Q; [|apply I]. apply word_eqb_true in Q. subst k. intros _. left. cbn in GC.
    destruct GC as [->|[->|[R _]]]; [now left|now right|left; now apply reduced_trivial].
  - cbn in GC. destruct GC as [->|[->|[R Hw]]]; [discriminate..|].
    destruct (cfind (m_sym m) w) as [r|] eqn:E.
    + exists r, m. split; [reflexivity|]. split; [exact I|]. destruct (i_sym m I _ _ E) as [Q|(_ & _ & Q)]; [apply triv1_trivial in Q; congruence|exact Q].
    + destruct (memo_canonical_ok only w m I) as (c & m1 & E1 & I1 & S1 & F1 & _).
      { destruct only; cbn; [auto|]. rewrite T. discriminate. }
      rewrite E1. rewrite (reduced_canon w R) in F1. destruct (canon_least nc w c w nc_sym F1) as [Ec _].
      destruct (cfind (m_sym m1) c) as [r|] eqn:E2.
      * assert (Rr : rep w r).
        { destruct (i_sym m1 I1 _ _ E2) as [Q|(_ & Hc & Q)]; [|eapply rep_ce; [exact Hc|apply ce_sym, Ec|exact Q]].
          exfalso. destruct Q as [-> | ->].
          - apply ce_length in Ec. destruct w; [discriminate T|discriminate].
          - apply (proj1 (reduced_ce _ _ Ec R)). now left. }
        exists r. eexists. split; [reflexivity|]. split; [|exact Rr]. split; cbn [m_canon m_sym]; [apply I1|]. intros k v. rewrite cfind_cons.
        destruct (word_eqb w k) eqn:Q; [|apply I1]. apply word_eqb_true in Q. subst k. intros [= <-]. right. auto.
      * destruct (orbit_and_rep_ok w m1 I1 R Hw) as (outs & r & m2 & E3 & I3 & S3 & Rr & OG). rewrite E3. exists r. eexists. split; [reflexivity|]. split; [|exact Rr].
        split; cbn [m_canon m_sym]; [apply I3|]. intros k v. rewrite cfind_fold. destruct (existsb (fun x => word_eqb x k) (outs ++ [w])) eqn:Q; [|apply I3].
        intros [= <-]. right. apply existsb_exists in Q as (x & Hx & Q). apply word_eqb_true in Q. subst x. apply in_app_iff in Hx as [Hx|[<-|[]]]; [|auto].
        destruct (OG k Hx) as (g & Hg & Eg). assert (Eg' := Eg). rewrite (apply_gf nc ortho L syms [] OS g w Hg Hw) in Eg'.
        split; [eapply reduced_ce; [exact Eg'|]; now apply reduced_gf|]. split; [eapply ranged_ce; [exact Eg'|]; now apply ranged_gf|]. apply (rep_orbit g w); assumption.
Qed.
Lemma sub_any_spec w : sub_any nc w = true <-> exists a b, In a w /\ In b w /\ nc a b = true.
Proof.
  unfold sub_any. rewrite existsb_exists. split.
  - intros (a & Ha & H). apply existsb_exists in H as (b & Hb & H). eauto.
  - intros (a & b & Ha & Hb & H). exists a. split; [exact Ha|]. apply existsb_exists. eauto.
Qed.
Lemma memo_conj_ok w m : inv m -> good_call nc ortho L (Conj w) ->
  exists r m', memo_conj nc ortho commuting syms w m = Some (r, m') /\ inv m' /\ right_answer nc ortho commuting syms (Conj w) r.
Proof.
  intros I GC. unfold memo_conj. destruct (sub_any nc w) eqn:E; cbn [negb].
  - assert (GC' : good_call nc ortho L (Repr true (rev w))).
    { cbn in *. destruct GC as [->|[->|[R Hw]]]; [now left|right; now left|]. right; right. split; [now apply reduced_rev|]. intros x Hx. apply Hw, in_rev, Hx. }
    destruct (memo_repr_ok true (rev w) m I GC') as (r & m' & E1 & I1 & A). exists r, m'. split; [exact E1|]. split; [exact I1|]. right. split; [now apply sub_any_spec|].
    cbn in A. destruct (trivial (rev w)) eqn:T; [|exact A]. exfalso. apply sub_any_spec in E as (a & b & Ha & Hb & Q).
    destruct GC as [->|[->|[R _]]]; [destruct Ha| |].
    + destruct Ha as [<-|[]]. rewrite (gt_nc_zero _ _ G) in Q. discriminate.
    + apply reduced_rev, reduced_trivial in R; [|exact T]. apply (in_rev w a) in Ha. rewrite R in Ha. destruct Ha.
  - exists w, m. split; [reflexivity|]. split; [exact I|]. left. split; [|reflexivity]. intros a b Ha Hb. destruct (nc a b) eqn:Q; [|reflexivity].
    assert (sub_any nc w = true) by (apply sub_any_spec; eauto). congruence.
Qed.

Theorem run_ok h : forall m, inv m -> Forall (good_call nc ortho L) h ->
  exists rs m', run nc ortho commuting syms h m = Some (rs, m') /\ inv m' /\ Forall2 (right_answer nc ortho commuting syms) h rs.
Proof.
  induction h as [|c h IH]; intros m I H; [exists [], m; cbn; auto|]. inversion H as [|? ? Hc Hh]; subst.
  assert (S1 : exists r m', do_call nc ortho commuting syms c m = Some (r, m') /\ inv m' /\ right_answer nc ortho commuting syms c r).
  { destruct c as [only w|only w|w]; cbn [do_call].
    - destruct (memo_canonical_ok only w m I Hc) as (r & m' & E & I' & _ & _ & A). eauto.
    - now apply memo_repr_ok.
    - now apply memo_conj_ok. }
  destruct S1 as (r & m1 & E & I1 & A). cbn [run]. rewrite E. destruct (IH m1 I1 Hh) as (rs & m2 & E2 & I2 & F2). rewrite E2. exists (r :: rs), m2. auto.
Qed.
Lemma inv_empty : inv memo_empty.
Proof. split; intros k v H; discriminate H. Qed.

(** a non-zero canonical word is reduced *)
Lemma canonical_reduced w r : Fn w = Some r -> r <> [0] -> reduced nc ortho r.
Proof.
  rewrite (internal_any_comm nc ortho G commuting Hcomm). intros E N. change (F nc ortho w = Some r) in E. 
  pose proof (F_idempotent nc ortho G w r E) as Er. destruct (F_shape nc ortho G w r E) as [Q|((A1 & A2 & A3 & A4) & _ & _)]; [contradiction|].
  split; [exact A4|]. intros u a b v C. assert (FC := F_comm nc ortho G _ _ C). rewrite Er in FC. split.
  - intros ->. rewrite (F_idem nc ortho G) in FC. symmetry in FC. destruct (F_shape nc ortho G _ _ FC) as [Q|(_ & _ & Q)]; [contradiction|].
    apply ce_length in C. rewrite C, !app_length in Q. cbn in Q. lia.
  - destruct (ortho a b) eqn:O; [|reflexivity]. rewrite (F_ortho nc ortho G) in FC by exact O. congruence.
Qed.
End M.
