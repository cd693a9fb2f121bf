From Coq Require Import Permutation.
From Verif Require Import CanonModel CanonSpec CanonProofs CanonProofs2 MomentModel MomentSpec.

Lemma tuple_ltb_irrefl a : tuple_ltb a a = false.
Proof. induction a as [|x a IH]; cbn; [reflexivity|]. rewrite Nat.eqb_refl; exact IH. Qed.

Lemma tuple_ltb_asym a b : tuple_ltb a b = true -> tuple_ltb b a = false.
Proof.
  revert b; induction a as [|x a IH]; intros [|y b]; cbn [tuple_ltb]; try discriminate; [reflexivity|].
  destruct (Nat.eqb_spec x y) as [->|H].
  - rewrite Nat.eqb_refl. apply IH.
  - rewrite Nat.ltb_lt. intros Hlt. destruct (Nat.eqb_spec y x); [congruence|].
    apply Nat.ltb_ge; lia.
Qed.

Lemma tuple_ltb_total a b : tuple_ltb a b = false -> tuple_ltb b a = false -> a = b.
Proof.
  revert b; induction a as [|x a IH]; intros [|y b]; cbn [tuple_ltb]; try discriminate; [reflexivity|].
  destruct (Nat.eqb_spec x y) as [->|H].
  - rewrite Nat.eqb_refl. intros; f_equal; auto.
  - destruct (Nat.eqb_spec y x); [congruence|]. rewrite !Nat.ltb_ge. lia.
Qed.

Lemma tuple_min_comm a b : tuple_min a b = tuple_min b a.
Proof.
  unfold tuple_min. destruct (tuple_ltb b a) eqn:E1, (tuple_ltb a b) eqn:E2; try reflexivity.
  - apply tuple_ltb_asym in E1. congruence.
  - apply tuple_ltb_total; assumption.
Qed.
Lemma tuple_min_cases a b : tuple_min a b = a \/ tuple_min a b = b.
Proof. unfold tuple_min; destruct (tuple_ltb b a); auto. Qed.

Lemma word_eqb_spec a b : reflect (a = b) (word_eqb a b).
Proof. unfold word_eqb; destruct (list_eq_dec Nat.eq_dec a b); constructor; assumption. Qed.

Lemma dict_get_in d k v : dict_get d k = Some v -> In (k, v) d.
Proof.
  induction d as [|[k' v'] d IH]; cbn; [discriminate|].
  destruct (word_eqb_spec k' k) as [->|_]; [intros [= ->]; auto|auto].
Qed.
Lemma dict_get_none d k : dict_get d k = None -> ~ In k (map fst d).
Proof.
  induction d as [|[k' v'] d IH]; cbn; [auto|].
  destruct (word_eqb_spec k' k) as [->|Hne]; [discriminate|]. intros H [E|E]; [auto|apply IH; auto].
Qed.

Section Fold.
(** abstract first-seen numbering over a list of positions *)
Variable nc ortho : table.
Variable commuting : bool.
Variable key : word -> word -> option word.
Hypothesis key_ok : forall a b, mon_hash nc ortho commuting a b = Some (key a b).

Definition inv (done : list ((nat * word) * (nat * word))) (st : mm_state) : Prop :=
  NoDup (map fst (mm_dict st)) /\
  map snd (mm_dict st) = seq 1 (length (mm_dict st)) /\
  mm_varidx st = S (length (mm_dict st)) /\
  (forall i a j b, In ((i, a), (j, b)) done ->
     mm_mat st i j = mm_mat st j i /\
     match key a b with
     | None => mm_mat st i j = 0
     | Some k => In (k, mm_mat st i j) (mm_dict st)
     end) /\
  (forall k v, In (k, v) (mm_dict st) ->
     exists i a j b, In ((i, a), (j, b)) done /\ key a b = Some k /\ mm_mat st i j = v) /\
  (forall i j, (forall a b, ~ In ((i, a), (j, b)) done) -> (forall a b, ~ In ((j, a), (i, b)) done) ->
     mm_mat st i j = 0).

Definition positions (l : list ((nat * word) * (nat * word))) : list (nat * nat) :=
  map (fun p => (fst (fst p), fst (snd p))) l.

Lemma mat_set_same m i j v : mat_set m i j v i j = v.
Proof. unfold mat_set. rewrite !Nat.eqb_refl. reflexivity. Qed.
Lemma mat_set_other m i j v i' j' : (i', j') <> (i, j) -> mat_set m i j v i' j' = m i' j'.
Proof.
  intros H. unfold mat_set. destruct (Nat.eqb_spec i' i) as [->|]; [|reflexivity].
  destruct (Nat.eqb_spec j' j) as [->|]; [congruence|reflexivity].
Qed.
Lemma mat_set2_ij m i j v : mat_set (mat_set m i j v) j i v i j = v.
Proof.
  unfold mat_set. rewrite !Nat.eqb_refl. cbn. destruct ((i =? j) && (j =? i)); reflexivity.
Qed.

Lemma seq_snoc a n : seq a (S n) = seq a n ++ [a + n].
Proof. replace (S n) with (n + 1) by lia. rewrite seq_app. reflexivity. Qed.

Lemma step_inv done st p :
  inv done st ->
  fst (fst p) <= fst (snd p) ->
  (forall q, In q done -> fst (fst q) <= fst (snd q)) ->
  ~ In (fst (fst p), fst (snd p)) (positions done) ->
  exists st', mm_step nc ortho commuting (Some st) p = Some st' /\ inv (done ++ [p]) st'.
Proof.
  destruct p as [[i a] [j b]]. cbn [fst snd]. intros (I1 & I2 & I3 & I4 & I5 & I6) Hij Hdone Hfresh.
  assert (Hother : forall i' a' j' b', In ((i', a'), (j', b')) done ->
            (i', j') <> (i, j) /\ (i', j') <> (j, i) /\ (j', i') <> (i, j) /\ (j', i') <> (j, i)).
  { intros i' a' j' b' Hin. pose proof (Hdone _ Hin) as Hle. cbn in Hle.
    assert (Hne : (i', j') <> (i, j)).
    { intros E. apply Hfresh. apply in_map_iff. exists ((i', a'), (j', b')). cbn. auto. }
    repeat split; intros E; injection E as -> ->; apply Hne; f_equal; lia. }
  unfold mm_step. rewrite key_ok. destruct (key a b) as [h|] eqn:Hk.
  - destruct (dict_get (mm_dict st) h) as [v|] eqn:Hg.
    + eexists; split; [reflexivity|]. unfold inv; cbn.
      split; [exact I1|]. split; [exact I2|]. split; [exact I3|]. split; [|split].
      * intros i' a' j' b' Hin. apply in_app_or in Hin as [Hin|[Heq|[]]].
        -- destruct (Hother _ _ _ _ Hin) as (N1 & N2 & N3 & N4).
           rewrite !mat_set_other by assumption. apply (I4 _ _ _ _ Hin).
        -- injection Heq as <- <- <- <-. rewrite Hk, mat_set2_ij, mat_set_same.
           split; [reflexivity|]. apply dict_get_in; exact Hg.
      * intros k v' Hin. destruct (I5 k v' Hin) as (i' & a' & j' & b' & Hd & Hk' & Hm).
        exists i', a', j', b'. destruct (Hother _ _ _ _ Hd) as (N1 & N2 & N3 & N4).
        rewrite !mat_set_other by assumption. split; [apply in_or_app; auto|auto].
      * intros i' j' H1 H2. rewrite !mat_set_other.
        -- apply I6; intros x y Hin; [apply (H1 x y)|apply (H2 x y)]; apply in_or_app; auto.
        -- intros [= -> ->]. apply (H1 a b), in_or_app; right; left; reflexivity.
        -- intros [= -> ->]. apply (H2 a b), in_or_app; right; left; reflexivity.
    + eexists; split; [reflexivity|]. unfold inv; cbn.
      split. { rewrite map_app. cbn. 
        apply (Permutation_NoDup (l := h :: map fst (mm_dict st))).
        - apply Permutation_cons_append.
        - constructor; [apply dict_get_none; exact Hg|exact I1]. }
      split. { rewrite map_app, app_length, I2. cbn. rewrite I3, Nat.add_1_r. rewrite seq_snoc. reflexivity. }
      split. { rewrite app_length. cbn. lia. }
      split; [|split].
      * intros i' a' j' b' Hin. apply in_app_or in Hin as [Hin|[Heq|[]]].
        -- destruct (Hother _ _ _ _ Hin) as (N1 & N2 & N3 & N4).
           rewrite !mat_set_other by assumption. destruct (I4 _ _ _ _ Hin) as [E1 E2].
           split; [exact E1|]. destruct (key a' b'); [apply in_or_app; auto|exact E2].
        -- injection Heq as <- <- <- <-. rewrite Hk, mat_set2_ij, mat_set_same.
           split; [reflexivity|]. apply in_or_app; right; left; reflexivity.
      * intros k v' Hin. apply in_app_or in Hin as [Hin|[Heq|[]]].
        -- destruct (I5 k v' Hin) as (i' & a' & j' & b' & Hd & Hk' & Hm).
           exists i', a', j', b'. destruct (Hother _ _ _ _ Hd) as (N1 & N2 & N3 & N4).
           rewrite !mat_set_other by assumption. split; [apply in_or_app; auto|auto].
        -- injection Heq as <- <-. exists i, a, j, b. rewrite mat_set2_ij.
           split; [apply in_or_app; right; left; reflexivity|auto].
      * intros i' j' H1 H2. rewrite !mat_set_other.
        -- apply I6; intros x y Hin; [apply (H1 x y)|apply (H2 x y)]; apply in_or_app; auto.
        -- intros [= -> ->]. apply (H1 a b), in_or_app; right; left; reflexivity.
        -- intros [= -> ->]. apply (H2 a b), in_or_app; right; left; reflexivity.
  - eexists; split; [reflexivity|]. unfold inv.
    split; [exact I1|]. split; [exact I2|]. split; [exact I3|]. split; [|split].
    + intros i' a' j' b' Hin. apply in_app_or in Hin as [Hin|[Heq|[]]].
      * apply (I4 _ _ _ _ Hin).
      * injection Heq as <- <- <- <-. rewrite Hk.
        assert (Z1 : forall x y, ~ In ((i, x), (j, y)) done).
        { intros x y Hin. apply Hfresh. apply in_map_iff. exists ((i, x), (j, y)). auto. }
        assert (Z2 : forall x y, ~ In ((j, x), (i, y)) done).
        { intros x y Hin. destruct (Hother _ _ _ _ Hin) as (N1 & N2 & N3 & N4). congruence. }
        rewrite (I6 i j Z1 Z2), (I6 j i Z2 Z1). auto.
    + intros k v' Hin. destruct (I5 k v' Hin) as (i' & a' & j' & b' & Hd & Hk' & Hm).
      exists i', a', j', b'. split; [apply in_or_app; auto|auto].
    + intros i' j' H1 H2. apply I6; intros x y Hin; [apply (H1 x y)|apply (H2 x y)]; apply in_or_app; auto.
Qed.

Lemma fold_inv l : forall done st,
  inv done st ->
  (forall q, In q (done ++ l) -> fst (fst q) <= fst (snd q)) ->
  NoDup (positions (done ++ l)) ->
  exists st', fold_left (mm_step nc ortho commuting) l (Some st) = Some st' /\ inv (done ++ l) st'.
Proof.
  induction l as [|p l IH]; intros done st Hinv Hle Hnd.
  - exists st. rewrite app_nil_r. auto.
  - destruct (step_inv done st p) as (st' & E & Hinv'); auto.
    + apply Hle, in_or_app; right; left; reflexivity.
    + intros q Hq; apply Hle, in_or_app; auto.
    + unfold positions in *. rewrite map_app in Hnd. cbn in Hnd.
      apply NoDup_remove_2 in Hnd. intros H; apply Hnd, in_or_app; auto.
    + cbn [fold_left]. rewrite E. destruct (IH (done ++ [p]) st' Hinv') as (st'' & E' & Hi).
      * rewrite <- app_assoc; exact Hle.
      * rewrite <- app_assoc; exact Hnd.
      * exists st''. rewrite <- app_assoc in Hi. auto.
Qed.

Lemma enum_in {A} (l : list A) : forall s i x, In (i, x) (enumerate_from s l) <->
  s <= i /\ nth_error l (i - s) = Some x.
Proof.
  induction l as [|y l IH]; intros s i x; cbn.
  - split; [intros []|]. intros [_ H]. destruct (i - s); discriminate.
  - split.
    + intros [[= <- <-]|H]; [rewrite Nat.sub_diag; auto|].
      apply IH in H as [H1 H2]. split; [lia|]. replace (i - s) with (S (i - S s)) by lia. exact H2.
    + intros [H1 H2]. destruct (Nat.eq_dec i s) as [->|Hne].
      * rewrite Nat.sub_diag in H2. injection H2 as ->. auto.
      * right. apply IH. split; [lia|]. replace (i - s) with (S (i - S s)) in H2 by lia. exact H2.
Qed.

Lemma cwr_in {A} (cols : list A) : forall s i a j b,
  In ((i, a), (j, b)) (combinations_wr (enumerate_from s cols)) <->
  i <= j /\ In (i, a) (enumerate_from s cols) /\ In (j, b) (enumerate_from s cols).
Proof.
  induction cols as [|c cols IH]; intros s i a j b; cbn [enumerate_from combinations_wr].
  - cbn; tauto.
  - rewrite in_app_iff, in_map_iff, IH. split.
    + intros [((j' & b') & [= <- <- <- <-] & Hin)|(H1 & H2 & H3)].
      * split; [|split; [left; reflexivity|exact Hin]]. destruct Hin as [[= <- <-]|Hin]; [lia|].
        apply enum_in in Hin. lia.
      * split; [exact H1|]. split; right; assumption.
    + intros (H1 & [[= <- <-]|H2] & H3).
      * left. exists (j, b). auto.
      * right. split; [exact H1|]. split; [exact H2|].
        destruct H3 as [[= <- <-]|H3]; [|exact H3]. apply enum_in in H2. lia.
Qed.

Lemma NoDup_app_intro {A} (l1 l2 : list A) : NoDup l1 -> NoDup l2 ->
  (forall x, In x l1 -> ~ In x l2) -> NoDup (l1 ++ l2).
Proof.
  intros H1 H2 H. induction H1 as [|x l1 Hx H1 IH]; cbn; [exact H2|].
  constructor.
  - rewrite in_app_iff. intros [Hi|Hi]; [auto|]. apply (H x); [left; reflexivity|exact Hi].
  - apply IH. intros y Hy; apply H; right; exact Hy.
Qed.

Lemma enum_pos_nodup {A} (l : list A) s : NoDup (map fst (enumerate_from s l)).
Proof.
  revert s; induction l as [|y l IH]; intros s; cbn; constructor; auto.
  intros H. apply in_map_iff in H as ((i & x) & Hi & Hin). cbn in Hi; subst.
  apply enum_in in Hin. lia.
Qed.

Lemma cwr_nodup (cols : list word) s : NoDup (positions (combinations_wr (enumerate_from s cols))).
Proof.
  revert s; induction cols as [|c cols IH]; intros s; cbn [enumerate_from combinations_wr]; [constructor|].
  unfold positions. rewrite map_app. apply NoDup_app_intro.
  - rewrite map_map. cbn [fst snd].
    assert (E : map (fun x : nat * word => (s, fst x)) ((s, c) :: enumerate_from (S s) cols)
              = map (pair s) (map fst (enumerate_from s (c :: cols)))) by (rewrite map_map; reflexivity).
    rewrite E. apply FinFun.Injective_map_NoDup; [intros x y [= ->]; reflexivity|apply enum_pos_nodup].
  - apply IH.
  - intros x H1 H2. apply in_map_iff in H1 as (p & <- & H1). apply in_map_iff in H1 as (q & <- & _).
    apply in_map_iff in H2 as (((i & a) & (j & b)) & E & H2). cbn in E. injection E as -> _.
    apply cwr_in in H2 as (_ & H2 & _). apply enum_in in H2. lia.
Qed.

Lemma mm_run cols : exists M D,
  calculate_momentmatrix nc ortho commuting cols = Some (M, D) /\
  NoDup (map fst D) /\ map snd D = seq 1 (length D) /\
  (forall i j a b, nth_error cols i = Some a -> nth_error cols j = Some b -> i <= j ->
     M i j = M j i /\
     match key a b with None => M i j = 0 | Some k => In (k, M i j) D end) /\
  (forall k v, In (k, v) D -> exists i j a b, i <= j /\ nth_error cols i = Some a /\ nth_error cols j = Some b /\
     key a b = Some k /\ M i j = v).
Proof.
  set (l := combinations_wr (enumerate_from 0 cols)).
  destruct (fold_inv l [] {| mm_mat := mat_zeros; mm_dict := []; mm_varidx := 1 |}) as (st & E & (I1 & I2 & I3 & I4 & I5 & I6)).
  - unfold inv; cbn. repeat split; try constructor; try tauto.
  - intros ((i & a) & (j & b)) Hin. cbn in Hin. apply cwr_in in Hin. cbn; tauto.
  - apply cwr_nodup.
  - exists (mm_mat st), (mm_dict st). unfold calculate_momentmatrix. fold l. rewrite E.
    split; [reflexivity|]. split; [exact I1|]. split; [exact I2|]. cbn [app] in *. split.
    + intros i j a b Ha Hb Hij. apply (I4 i a j b). apply cwr_in. split; [exact Hij|].
      split; apply enum_in; rewrite Nat.sub_0_r; split; auto; lia.
    + intros k v Hin. destruct (I5 k v Hin) as (i & a & j & b & Hd & Hk & Hm).
      apply cwr_in in Hd as (Hij & Ha & Hb). apply enum_in in Ha as [_ Ha]. apply enum_in in Hb as [_ Hb].
      rewrite Nat.sub_0_r in *. exists i, j, a, b. auto.
Qed.
End Fold.

Section MM.
Variable nc ortho : table.
Hypothesis G : good_tables nc ortho.
Variable commuting : bool.
(** the flag is only set when every pair of operators commutes (InflationSDP.py:192-200) *)
Hypothesis Hcomm : commuting = true -> forall a b, nc a b = false.
Let nc_sym : good_comm nc := gt_nc_sym _ _ G.
Notation F := (F nc ortho).
Notation "u == v" := (proj_eq nc ortho u v) (at level 70).

Definition getF (w : word) : word := match F w with Some r => r | None => [] end.
Lemma F_getF w : F w = Some (getF w).
Proof. unfold getF. destruct (F_sound nc ortho G w) as (r & -> & _). reflexivity. Qed.
Lemma getF_eq u v : getF u = getF v <-> u == v.
Proof. rewrite <- (F_complete nc ortho G), !F_getF. split; congruence. Qed.
Lemma getF_pe w : w == getF w.
Proof. destruct (F_sound nc ortho G w) as (r & E & H). rewrite F_getF in E. injection E as <-. exact H. Qed.

Definition keyf (w : word) : option word :=
  if word_eqb (getF w) [0] then None
  else if commuting then Some (getF w) else Some (tuple_min (getF w) (getF (rev w))).

Lemma internal_any_comm b w : to_canonical_1d_internal nc ortho commuting b w
  = to_canonical_1d_internal nc ortho false b w.
Proof. destruct commuting eqn:E; [|reflexivity]. apply (internal_commuting nc ortho G), Hcomm; reflexivity. Qed.

Lemma forallb_nz r : forallb (fun x => negb (x =? 0)) r = true <-> ~ In 0 r.
Proof.
  rewrite forallb_forall. split.
  - intros H Hin. specialize (H 0 Hin). discriminate.
  - intros H x Hx. destruct (Nat.eqb_spec x 0) as [->|]; [contradiction|reflexivity].
Qed.

Lemma getF_rev w : getF (rev (getF w)) = getF (rev w).
Proof. apply getF_eq. apply (pe_rev nc ortho G), pe_sym, getF_pe. Qed.

Lemma mon_hash_key a b : mon_hash nc ortho commuting a b = Some (keyf (dot_mon a b)).
Proof.
  unfold mon_hash. rewrite internal_any_comm. fold (F (dot_mon a b)). rewrite F_getF.
  set (w := dot_mon a b). unfold keyf.
  destruct (F_shape nc ortho G w (getF w) (F_getF w)) as [E|(N & Hi & Hl)].
  - rewrite E. reflexivity.
  - assert (H0 : ~ In 0 (getF w)) by apply N.
    rewrite (proj2 (forallb_nz _) H0).
    assert (Hne : getF w <> [0]) by (intros E; apply H0; rewrite E; left; reflexivity).
    destruct (word_eqb_spec (getF w) [0]) as [?|_]; [contradiction|].
    destruct commuting eqn:Ec; cbn [negb].
    + rewrite andb_false_r. reflexivity.
    + rewrite andb_true_r. destruct (Nat.ltb_spec 1 (length (getF w))) as [Hlen|Hlen].
      * unfold to_canonical_1d_internal.
        rewrite rev_length. destruct (Nat.leb_spec (length (getF w)) 1) as [?|_]; [lia|].
        destruct (canon_correct nc nc_sym (rev (getF w))) as (c & Hc & _).
        rewrite Hc. destruct (conj_nf nc ortho G _ _ N Hc) as [_ Hf].
        assert (c = getF (rev w)) as ->; [|reflexivity].
        rewrite <- getF_rev. rewrite F_getF in Hf. congruence.
      * assert (Er : rev (getF w) = getF w).
        { destruct (getF w) as [|x [|y l]]; [reflexivity|reflexivity|cbn in Hlen; lia]. }
        assert (E2 : getF (rev w) = getF w).
        { rewrite <- getF_rev, Er. apply getF_eq, pe_sym, getF_pe. }
        rewrite E2. unfold tuple_min. rewrite tuple_ltb_irrefl. reflexivity.
Qed.

Lemma keyf_none w : keyf w = None <-> w == [0].
Proof.
  unfold keyf. destruct (word_eqb_spec (getF w) [0]) as [E|E].
  - split; [intros _|reflexivity]. apply (F_zero_iff nc ortho G). rewrite F_getF, E. reflexivity.
  - split; [destruct commuting; discriminate|]. intros H. exfalso. apply E.
    apply (F_zero_iff nc ortho G) in H. rewrite F_getF in H. congruence.
Qed.

Lemma all_comm_rev w : (forall a b, nc a b = false) -> w == rev w.
Proof.
  intros H. apply (ce_pe nc ortho). apply commuting_perm_ce; [apply Permutation_rev|auto].
Qed.

Lemma keyf_eq u v k : keyf u = Some k -> (keyf v = Some k <-> same_moment nc ortho u v).
Proof.
  unfold keyf. destruct (word_eqb_spec (getF u) [0]) as [|Hu]; [discriminate|].
  assert (Hv : same_moment nc ortho u v -> getF v <> [0]).
  { intros Hs E. apply Hu. assert (Ev : v == [0]).
    { apply (F_zero_iff nc ortho G). rewrite F_getF, E; reflexivity. }
    assert (Ez : u == [0]).
    { destruct Hs as [H|H]; eapply pe_trans; try exact H; [exact Ev|].
      apply (pe_rev nc ortho G) in Ev. exact Ev. }
    apply (F_zero_iff nc ortho G) in Ez. rewrite F_getF in Ez. congruence. }
  destruct commuting eqn:Ec.
  - specialize (Hcomm eq_refl). intros [= <-]. split.
    + destruct (word_eqb_spec (getF v) [0]) as [|Hv']; [discriminate|].
      intros [= E]. left. apply getF_eq; auto.
    + intros Hs. destruct (word_eqb_spec (getF v) [0]) as [E|_]; [exfalso; exact (Hv Hs E)|].
      f_equal. apply getF_eq. destruct Hs as [H|H]; [apply pe_sym; exact H|].
      eapply pe_trans; [apply all_comm_rev, Hcomm|]. apply pe_sym; exact H.
  - intros [= <-]. split.
    + destruct (word_eqb_spec (getF v) [0]) as [|Hv']; [discriminate|]. intros [= E].
      destruct (tuple_min_cases (getF u) (getF (rev u))) as [E1|E1],
               (tuple_min_cases (getF v) (getF (rev v))) as [E2|E2];
        rewrite E1, E2 in E; apply getF_eq in E.
      * left; apply pe_sym; exact E.
      * right; apply pe_sym; exact E.
      * right. apply (pe_rev nc ortho G) in E. rewrite rev_involutive in E. apply pe_sym; exact E.
      * left. apply (pe_rev nc ortho G) in E. rewrite !rev_involutive in E. apply pe_sym; exact E.
    + intros Hs. destruct (word_eqb_spec (getF v) [0]) as [E|_]; [exfalso; exact (Hv Hs E)|]. f_equal.
      destruct Hs as [H|H].
      * rewrite (proj2 (getF_eq u v) H), (proj2 (getF_eq (rev u) (rev v)) (pe_rev nc ortho G _ _ H)). reflexivity.
      * pose proof (pe_rev nc ortho G _ _ H) as H'. rewrite rev_involutive in H'.
        rewrite (proj2 (getF_eq _ _) H), (proj2 (getF_eq _ _) H'). apply tuple_min_comm.
Qed.

Lemma keyf_denotes w k : keyf w = Some k -> k == w \/ k == rev w.
Proof.
  unfold keyf. destruct (word_eqb (getF w) [0]); [discriminate|].
  destruct commuting; intros [= <-].
  - left; apply pe_sym, getF_pe.
  - destruct (tuple_min_cases (getF w) (getF (rev w))) as [-> | ->]; [left|right]; apply pe_sym, getF_pe.
Qed.

(** keys are canonical words: non-zero fixpoints of the canonicaliser *)
Lemma keyf_canonical w k : keyf w = Some k -> F k = Some k /\ ~ In 0 k.
Proof.
  unfold keyf. destruct (word_eqb_spec (getF w) [0]) as [|Hne]; [discriminate|].
  assert (H1 : forall x, getF x <> [0] -> F (getF x) = Some (getF x) /\ ~ In 0 (getF x)).
  { intros x Hx. destruct (F_shape nc ortho G x (getF x) (F_getF x)) as [E|(N & _)]; [contradiction|].
    split; [apply (F_fix nc ortho G); exact N|apply N]. }
  destruct commuting; intros [= <-]; [apply H1, Hne|].
  destruct (tuple_min_cases (getF w) (getF (rev w))) as [-> | ->]; apply H1; [exact Hne|].
  intros E. apply Hne. assert (Ez : rev w == [0]) by (apply (F_zero_iff nc ortho G); rewrite F_getF, E; reflexivity).
  apply (pe_rev nc ortho G) in Ez. rewrite rev_involutive in Ez.
  apply (F_zero_iff nc ortho G) in Ez. rewrite F_getF in Ez. congruence.
Qed.

Lemma same_moment_sym u v : same_moment nc ortho u v -> same_moment nc ortho v u.
Proof.
  intros [H|H]; [left; apply pe_sym; exact H|right].
  apply (pe_rev nc ortho G) in H. rewrite rev_involutive in H. apply pe_sym; exact H.
Qed.
Lemma same_moment_rev_r u v : same_moment nc ortho u (rev v) -> same_moment nc ortho u v.
Proof. intros [H|H]; [right; exact H|left; rewrite rev_involutive in H; exact H]. Qed.

Lemma entry_rev cols i j : rev (entry cols i j) = entry cols j i.
Proof. unfold entry. rewrite rev_app_distr, rev_involutive. reflexivity. Qed.

Lemma in_dict_unique (D : dict) k1 k2 v : map snd D = seq 1 (length D) ->
  In (k1, v) D -> In (k2, v) D -> k1 = k2.
Proof.
  intros HD H1 H2. assert (Hnd : NoDup (map snd D)) by (rewrite HD; apply seq_NoDup).
  clear HD. induction D as [|[k w] D IH]; [destruct H1|]. cbn in Hnd. inversion Hnd as [|? ? Hn Hnd']; subst.
  destruct H1 as [[= -> ->]|H1], H2 as [E|H2].
  - congruence.
  - exfalso; apply Hn. apply in_map_iff. exists (k2, v). auto.
  - injection E as -> ->. exfalso; apply Hn. apply in_map_iff. exists (k1, v). auto.
  - apply IH; auto.
Qed.
Lemma in_dict_fun (D : dict) k v1 v2 : NoDup (map fst D) ->
  In (k, v1) D -> In (k, v2) D -> v1 = v2.
Proof.
  intros Hnd H1 H2. induction D as [|[k' w] D IH]; [destruct H1|]. cbn in Hnd. inversion Hnd as [|? ? Hn Hnd']; subst.
  destruct H1 as [[= -> ->]|H1], H2 as [E|H2].
  - congruence.
  - exfalso; apply Hn. apply in_map_iff. exists (k, v2). auto.
  - injection E as -> ->. exfalso; apply Hn. apply in_map_iff. exists (k, v1). auto.
  - apply IH; auto.
Qed.

Lemma momentmatrix_correct cols : exists M D,
  calculate_momentmatrix nc ortho commuting cols = Some (M, D) /\
  (forall i j, i < length cols -> j < length cols ->
     M i j = M j i /\
     (M i j = 0 <-> is_zero_product nc ortho (entry cols i j)) /\
     (M i j <> 0 -> exists k, In (k, M i j) D /\ same_moment nc ortho k (entry cols i j))) /\
  (forall i j i' j', i < length cols -> j < length cols -> i' < length cols -> j' < length cols ->
     M i j <> 0 -> M i' j' <> 0 ->
     (M i j = M i' j' <-> same_moment nc ortho (entry cols i j) (entry cols i' j'))) /\
  NoDup (map fst D) /\ map snd D = seq 1 (length D) /\
  (forall k v, In (k, v) D ->
     F k = Some k /\ ~ In 0 k /\
     exists i j, i < length cols /\ j < length cols /\ M i j = v /\ same_moment nc ortho k (entry cols i j)).
Proof.
  destruct (mm_run nc ortho commuting (fun a b => keyf (dot_mon a b)) mon_hash_key cols)
    as (M & D & E & HN & HS & H4 & H5).
  exists M, D. split; [exact E|].
  assert (Hd : forall a b i j, nth_error cols i = Some a -> nth_error cols j = Some b ->
             dot_mon a b = entry cols i j).
  { intros a b i j Ha Hb. unfold dot_mon, entry.
    f_equal; [f_equal|]; symmetry; apply nth_error_nth; assumption. }
  (* description of each cell through the key of the entry *)
  assert (Hpos : forall k v, In (k, v) D -> 1 <= v).
  { intros k v Hin. assert (In v (map snd D)) by (apply in_map_iff; exists (k, v); auto).
    rewrite HS in H. apply in_seq in H. lia. }
  assert (Hcell0 : forall i j, i < length cols -> j < length cols -> i <= j ->
     M i j = M j i /\ match keyf (entry cols i j) with None => M i j = 0 | Some k => In (k, M i j) D end).
  { intros i j Hi Hj Hij.
    destruct (nth_error cols i) as [a|] eqn:Ea; [|apply nth_error_None in Ea; lia].
    destruct (nth_error cols j) as [b|] eqn:Eb; [|apply nth_error_None in Eb; lia].
    specialize (H4 i j a b Ea Eb Hij). cbn beta in H4. rewrite (Hd a b i j Ea Eb) in H4. exact H4. }
  assert (Hkr : forall w, keyf (rev w) = keyf w).
  { intros w. destruct (keyf w) as [k|] eqn:Ek.
    - apply (keyf_eq w (rev w) k Ek). right. rewrite rev_involutive. apply pe_refl.
    - apply keyf_none in Ek. apply keyf_none. apply (pe_rev nc ortho G) in Ek. exact Ek. }
  assert (Hcell : forall i j, i < length cols -> j < length cols ->
     M i j = M j i /\ match keyf (entry cols i j) with None => M i j = 0 | Some k => In (k, M i j) D end).
  { intros i j Hi Hj. destruct (Nat.le_ge_cases i j) as [Hij|Hji]; [apply Hcell0; assumption|].
    destruct (Hcell0 j i Hj Hi Hji) as [E1 E2].
    rewrite <- (entry_rev cols j i), Hkr, <- E1. auto. }
  clear H4 Hcell0.
  assert (Hzero : forall i j, i < length cols -> j < length cols ->
             (M i j = 0 <-> keyf (entry cols i j) = None)).
  { intros i j Hi Hj. destruct (Hcell i j Hi Hj) as [_ Hk].
    destruct (keyf (entry cols i j)); [|tauto]. apply Hpos in Hk. split; [lia|discriminate]. }
  split; [|split; [|split; [|split]]].
  - intros i j Hi Hj. destruct (Hcell i j Hi Hj) as [E1 E2]. split; [exact E1|]. split.
    + rewrite Hzero by assumption. apply keyf_none.
    + intros Hnz. destruct (keyf (entry cols i j)) as [k|] eqn:Ek; [|contradiction].
      exists k. split; [exact E2|]. apply keyf_denotes in Ek as [Ek|Ek]; [left|right]; exact Ek.
  - intros i j i' j' Hi Hj Hi' Hj' Hn Hn'.
    destruct (Hcell i j Hi Hj) as [_ E1]. destruct (Hcell i' j' Hi' Hj') as [_ E2].
    destruct (keyf (entry cols i j)) as [k|] eqn:Ek; [|contradiction].
    destruct (keyf (entry cols i' j')) as [k'|] eqn:Ek'; [|contradiction].
    rewrite <- (keyf_eq _ _ _ Ek). rewrite Ek'. split.
    + intros EM. rewrite EM in E1. f_equal. exact (in_dict_unique D _ _ _ HS E2 E1).
    + intros [= ->]. exact (in_dict_fun D _ _ _ HN E1 E2).
  - exact HN.
  - exact HS.
  - intros k v Hin. destruct (H5 k v Hin) as (i & j & a & b & Hij & Ha & Hb & Hk & Hm).
    rewrite (Hd a b i j Ha Hb) in Hk. destruct (keyf_canonical _ _ Hk) as [K1 K2].
    split; [exact K1|]. split; [exact K2|]. exists i, j.
    assert (i < length cols) by (apply nth_error_Some; congruence).
    assert (j < length cols) by (apply nth_error_Some; congruence).
    repeat split; auto. apply keyf_denotes in Hk as [Hk|Hk]; [left|right]; exact Hk.
Qed.

End MM.
