From Coq Require Import Permutation Sorted.
From Verif Require Import CanonModel CanonSpec CanonProofs CanonProofs2 MomentModel MomentSpec MomentProofs.
From Verif Require Import ScenarioModel ScenarioSpec ScenarioProofs UniqueProofs OrbitModel OrbitSpec OrbitProofs OrbitProofs2 ColumnModel ColumnSpec ColumnProofs.

Lemma fold_max_in l : fold_right Nat.max 0 l = 0 \/ In (fold_right Nat.max 0 l) l.
Proof.
  induction l as [|x l IH]; cbn; [left; reflexivity|]. destruct (Nat.max_spec x (fold_right Nat.max 0 l)) as [[_ ->]|[_ ->]]; [|right; left; reflexivity].
  destruct IH as [E|IH]; [left; exact E|right; right; exact IH].
Qed.
Lemma fold_max_ub l x : In x l -> x <= fold_right Nat.max 0 l.
Proof. induction l as [|y l IH]; cbn; intros []; [subst; lia|]. specialize (IH H). lia. Qed.
Lemma ravel_in n M x : In x (ravel n M) <-> exists i j, i < n /\ j < n /\ M i j = x.
Proof.
  unfold ravel. rewrite in_flat_map. split.
  - intros (i & Hi & H). apply in_map_iff in H as (j & <- & Hj). apply in_seq in Hi, Hj. exists i, j. repeat split; lia.
  - intros (i & j & Hi & Hj & <-). exists i. split; [apply in_seq; lia|]. apply in_map, in_seq. lia.
Qed.
Lemma same_orbit_nil n M i j i' j' : i < n -> j < n -> (same_orbit n M [] (M i j) (M i' j') <-> M i j = M i' j').
Proof.
  intros Hi Hj. unfold same_orbit. split.
  - intros (g & a & b & [->|[]] & Ha & Hb & E1 & E2). unfold id_perm in E2. rewrite !seq_nth in E2 by assumption. cbn in E2. congruence.
  - intros E. exists (id_perm n), i, j. unfold id_perm. rewrite !seq_nth by assumption. cbn. auto 8.
Qed.

(** uniform consequences of symmetrisation, with or without symmetries *)
Section Uniform.
Variables (n : nat) (M : matrix) (syms : list (list nat)).
Hypothesis GR : group_with_identity n syms.
Hypothesis AC : acts_on_entries n M syms.
Hypothesis contiguous : forall v i j, i < n -> j < n -> 1 <= v <= M i j -> exists a b, a < n /\ b < n /\ M a b = v.
Hypothesis fix0 : forall i j i' j', i < n -> j < n -> i' < n -> j' < n -> M i j = 0 -> same_orbit n M syms (M i j) (M i' j') -> M i' j' = 0.
Lemma sym_facts : exists M' orbits repr, apply_inflation_symmetries n M syms = Some (M', orbits, repr) /\
  (forall i j i' j', i < n -> j < n -> i' < n -> j' < n -> (M' i j = M' i' j' <-> same_orbit n M syms (M i j) (M i' j'))) /\
  (forall i j, i < n -> j < n -> assoc orbits (M i j) = Some (M' i j)) /\
  (forall x, In x repr -> 1 <= x -> exists i j, i < n /\ j < n /\ M i j = x) /\
  NoDup repr /\
  (forall a b c d, a < n -> b < n -> c < n -> d < n -> In (M a b) repr -> In (M c d) repr -> M' a b = M' c d -> M a b = M c d) /\
  (forall i j, i < n -> j < n -> exists a b, a < n /\ b < n /\ In (M a b) repr /\ M' a b = M' i j) /\
  (forall i j, i < n -> j < n -> (M' i j = 0 <-> M i j = 0)) /\
  ((forall i j i' j', i < n -> j < n -> i' < n -> j' < n -> M i j = 1 -> same_orbit n M syms (M i j) (M i' j') -> M i' j' = 1) ->
   forall i j, i < n -> j < n -> M i j = 1 -> M' i j = 1 /\ In 1 repr).
Proof.
  destruct (list_eq_dec (list_eq_dec Nat.eq_dec) syms []) as [E|NE].
  - rewrite E in *. cbn [apply_inflation_symmetries]. set (mx := fold_right Nat.max 0 (ravel n M)). set (vals := seq 0 (S mx)).
    assert (IN : forall i j, i < n -> j < n -> M i j <= mx).
    { intros i j Hi Hj. apply fold_max_ub, ravel_in. eauto. }
    exists M, (combine vals vals), vals. split; [reflexivity|]. split; [|split; [|split; [|split; [|split; [|split; [|split]]]]]].
    + intros. symmetry. apply same_orbit_nil; assumption.
    + intros i j Hi Hj. specialize (IN i j Hi Hj). pose proof (assoc_combine_nth n M vals vals (M i j) (seq_NoDup _ _) eq_refl) as Q.
      unfold vals in *. rewrite seq_length, !seq_nth in Q by lia. cbn [Nat.add] in Q. apply Q. lia.
    + intros x Hx H1. apply in_seq in Hx. assert (Hmx : 1 <= mx) by lia. destruct (fold_max_in (ravel n M)) as [Z|Z]; [fold mx in Z; lia|]. fold mx in Z.
      apply ravel_in in Z as (i & j & Hi & Hj & Z). apply (contiguous x i j); auto. lia.
    + apply seq_NoDup.
    + auto.
    + intros i j Hi Hj. exists i, j. repeat split; auto. apply in_seq. specialize (IN i j Hi Hj). lia.
    + tauto.
    + intros _ i j Hi Hj H1. split; [exact H1|]. apply in_seq. specialize (IN i j Hi Hj). lia.
  - destruct (symmetrised_correct n M syms GR AC NE) as (M' & orb & repr & Eq & P1 & P2 & P3 & P4 & P5 & P6 & P7 & _ & P9).
    exists M', orb, repr. split; [exact Eq|]. set (old := unique_values (ravel n M)) in *.
    assert (OIN : forall x, In x old <-> exists i j, i < n /\ j < n /\ M i j = x) by (intros x; unfold old; rewrite (uv_in (ravel n M)); apply ravel_in).
    assert (HD : forall i j, i < n -> j < n -> hd 0 old <= M i j).
    { intros i j Hi Hj. assert (H : In (M i j) old) by (apply OIN; eauto). pose proof (uv_SS (ravel n M)) as SSo. fold old in SSo.
      destruct old as [|x o]; [destruct H|]. inversion SSo as [|? ? _ F]; subst. rewrite Forall_forall in F. cbn [hd]. destruct H as [->|H]; [lia|]. specialize (F _ H). lia. }
    assert (HDin : forall i j, i < n -> j < n -> exists a b, a < n /\ b < n /\ M a b = hd 0 old).
    { intros i j Hi Hj. apply OIN. assert (H : In (M i j) old) by (apply OIN; eauto). destruct old; [destruct H|left; reflexivity]. }
    assert (Z : forall i j, i < n -> j < n -> M i j = 0 -> M' i j = 0).
    { intros i j Hi Hj H0. transitivity (M i j); [|exact H0]. apply (P6 1); auto.
      - intros v Hv. assert (v = 0) as -> by lia. assert (hd 0 old = 0) as H by (specialize (HD i j Hi Hj); lia). rewrite H. cbn [Nat.add]. split; [eauto|].
        intros y (g & a & b & Hg & Ha & Hb & E1 & E2). rewrite <- E2. apply (fix0 i j); auto; try (apply (perm_range n M syms GR); auto).
        exists g, a, b. repeat split; auto. congruence.
      - specialize (HD i j Hi Hj). lia. }
    split; [exact P1|]. split; [exact P2|]. split; [intros x Hx _; apply P5, Hx|]. split; [exact P4|]. split; [|split; [exact P9|split]].
    + intros a b c d Ha Hb Hc Hd I1 I2 E. apply P5 in I1 as [_ I1], I2 as [_ I2].
      assert (O1 : same_orbit n M syms (M a b) (M c d)) by (apply P1; auto). assert (O2 : same_orbit n M syms (M c d) (M a b)) by (apply P1; auto).
      specialize (I1 _ O1). specialize (I2 _ O2). lia.
    + intros i j Hi Hj. split; [|apply Z; assumption]. intros H. destruct (Nat.eq_dec (M i j) 0) as [Q|Q]; [exact Q|]. exfalso.
      destruct (HDin i j Hi Hj) as (a & b & Ha & Hb & Hab). pose proof (P7 i j Hi Hj) as R. rewrite H in R.
      assert (H0 : M a b = 0) by lia. assert (H1 : M' a b = M' i j) by (rewrite H; apply Z; assumption). apply P1 in H1; auto.
      apply Q. apply (fix0 a b); auto.
    + intros fix1 i j Hi Hj H1. assert (F1 : forall y, same_orbit n M syms 1 y -> y = 1).
      { intros y (g & a & b & Hg & Ha & Hb & E1 & E2). rewrite <- E2. apply (fix1 a b); auto; try (apply (perm_range n M syms GR); auto). exists g, a, b. repeat split; auto. }
      split.
      * transitivity (M i j); [|exact H1]. pose proof (HD i j Hi Hj) as HDi. destruct (HDin i j Hi Hj) as (a & b & Ha & Hb & Hab).
        assert (C : hd 0 old = 0 \/ hd 0 old = 1) by lia. apply (P6 (2 - hd 0 old)); auto; [|lia].
        intros v Hv. assert (W : hd 0 old + v = 0 \/ hd 0 old + v = 1) by lia. destruct W as [W|W]; rewrite W.
        -- assert (M a b = 0) as Mab by lia. split; [eauto|].
           intros y (g & a' & b' & Hg & Ha' & Hb' & E1 & E2). rewrite <- E2. apply (fix0 a' b'); auto; try (apply (perm_range n M syms GR); auto). exists g, a', b'. repeat split; auto.
        -- split; [eauto|exact F1].
      * apply P5. split; [eauto|]. intros y Hy. rewrite (F1 y Hy). lia.
Qed.
End Uniform.

(** ** the identity has index 1 *)
Lemma step_prefix nc ortho commuting st p st' : mm_step nc ortho commuting (Some st) p = Some st' ->
  exists t, mm_dict st' = mm_dict st ++ t.
Proof.
  destruct p as [[i a] [j b]]. cbn [mm_step]. destruct (mon_hash nc ortho commuting a b) as [[h|]|]; [|intros [= <-]; exists []; rewrite app_nil_r; reflexivity|discriminate].
  destruct (dict_get (mm_dict st) h); intros [= <-]; cbn [mm_dict]; [exists []; rewrite app_nil_r; reflexivity|eauto].
Qed.
Lemma fold_none nc ortho commuting l : fold_left (mm_step nc ortho commuting) l None = None.
Proof. induction l; cbn; auto. Qed.
Lemma fold_prefix nc ortho commuting l : forall st st', fold_left (mm_step nc ortho commuting) l (Some st) = Some st' ->
  exists t, mm_dict st' = mm_dict st ++ t.
Proof.
  induction l as [|p l IH]; intros st st' H; [injection H as <-; exists []; rewrite app_nil_r; reflexivity|].
  change (fold_left (mm_step nc ortho commuting) l (mm_step nc ortho commuting (Some st) p) = Some st') in H.
  destruct (mm_step nc ortho commuting (Some st) p) as [s1|] eqn:E; [|rewrite fold_none in H; discriminate].
  apply step_prefix in E as (t1 & E1). apply IH in H as (t2 & ->). rewrite E1, <- app_assoc. eauto.
Qed.
Lemma identity_first nc ortho commuting rest M D : good_tables nc ortho ->
  calculate_momentmatrix nc ortho commuting ([] :: rest) = Some (M, D) -> exists t, D = ([], 1) :: t.
Proof.
  intros G. unfold calculate_momentmatrix.
  destruct (fold_left _ _ _) as [st|] eqn:E; [|discriminate]. intros [= <- <-].
  cbn [enumerate_from combinations_wr map app fold_left] in E.
  assert (H : mon_hash nc ortho commuting [] [] = Some (Some [])) by (destruct commuting; reflexivity).
  remember (mm_step nc ortho commuting (Some _) _) as s1 eqn:E1 in E.
  cbn [mm_step] in E1. rewrite H in E1. cbn [dict_get mm_dict mm_varidx mm_mat] in E1. subst s1.
  apply fold_prefix in E as (t & ->). cbn [mm_dict app]. eauto.
Qed.

Lemma idx_to_word_in (D : dict) v w : map snd D = seq 1 (length D) -> In (w, v) D -> idx_to_word D v = Some w.
Proof.
  intros S1 H. unfold idx_to_word.
  assert (G : forall (D : dict) a, map snd D = seq a (length D) -> forall w v, In (w, v) D -> assoc (map (fun kv => (snd kv, fst kv)) D) v = Some w).
  { clear. induction D as [|[w0 v0] D IH]; intros a S1 w v H; [destruct H|]. cbn [map snd length seq fst] in *. injection S1 as S0 S1.
    cbn [assoc]. destruct H as [[= <- <-]|H]; [rewrite Nat.eqb_refl; reflexivity|].
    destruct (Nat.eqb_spec v0 v) as [Q|Q]; [|eapply IH; eassumption]. exfalso.
    assert (In v (map snd D)) by (apply (in_map snd) in H; exact H). rewrite S1 in H0. apply in_seq in H0. lia. }
  eapply G; eassumption.
Qed.
Lemma map_opt_total {A B} (f : A -> option B) l : (forall x, In x l -> exists y, f x = Some y) -> exists r, map_opt f l = Some r.
Proof.
  intros H. destruct (map_opt f l) as [r|] eqn:E; [eauto|]. apply map_opt_none in E as (x & Hx & E). destruct (H x Hx) as (y & Hy). congruence.
Qed.
Lemma assoc_unique {A} (l : list (nat * A)) k v : NoDup (map fst l) -> In (k, v) l -> assoc l k = Some v.
Proof.
  induction l as [|[k0 v0] l IH]; cbn; intros N H; [destruct H|]. inversion N as [|? ? N1 N2]; subst. destruct H as [[= <- <-]|H].
  - rewrite Nat.eqb_refl. reflexivity.
  - destruct (Nat.eqb_spec k0 k) as [->|_]; [|auto]. exfalso. apply N1. apply (in_map fst) in H. exact H.
Qed.

Theorem symmetrized_correct nc ortho commuting L syms cols : good_tables nc ortho -> (commuting = true -> forall a b, nc a b = false) ->
  operator_symmetries nc ortho L syms -> good_columns nc ortho L cols ->
  let n := length cols in
  exists M' orbits corresp, symmetrized_moment_matrix nc ortho commuting cols syms = Some (M', orbits, corresp) /\
  (forall i j, i < n -> j < n -> (M' i j = 0 <-> is_zero_product nc ortho (entry cols i j))) /\
  (forall i j i' j', i < n -> j < n -> i' < n -> j' < n -> M' i j <> 0 -> M' i' j' <> 0 ->
     (M' i j = M' i' j' <-> exists g, In g syms /\ keeps_columns nc cols g /\
                            same_moment nc ortho (apply_lexsym g (entry cols i j)) (entry cols i' j'))) /\
  NoDup (map fst corresp) /\
  (forall i j, i < n -> j < n -> M' i j <> 0 -> exists w g, assoc corresp (M' i j) = Some w /\ In g syms /\ keeps_columns nc cols g /\
                            same_moment nc ortho (apply_lexsym g (entry cols i j)) w) /\
  (forall k w, In (k, w) corresp -> k <> 0 /\ to_canonical_1d_internal nc ortho false false w = Some w /\ exists i j, i < n /\ j < n /\ M' i j = k) /\
  (hd [0] cols = [] -> M' 0 0 = 1 /\ assoc corresp 1 = Some []).
Proof.
  intros G Hc OS GC n.
  destruct (momentmatrix_correct nc ortho G commuting Hc cols) as (M & Dc & EM & H1 & H2 & H3 & H4 & H5).
  set (D := discover_columns_symmetries nc ortho commuting cols syms).
  assert (HM0 : forall i j, i < n -> j < n -> (M i j = 0 <-> is_zero_product nc ortho (entry cols i j))) by (intros; apply H1; assumption).
  pose proof (columns_group nc ortho commuting L syms cols G Hc OS GC) as GR. fold D n in GR.
  pose proof (columns_act nc ortho commuting L syms cols G Hc OS GC M HM0 H2) as AC. fold D n in AC.
  assert (OC := orbit_char nc ortho commuting L syms cols G Hc OS GC M HM0 H2). fold D n in OC.
  assert (CT : forall v i j, i < n -> j < n -> 1 <= v <= M i j -> exists a b, a < n /\ b < n /\ M a b = v).
  { intros v i j Hi Hj Hv. destruct (H1 i j Hi Hj) as (_ & _ & Hd). destruct (Hd ltac:(lia)) as (k & Hk & _).
    assert (In (M i j) (seq 1 (length Dc))) by (rewrite <- H4; apply (in_map snd) in Hk; exact Hk). apply in_seq in H.
    assert (Hv' : In v (map snd Dc)) by (rewrite H4; apply in_seq; lia). apply in_map_iff in Hv' as ((k' & v') & Q & Hk'). cbn in Q. subst v'.
    destruct (H5 _ _ Hk') as (_ & _ & a & b & Ha & Hb & Q & _). eauto. }
  assert (F0 : forall i j i' j', i < n -> j < n -> i' < n -> j' < n -> M i j = 0 -> same_orbit n M D (M i j) (M i' j') -> M i' j' = 0).
  { intros i j i' j' Hi Hj Hi' Hj' Z O. apply OC in O; auto. apply HM0; auto. destruct O as [[_ O]|(g & Hg & _ & O)]; [exact O|].
    eapply sm_zero; [exact G|exact O|]. rewrite (apply_gf nc ortho L syms cols OS) by (auto; apply (entry_ranged nc ortho L cols GC)).
    apply (zero_moved nc ortho L syms cols G OS); auto. apply HM0; assumption. }
  destruct (sym_facts n M D GR AC CT F0) as (M' & orb & repr & EA & P1 & P2 & P3 & P4 & P5 & P6 & P7 & P8).
  unfold symmetrized_moment_matrix. rewrite EM. fold D. fold n. rewrite EA.
  set (f := fun idx => match assoc orb idx, idx_to_word Dc idx with Some i, Some w => Some (i, w) | _, _ => None end).
  set (rp := filter (fun idx => 1 <=? idx) repr).
  assert (RP : forall x, In x rp <-> In x repr /\ 1 <= x) by (intros x; unfold rp; rewrite filter_In, Nat.leb_le; tauto).
  assert (FX : forall a b, a < n -> b < n -> M a b <> 0 -> exists w, f (M a b) = Some (M' a b, w) /\ In (w, M a b) Dc).
  { intros a b Ha Hb Nz. destruct (H1 a b Ha Hb) as (_ & _ & Hd). destruct (Hd Nz) as (k & Hk & _). exists k. split; [|exact Hk].
    unfold f. rewrite (P2 a b Ha Hb), (idx_to_word_in Dc _ k H4 Hk). reflexivity. }
  assert (RV : forall x, In x rp -> exists a b w, a < n /\ b < n /\ M a b = x /\ M a b <> 0 /\ f x = Some (M' a b, w) /\ In (w, x) Dc).
  { intros x Hx. apply RP in Hx as [Hx Hx1]. destruct (P3 x Hx Hx1) as (a & b & Ha & Hb & Q). destruct (FX a b Ha Hb ltac:(lia)) as (w & W1 & W2).
    exists a, b, w. rewrite <- Q. repeat split; auto. lia. }
  destruct (map_opt_total f rp) as (corresp & EC); [intros x Hx; destruct (RV x Hx) as (a & b & w & _ & _ & _ & _ & Q & _); eauto|].
  assert (EC' : map_opt f rp = Some corresp) by exact EC. rewrite EC.
  exists M', orb, corresp. split; [reflexivity|].
  apply map_opt_some in EC.
  assert (CIN : forall kw, In kw corresp <-> exists x, In x rp /\ f x = Some kw).
  { clear - EC. induction EC as [|x y l r E F IH]; [split; [intros []|intros (? & [] & _)]|]. intros kw. cbn [In]. rewrite IH. split.
    - intros [<-|(z & Hz & Ez)]; [exists x; auto|exists z; auto].
    - intros (z & [<-|Hz] & Ez); [left; congruence|right; eauto]. }
  assert (NDR : NoDup rp) by (apply NoDup_filter, P4).
  assert (ND : NoDup (map fst corresp)).
  { assert (Inj : forall x y k w w', In x rp -> In y rp -> f x = Some (k, w) -> f y = Some (k, w') -> x = y).
    { intros x y k w w' Hx Hy Ex Ey. destruct (RV x Hx) as (a & b & wx & Ha & Hb & Qa & _ & Fa & _). destruct (RV y Hy) as (c & d & wy & Hc' & Hd & Qc & _ & Fc & _).
      rewrite <- Qa, <- Qc. apply P5; auto; [rewrite Qa; apply RP, Hx|rewrite Qc; apply RP, Hy|]. congruence. }
    clear - EC NDR Inj. induction EC as [|x [k w] l r E F IH]; [constructor|]. cbn [map fst]. inversion NDR as [|? ? N1 N2]; subst. constructor.
    - intros H. apply in_map_iff in H as ((k' & w') & Q & H). cbn in Q. subst k'.
      assert (exists y, In y l /\ f y = Some (k, w')) as (y & Hy & Ey).
      { clear - F H. induction F as [|a b l r E F IH]; [destruct H|]. destruct H as [->|H]; [exists a; split; [left; reflexivity|exact E]|]. destruct (IH H) as (y & Hy & Ey). exists y. split; [right; exact Hy|exact Ey]. }
      apply N1. rewrite (Inj x y k w w'); auto; [left; reflexivity|right; exact Hy].
    - apply IH; [exact N2|]. intros a b c d e Ha Hb. apply Inj; right; assumption. }
  assert (NZ : forall i j, i < n -> j < n -> M' i j <> 0 -> M i j <> 0) by (intros i j Hi Hj H Q; apply H, P7; assumption).
  assert (OC' : forall i j i' j', i < n -> j < n -> i' < n -> j' < n -> M' i j <> 0 -> 
     (M' i j = M' i' j' <-> exists g, In g syms /\ keeps_columns nc cols g /\ same_moment nc ortho (apply_lexsym g (entry cols i j)) (entry cols i' j'))).
  { intros i j i' j' Hi Hj Hi' Hj' Z. rewrite P1, OC by assumption. split; [|auto]. intros [[Z1 _]|Q]; [|exact Q]. exfalso. apply (NZ i j Hi Hj Z). apply HM0; assumption. }
  split; [|split; [|split; [exact ND|split; [|split]]]].
  - intros i j Hi Hj. rewrite P7 by assumption. apply HM0; assumption.
  - intros. apply OC'; assumption.
  - intros i j Hi Hj Z. destruct (P6 i j Hi Hj) as (a & b & Ha & Hb & R & E). assert (Zab : M a b <> 0) by (apply NZ; auto; congruence).
    destruct (FX a b Ha Hb Zab) as (w & W1 & W2). destruct (proj1 (OC' i j a b Hi Hj Ha Hb Z) (eq_sym E)) as (g & Hg & K & S1).
    exists w, g. split; [|split; [exact Hg|split; [exact K|]]].
    + apply assoc_unique; [exact ND|]. apply CIN. exists (M a b). split; [apply RP; split; [exact R|lia]|]. rewrite W1, E. reflexivity.
    + eapply (sm_trans nc ortho G); [exact S1|]. destruct (H1 a b Ha Hb) as (_ & _ & Hd). destruct (Hd Zab) as (k & Hk & Sk).
      assert (k = w) as -> by (apply (in_dict_unique Dc k w (M a b)); assumption). apply (same_moment_sym nc ortho G), Sk.
  - intros k w H. apply CIN in H as (x & Hx & E). destruct (RV x Hx) as (a & b & w' & Ha & Hb & Q & Z & Fx & Hw).
    rewrite E in Fx. injection Fx as -> ->. split; [intros Z'; apply Z, P7; assumption|]. split; [apply (H5 _ _ Hw)|eauto].
  - intros Hh. assert (exists rest, cols = [] :: rest) as (rest & Ecols) by (clear - Hh; destruct cols as [|c0 rest]; [discriminate|]; cbn [hd] in Hh; subst c0; eauto).
    assert (H0n : 0 < n) by (unfold n; rewrite Ecols; cbn; lia).
    assert (M00 : M 0 0 = 1 /\ In ([], 1) Dc).
    { rewrite Ecols in EM. destruct (identity_first _ _ _ _ _ _ G EM) as (t & ED).
      assert (Hin : In ([], 1) Dc) by (rewrite ED; left; reflexivity). split; [|exact Hin].
      assert (Z : M 0 0 <> 0).
      { intros Z. apply HM0 in Z; auto. unfold entry in Z. rewrite Ecols in Z. cbn in Z. apply (F_zero_iff nc ortho G) in Z. discriminate. }
      destruct (H1 0 0 H0n H0n) as (_ & _ & Hd). destruct (Hd Z) as (k & Hk & Sk).
      assert (k = []).
      { unfold entry in Sk. rewrite Ecols in Sk. cbn in Sk. assert (Q : proj_eq nc ortho k []) by (destruct Sk; assumption).
        apply (F_complete nc ortho G) in Q. destruct (H5 _ _ Hk) as (Fk & _). rewrite Fk in Q. cbn in Q. congruence. }
      subst k. apply (in_dict_fun Dc [] _ _ H3 Hk Hin). }
    destruct M00 as [M00 Hin].
    assert (F1 : forall i j i' j', i < n -> j < n -> i' < n -> j' < n -> M i j = 1 -> same_orbit n M D (M i j) (M i' j') -> M i' j' = 1).
    { intros i j i' j' Hi Hj Hi' Hj' E O. assert (Z : M' i j <> 0) by (intros Q; apply P7 in Q; auto; lia).
      apply P1 in O; auto. apply OC' in O; auto. destruct O as (g & Hg & _ & O).
      assert (S0 : same_moment nc ortho (entry cols i j) (entry cols 0 0)) by (apply H2; auto; lia).
      assert (E0 : entry cols 0 0 = []) by (unfold entry; rewrite Ecols; reflexivity). rewrite E0 in S0.
      apply (sm_gf nc ortho L syms cols G OS g) in S0; [|exact Hg]. rewrite (apply_gf nc ortho L syms cols OS) in O by (auto; apply (entry_ranged nc ortho L cols GC)).
      cbn [map] in S0. assert (S2 : same_moment nc ortho (entry cols i' j') []) by (eapply (sm_trans nc ortho G); [apply (same_moment_sym nc ortho G), O|exact S0]).
      rewrite <- E0 in S2. rewrite <- M00. apply H2; auto; [|lia]. intros Q. apply HM0 in Q; auto. apply (sm_zero nc ortho G _ _ S2) in Q. apply HM0 in Q; auto. lia. }
    destruct (P8 F1 0 0 H0n H0n M00) as [Q1 Q2]. split; [exact Q1|]. apply assoc_unique; [exact ND|]. apply CIN. exists 1. split; [apply RP; auto|].
    destruct (FX 0 0 H0n H0n ltac:(lia)) as (w & W1 & W2). rewrite M00 in W1, W2. rewrite W1, Q1. f_equal. f_equal. apply (in_dict_unique Dc w [] 1); assumption.
Qed.
