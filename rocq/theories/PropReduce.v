(** C60: reducing the copy indices of a monomial. *)
From Coq Require Import List Arith Bool Lia Permutation Sorted.
From Verif Require Import FileModel.
Import ListNotations.
Open Scope list_scope.

(** ** Specification *)
(** a renaming of the copies 1..n of a source (0 means that the source is not used) *)
Definition renaming (n : nat) (pi : nat -> nat) : Prop := pi 0 = 0 /\ Permutation (map pi (seq 0 (S n))) (seq 0 (S n)).
Definition increasing_on (pi : nat -> nat) (c : list nat) : Prop := forall x y, In x (0 :: c) -> In y (0 :: c) -> x < y -> pi x < pi y.
(** the copies used are 1..k for some k *)
Definition no_gaps (c : list nat) : Prop := forall x y, In x c -> 0 < y -> y < x -> In y c.

Lemma In_insert x y l : In y (insert_unique x l) <-> x = y \/ In y l.
Proof.
  induction l as [|z t IH]; cbn [insert_unique]; [cbn; tauto|]. destruct (Nat.ltb_spec x z); [cbn; tauto|]. destruct (Nat.eqb_spec x z); [subst; cbn; tauto|]. cbn [In]. rewrite IH. tauto.
Qed.
Lemma In_unique y l : In y (unique l) <-> In y l.
Proof. induction l as [|x t IH]; [reflexivity|]. cbn [unique fold_right]. change (fold_right insert_unique [] t) with (unique t). rewrite In_insert, IH. cbn. tauto. Qed.
Lemma insert_sorted x l : StronglySorted lt l -> StronglySorted lt (insert_unique x l).
Proof.
  induction l as [|z t IH]; intros S; cbn [insert_unique]; [repeat constructor|]. inversion S as [|? ? S' F]; subst. destruct (Nat.ltb_spec x z).
  - constructor; [exact S|]. constructor; [assumption|]. eapply Forall_impl; [|exact F]. cbn. lia.
  - destruct (Nat.eqb_spec x z); [exact S|]. constructor; [apply IH; exact S'|]. apply Forall_forall. intros w W. apply In_insert in W. destruct W as [<- | W]; [lia|]. exact (proj1 (Forall_forall _ _) F w W).
Qed.
Lemma unique_sorted l : StronglySorted lt (unique l).
Proof. induction l; [constructor|]. apply insert_sorted. assumption. Qed.
Lemma sorted_ext l : StronglySorted lt l -> forall m, StronglySorted lt m -> (forall x, In x l <-> In x m) -> l = m.
Proof.
  induction 1 as [|x t S IH F]; intros m M E.
  - destruct m as [|y m]; [reflexivity|]. destruct (proj2 (E y) (or_introl eq_refl)).
  - destruct M as [|y m M G]; [destruct (proj1 (E x) (or_introl eq_refl))|]. rewrite Forall_forall in F, G.
    assert (x = y). { destruct (proj1 (E x) (or_introl eq_refl)) as [Q|Q]; [congruence|]. destruct (proj2 (E y) (or_introl eq_refl)) as [Q'|Q']; [congruence|]. specialize (F _ Q'). specialize (G _ Q). lia. }
    subst y. f_equal. apply IH; [exact M|]. intros z. split; intros Z.
    + destruct (proj1 (E z) (or_intror Z)) as [Q|Q]; [|exact Q]. subst z. specialize (F _ Z). lia.
    + destruct (proj2 (E z) (or_intror Z)) as [Q|Q]; [|exact Q]. subst z. specialize (G _ Z). lia.
Qed.
Lemma sorted_nodup l : StronglySorted lt l -> NoDup l.
Proof. induction 1 as [|x t S IH F]; constructor; [|exact IH]. intros I. rewrite Forall_forall in F. specialize (F _ I). lia. Qed.
Lemma unique_zero c : exists u, unique (0 :: c) = 0 :: u /\ Forall (lt 0) u.
Proof.
  pose proof (unique_sorted (0 :: c)) as S. pose proof (proj2 (In_unique 0 (0 :: c)) (or_introl eq_refl)) as I. destruct (unique (0 :: c)) as [|y u]; [destruct I|].
  inversion S as [|? ? S' F]; subst. exists u. destruct I as [-> | I]; [split; [reflexivity|exact F]|]. rewrite Forall_forall in F. specialize (F _ I). lia.
Qed.
Lemma index_lt x y l : StronglySorted lt l -> In x l -> In y l -> x < y -> index x l < index y l.
Proof.
  induction 1 as [|z t S IH F]; [intros []|]. rewrite Forall_forall in F. intros X Y L. cbn. destruct (Nat.eqb_spec x z), (Nat.eqb_spec y z); try lia.
  - destruct X as [X|X]; [congruence|]. subst. specialize (F _ X). lia.
  - destruct X as [X|X]; [congruence|]. destruct Y as [Y|Y]; [congruence|]. specialize (IH X Y L). lia.
Qed.
Lemma index_app x l m : In x l -> index x (l ++ m) = index x l.
Proof. induction l as [|y t IH]; [intros []|]. cbn. intros [-> | I]; [rewrite Nat.eqb_refl; reflexivity|]. destruct (x =? y); [reflexivity|]. f_equal. auto. Qed.
Lemma index_In x l : In x l -> index x l < length l.
Proof. induction l as [|y t IH]; [intros []|]. cbn. intros I. destruct (Nat.eqb_spec x y); [lia|]. destruct I as [I|I]; [congruence|]. specialize (IH I). lia. Qed.
Lemma map_index l : NoDup l -> map (fun x => index x l) l = seq 0 (length l).
Proof.
  induction 1 as [|x t N D IH]; [reflexivity|]. cbn [map index length seq]. rewrite Nat.eqb_refl. f_equal. rewrite <- seq_shift, <- IH, map_map. apply map_ext_in. intros y Y. destruct (Nat.eqb_spec y x); [subst; contradiction|reflexivity].
Qed.
Lemma index_le x l : StronglySorted lt l -> In x l -> index x l <= x.
Proof.
  intros SS. assert (G : forall k, Forall (le k) l -> In x l -> index x l + k <= x).
  { induction SS as [|z t SS IH F]; intros k K I; [destruct I|]. cbn [index]. inversion K as [|? ? Kz Kt]; subst. destruct (Nat.eqb_spec x z); [lia|]. destruct I as [I|I]; [congruence|].
    specialize (IH (S k)). assert (index x t + S k <= x); [|lia]. apply IH; [|exact I]. eapply Forall_impl; [|exact F]. cbn. lia. }
  intros I. specialize (G 0). rewrite Nat.add_0_r in G. apply G; [|exact I]. apply Forall_forall. intros; lia.
Qed.
Lemma index_of_nth l k : NoDup l -> k < length l -> index (nth k l 0) l = k.
Proof.
  intros N. revert k. induction N as [|x t N D IH]; intros k K; [cbn in K; lia|]. destruct k as [|k]; cbn; [rewrite Nat.eqb_refl; reflexivity|]. cbn in K. destruct (Nat.eqb_spec (nth k t 0) x) as [E|E]; [|rewrite IH; lia]. destruct N. rewrite <- E. apply nth_In. lia.
Qed.

(** a single column *)
Definition rank (c : list nat) (x : nat) : nat := index x (unique (0 :: c)).
Definition reduced (c : list nat) : list nat := map (rank c) c.
Lemma tl_positions c : tl (inverse_positions (0 :: c)) = reduced c.
Proof. reflexivity. Qed.
Lemma rank_zero c : rank c 0 = 0.
Proof. unfold rank. destruct (unique_zero c) as (u & -> & _). reflexivity. Qed.
Lemma rank_increasing c : increasing_on (rank c) c.
Proof. intros x y X Y L. apply index_lt; [apply unique_sorted|apply In_unique; exact X|apply In_unique; exact Y|exact L]. Qed.
Lemma rank_ext c n : Forall (fun x => x <= n) c -> exists pi, renaming n pi /\ forall x, In x (0 :: c) -> pi x = rank c x.
Proof.
  intros B. pose (U := unique (0 :: c)). pose (q := U ++ filter (fun x => negb (existsb (Nat.eqb x) U)) (seq 0 (S n))).
  assert (UB : forall x, In x U -> x < S n). { intros x I. apply (proj1 (In_unique x (0 :: c))) in I. destruct I as [<- | I]; [lia|]. rewrite Forall_forall in B. specialize (B _ I). lia. }
  assert (EX : forall x, existsb (Nat.eqb x) U = true <-> In x U).
  { intros x. rewrite existsb_exists. split; [intros (y & I & E); apply Nat.eqb_eq in E; subst; exact I|intros I; exists x; split; [exact I|apply Nat.eqb_refl]]. }
  assert (PQ : Permutation (seq 0 (S n)) q).
  { apply NoDup_Permutation; [apply seq_NoDup| |].
    - unfold q. assert (NU : NoDup U) by (apply sorted_nodup, unique_sorted). revert NU EX. generalize U. intros V NV EX'.
      assert (G : forall W, (forall x, In x W -> In x V) -> NoDup W -> NoDup (W ++ filter (fun x => negb (existsb (Nat.eqb x) V)) (seq 0 (S n)))).
      { intros W. induction W as [|w W IH]; intros SW NW; cbn [app]; [apply NoDup_filter, seq_NoDup|]. inversion NW; subst. constructor; [|apply IH; [intros; apply SW; right; assumption|assumption]].
        rewrite in_app_iff. intros [I|I]; [contradiction|]. apply filter_In in I. destruct I as [_ I]. rewrite (proj2 (EX' w) (SW w (or_introl eq_refl))) in I. discriminate. }
      apply G; auto.
    - intros x. unfold q. rewrite in_app_iff, filter_In, in_seq. split.
      + intros I. destruct (existsb (Nat.eqb x) U) eqn:E; [left; apply EX; exact E|right; split; [lia|reflexivity]].
      + intros [I|[I _]]; [specialize (UB _ I)|]; lia. }
  assert (NQ : NoDup q) by (eapply Permutation_NoDup; [exact PQ|apply seq_NoDup]).
  exists (fun x => index x q). split; [split|].
  - unfold q, U. destruct (unique_zero c) as (u & -> & _). reflexivity.
  - rewrite (Permutation_map (fun x => index x q) PQ), (map_index q NQ), <- (Permutation_length PQ), seq_length. apply Permutation_refl.
  - intros x I. unfold q. apply index_app. apply In_unique. exact I.
Qed.
Lemma reduced_no_gaps c : no_gaps (reduced c).
Proof.
  intros x y X P L. unfold reduced in X. apply in_map_iff in X. destruct X as (z & <- & Z). pose (U := unique (0 :: c)).
  assert (LU : rank c z < length U) by (apply index_In, In_unique; right; exact Z).
  assert (E : rank c (nth y U 0) = y) by (apply (index_of_nth U y); [apply sorted_nodup, unique_sorted|exact (Nat.lt_trans _ _ _ L LU)]).
  unfold reduced. rewrite <- E. apply in_map. assert (I : In (nth y U 0) U) by (apply nth_In; exact (Nat.lt_trans _ _ _ L LU)). apply (proj1 (In_unique _ (0 :: c))) in I. destruct I as [I|I]; [|exact I]. rewrite <- I, rank_zero in E. lia.
Qed.
Lemma map_sorted pi l c : (forall x, In x l -> In x (0 :: c)) -> increasing_on pi c -> StronglySorted lt l -> StronglySorted lt (map pi l).
Proof.
  intros I M S. induction S as [|x t S IH F]; [constructor|]. cbn. constructor; [apply IH; intros; apply I; right; assumption|]. apply Forall_forall. intros y Y. apply in_map_iff in Y. destruct Y as (z & <- & Z). rewrite Forall_forall in F. apply M; [apply I; left; reflexivity|apply I; right; exact Z|apply F; exact Z].
Qed.
Lemma increasing_inj pi c x y : increasing_on pi c -> In x (0 :: c) -> In y (0 :: c) -> pi x = pi y -> x = y.
Proof. intros M X Y E. destruct (Nat.lt_trichotomy x y) as [L|[L|L]]; [specialize (M _ _ X Y L)| |specialize (M _ _ Y X L)]; lia. Qed.
Lemma reduced_pattern pi c : pi 0 = 0 -> increasing_on pi c -> reduced (map pi c) = reduced c.
Proof.
  intros Z M. unfold reduced. rewrite map_map. apply map_ext_in. intros x X. unfold rank.
  assert (E : unique (0 :: map pi c) = map pi (unique (0 :: c))).
  { apply sorted_ext; [apply unique_sorted|apply (map_sorted pi _ c); [intros y Y; apply In_unique; exact Y|exact M|apply unique_sorted]|].
    intros y. rewrite In_unique, in_map_iff. split.
    - intros [<- | I]; [exists 0; split; [exact Z|apply In_unique; left; reflexivity]|]. apply in_map_iff in I. destruct I as (w & <- & W). exists w. split; [reflexivity|]. apply (proj2 (In_unique w (0 :: c))). right. exact W.
    - intros (w & <- & W). apply (proj1 (In_unique w (0 :: c))) in W. destruct W as [<- | W]; [left; symmetry; exact Z|right; apply in_map; exact W]. }
  rewrite E. assert (A : forall l, (forall y, In y l -> In y (0 :: c)) -> index (pi x) (map pi l) = index x l).
  { induction l as [|y t IH]; intros I; [reflexivity|]. cbn. rewrite IH by (intros; apply I; right; assumption). destruct (Nat.eqb_spec (pi x) (pi y)) as [Q|Q].
    - rewrite (increasing_inj pi c x y M (or_intror X) (I y (or_introl eq_refl)) Q), Nat.eqb_refl. reflexivity.
    - destruct (Nat.eqb_spec x y); [subst; congruence|reflexivity]. }
  apply A. intros y Y. apply In_unique. exact Y.
Qed.

(** the whole monomial *)
Lemma set_nth_app {A} (p s : list A) x y : set_nth (p ++ x :: s) (length p) y = p ++ y :: s.
Proof. induction p as [|z p IH]; [reflexivity|]. cbn. f_equal. exact IH. Qed.
Lemma loop (b : list (list nat)) : forall srcs done, 1 <= length done ->
  fold_left (fun t source => set_nth t (1 + source) (inverse_positions (nth (1 + source) t []))) (seq (length done - 1) (length srcs)) (done ++ srcs ++ b) = done ++ map inverse_positions srcs ++ b.
Proof.
  induction srcs as [|c srcs IH]; intros done D; [reflexivity|]. cbn [length seq fold_left map app]. replace (1 + (length done - 1)) with (length done) by lia.
  rewrite set_nth_app, nth_middle. replace (S (length done - 1)) with (length (done ++ [inverse_positions c]) - 1) by (rewrite app_length; cbn; lia).
  change (done ++ inverse_positions c :: srcs ++ b) with (done ++ [inverse_positions c] ++ (srcs ++ b)). rewrite app_assoc, IH by (rewrite app_length; cbn; lia). rewrite <- app_assoc. reflexivity.
Qed.
Lemma reduce_is p srcs x a : reduce_indices (p :: srcs ++ [x; a]) = p :: map reduced srcs ++ [x; a].
Proof.
  unfold reduce_indices. cbn [length]. rewrite app_length. cbn [length]. replace (S (length srcs + 2) - 3) with (length srcs) by lia. cbn [map]. rewrite map_app.
  pose proof (loop (map (cons 0) [x; a]) (map (cons 0) srcs) [0 :: p] (le_n 1)) as L. cbn [length app] in L. change (1 - 1) with 0 in L. rewrite map_length in L. rewrite L. cbn [map tl]. rewrite map_app, !map_map. reflexivity.
Qed.

(** parties, settings and outcomes are kept; the copies of each source are renamed, in their order *)
Theorem C60_renaming p srcs x a n : Forall (Forall (fun k => k <= n)) srcs ->
  exists srcs', reduce_indices (p :: srcs ++ [x; a]) = p :: srcs' ++ [x; a] /\
    Forall2 (fun c c' => exists pi, renaming n pi /\ increasing_on pi c /\ c' = map pi c) srcs srcs'.
Proof.
  intros B. exists (map reduced srcs). split; [apply reduce_is|]. induction B as [|c srcs C B IH]; constructor; [|exact IH].
  destruct (rank_ext c n C) as (pi & R & E). exists pi. split; [exact R|]. split.
  - intros y z Y Z L. rewrite (E _ Y), (E _ Z). apply rank_increasing; assumption.
  - apply map_ext_in. intros y Y. symmetry. apply E. right. exact Y.
Qed.
(** the copies used of every source are 1..k, and no index grows *)
Theorem C60_as_small_as_possible p srcs x a : exists srcs', reduce_indices (p :: srcs ++ [x; a]) = p :: srcs' ++ [x; a] /\
  Forall no_gaps srcs' /\ Forall2 (Forall2 le) srcs' srcs.
Proof.
  exists (map reduced srcs). split; [apply reduce_is|]. split.
  - apply Forall_forall. intros c' I. apply in_map_iff in I. destruct I as (c & <- & _). apply reduced_no_gaps.
  - induction srcs as [|c srcs IH]; constructor; [|exact IH]. unfold reduced.
    assert (G : forall l, (forall y, In y l -> In y c) -> Forall2 le (map (rank c) l) l).
    { induction l as [|y t IHl]; intros I; constructor; [|apply IHl; intros; apply I; right; assumption]. apply index_le; [apply unique_sorted|]. apply In_unique. right. apply I. left. reflexivity. }
    apply G. auto.
Qed.
(** monomials that differ by a renaming of copies keeping their order have the same reduction *)
Theorem C60_same_pattern p srcs srcs' x a :
  Forall2 (fun c c' => exists pi, pi 0 = 0 /\ increasing_on pi c /\ c' = map pi c) srcs srcs' ->
  reduce_indices (p :: srcs ++ [x; a]) = reduce_indices (p :: srcs' ++ [x; a]).
Proof.
  intros F. rewrite !reduce_is. do 2 f_equal. induction F as [|c c' srcs srcs' (pi & Z & M & ->) F IH]; [reflexivity|]. cbn. rewrite IH, reduced_pattern by assumption. reflexivity.
Qed.
Lemma rank_lt c x y : In x (0 :: c) -> In y (0 :: c) -> (rank c x < rank c y <-> x < y).
Proof.
  intros X Y. split; [|apply rank_increasing; assumption]. intros L. destruct (Nat.lt_trichotomy x y) as [G|[G|G]]; [exact G|subst; lia|]. pose proof (rank_increasing c y x Y X G). lia.
Qed.
Lemma nth_reduced c i : i < length c -> nth i (reduced c) 0 = rank c (nth i c 0).
Proof. intros I. unfold reduced. rewrite (nth_indep _ 0 (rank c 0)) by (rewrite map_length; exact I). apply map_nth. Qed.
(** two operators use the same copy of a source after the reduction exactly if they did before *)
Theorem C60_shared_copies p srcs x a : exists srcs', reduce_indices (p :: srcs ++ [x; a]) = p :: srcs' ++ [x; a] /\
  Forall2 (fun c c' => length c' = length c /\ forall i j, i < length c -> j < length c ->
    (nth i c' 0 <> 0 /\ nth i c' 0 = nth j c' 0 <-> nth i c 0 <> 0 /\ nth i c 0 = nth j c 0)) srcs srcs'.
Proof.
  exists (map reduced srcs). split; [apply reduce_is|]. induction srcs as [|c srcs IH]; constructor; [|exact IH]. split; [apply map_length|]. intros i j I J. rewrite !nth_reduced by assumption.
  assert (X : In (nth i c 0) (0 :: c)) by (right; apply nth_In; exact I). assert (Y : In (nth j c 0) (0 :: c)) by (right; apply nth_In; exact J). assert (Z : In 0 (0 :: c)) by (left; reflexivity).
  pose proof (rank_lt c _ _ X Y). pose proof (rank_lt c _ _ Y X). pose proof (rank_lt c _ _ Z X) as ZX. rewrite rank_zero in ZX. lia.
Qed.
(** monomials with the same reduction use the copies of every source in the same pattern *)
Theorem C60_only_same_pattern p srcs srcs' x a : length srcs = length srcs' ->
  reduce_indices (p :: srcs ++ [x; a]) = reduce_indices (p :: srcs' ++ [x; a]) ->
  Forall2 (fun c c' => length c = length c' /\ forall i j, i < length c -> j < length c ->
    (nth i c 0 < nth j c 0 <-> nth i c' 0 < nth j c' 0) /\ (nth i c 0 = 0 <-> nth i c' 0 = 0)) srcs srcs'.
Proof.
  intros L. rewrite !reduce_is. intros E. injection E as E. apply app_inv_tail in E. clear p x a. revert srcs' L E.
  induction srcs as [|c srcs IH]; intros [|c' srcs'] L E; try discriminate; constructor.
  - cbn in E. injection E as E _. assert (LC : length c = length c') by (unfold reduced in E; apply (f_equal (@length nat)) in E; rewrite !map_length in E; exact E). split; [exact LC|].
    intros i j I J. assert (I' : i < length c') by lia. assert (J' : j < length c') by lia.
    assert (Ei : rank c (nth i c 0) = rank c' (nth i c' 0)) by (rewrite <- !nth_reduced by assumption; rewrite E; reflexivity).
    assert (Ej : rank c (nth j c 0) = rank c' (nth j c' 0)) by (rewrite <- !nth_reduced by assumption; rewrite E; reflexivity).
    assert (Z : forall d, In 0 (0 :: d)) by (left; reflexivity).
    pose proof (rank_lt c (nth i c 0) (nth j c 0) (or_intror (nth_In _ _ I)) (or_intror (nth_In _ _ J))).
    pose proof (rank_lt c' (nth i c' 0) (nth j c' 0) (or_intror (nth_In _ _ I')) (or_intror (nth_In _ _ J'))).
    pose proof (rank_lt c 0 (nth i c 0) (Z c) (or_intror (nth_In _ _ I))) as A. pose proof (rank_lt c' 0 (nth i c' 0) (Z c') (or_intror (nth_In _ _ I'))) as B. rewrite rank_zero in A, B. lia.
  - apply IH; [cbn in L; lia|]. cbn in E. injection E as _ E. exact E.
Qed.
(** reducing again changes nothing *)
Theorem C60_idempotent p srcs x a : reduce_indices (reduce_indices (p :: srcs ++ [x; a])) = reduce_indices (p :: srcs ++ [x; a]).
Proof.
  rewrite !reduce_is, map_map. do 2 f_equal. apply map_ext. intros c. change (reduced (map (rank c) c) = reduced c). apply reduced_pattern; [apply rank_zero|apply rank_increasing].
Qed.
Example C60_example : reduce_indices [[1; 2; 1]; [3; 0; 5]; [0; 4; 4]; [0; 0; 1]; [1; 0; 1]] = [[1; 2; 1]; [1; 0; 2]; [0; 1; 1]; [0; 0; 1]; [1; 0; 1]].
Proof. reflexivity. Qed.

Example C60_renaming_hypotheses : Forall (Forall (fun k => k <= 5)) [[3; 0; 5]; [0; 4; 4]].
Proof. repeat constructor. Qed.
Example C60_same_pattern_hypotheses : Forall2 (fun c c' => exists pi, pi 0 = 0 /\ increasing_on pi c /\ c' = map pi c) [[3; 0; 5]] [[6; 0; 10]].
Proof. repeat constructor. exists (fun k => 2 * k). repeat split. intros y z _ _ L. lia. Qed.

(** the result is not a representative of the class of renamings: two monomials without repetition of
    operators that differ by a renaming of the copies are not identified *)
Theorem C60_not_a_representative_refuted : exists p c pi x a, renaming 2 pi /\
  reduce_indices [p; c; x; a] <> reduce_indices [p; map pi c; x; a].
Proof.
  exists [1; 1], [1; 2], (fun k => match k with 1 => 2 | 2 => 1 | _ => k end), [0; 1], [0; 0]. split.
  - split; [reflexivity|]. cbn. constructor. apply perm_swap.
  - discriminate.
Qed.
Print Assumptions C60_renaming.
Print Assumptions C60_as_small_as_possible.
Print Assumptions C60_same_pattern.
Print Assumptions C60_shared_copies.
Print Assumptions C60_only_same_pattern.
Print Assumptions C60_idempotent.
Print Assumptions C60_not_a_representative_refuted.
