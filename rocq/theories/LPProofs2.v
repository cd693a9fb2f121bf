(** Proofs about the generated linear programme: measurements as consecutive blocks. *)
From Coq Require Import Permutation Sorted.
From Verif Require Import MargModel QcSum LPModel LPSpec CliqueSpec CliqueProofs LPProofs.
From Verif Require ScenarioProofs OrbitProofs UniqueProofs ColumnProofs2.
Close Scope Q_scope. Close Scope Qc_scope. Open Scope nat_scope.

Lemma removelast_map {A B} (f : A -> B) l : removelast (map f l) = map f (removelast l).
Proof. induction l as [|x [|y l] IH]; cbn in *; auto. f_equal. exact IH. Qed.
Lemma last_map {A B} (f : A -> B) l d d' : l <> [] -> last (map f l) d = f (last l d').
Proof. induction l as [|x [|y l] IH]; cbn in *; [congruence|reflexivity|]. intros _. apply IH. discriminate. Qed.
Lemma removelast_last (l : list nat) : l <> [] -> l = removelast l ++ [last l 0].
Proof. apply app_removelast_last. Qed.
Lemma concat_SS_between (L : list (list nat)) : StronglySorted lt (concat L) -> forall t t' i j, t < t' ->
  In i (nth t L []) -> In j (nth t' L []) -> i < j.
Proof.
  induction L as [|g L IH]; cbn [concat]; intros Hs t t' i j Ht Hi Hj; [destruct t; destruct Hi|].
  apply SS_app_inv in Hs as (_ & S2 & S3).
  destruct t' as [|t']; [lia|]. destruct t as [|t]; cbn [nth] in *.
  - apply S3; [exact Hi|]. apply in_concat. exists (nth t' L []). split; [|exact Hj].
    destruct (Nat.lt_ge_cases t' (length L)) as [Hl|Hl]; [apply nth_In, Hl|]. rewrite nth_overflow in Hj by exact Hl. destruct Hj.
  - apply (IH S2 t t' i j); [lia|exact Hi|exact Hj].
Qed.
Lemma concat_SS_nth (L : list (list nat)) : StronglySorted lt (concat L) -> forall t, StronglySorted lt (nth t L []).
Proof.
  induction L as [|g L IH]; cbn [concat]; intros Hs t; [destruct t; constructor|].
  apply SS_app_inv in Hs as (S1 & S2 & _). destruct t; cbn [nth]; auto.
Qed.
Lemma map_filter_ids {A B} (f : A -> B) (p : A -> bool) (l : list A) d :
  map f (filter p l) = map (fun t => f (nth t l d)) (filter (fun t => p (nth t l d)) (seq 0 (length l))).
Proof.
  induction l as [|x l IH]; [reflexivity|]. cbn [length seq filter nth]. rewrite <- seq_shift.
  assert (E : forall q m, filter q (map S m) = map S (filter (fun t => q (S t)) m)).
  { clear. intros q m. induction m as [|y m IH]; cbn; [reflexivity|]. rewrite IH. destruct (q (S y)); reflexivity. }
  rewrite E. destruct (p x); cbn [map nth]; rewrite map_map; [f_equal|]; exact IH.
Qed.
Lemma map_nth_ids {A B} (f : A -> B) (l : list A) d : map f l = map (fun t => f (nth t l d)) (seq 0 (length l)).
Proof.
  pose proof (map_filter_ids f (fun _ => true) l d) as H. 
  replace (filter (fun _ : A => true) l) with l in H by (clear; induction l; cbn; congruence).
  rewrite H. f_equal. generalize (seq 0 (length l)). clear. intros m. induction m; cbn; congruence.
Qed.
Lemma fold_vor_nth n (l : list bvec) i : forall x, length x = n -> (forall v, In v l -> length v = n) ->
  (nth i (fold_left vor l x) false = true <-> nth i x false = true \/ exists v, In v l /\ nth i v false = true) /\ length (fold_left vor l x) = n.
Proof.
  induction l as [|y l IH]; intros x Hx H; cbn [fold_left].
  - split; [|exact Hx]. split; [auto|intros [E|(v & [] & _)]; exact E].
  - assert (Hy : length y = n) by (apply H; left; reflexivity).
    destruct (IH (vor x y)) as [I1 I2]; [rewrite vor_length; lia|intros v Hv; apply H; right; exact Hv|].
    split; [|exact I2]. rewrite I1, nth_vor, orb_true_iff by lia. split.
    + intros [[E|E]|(v & Hv & E)]; [left; exact E|right; exists y; split; [left; reflexivity|exact E]|right; exists v; split; [right; exact Hv|exact E]].
    + intros [E|(v & [Hv|Hv] & E)]; [left; left; exact E|subst; left; right; exact E|right; exists v; split; assumption].
Qed.
Lemma reduce_vor_nth n (l : list bvec) i : (forall v, In v l -> length v = n) ->
  (nth i (reduce vor (blank n) l) false = true <-> exists v, In v l /\ nth i v false = true) /\ length (reduce vor (blank n) l) = n.
Proof.
  destruct l as [|x l]; cbn [reduce]; intros H.
  - rewrite nth_blank. split; [split; [discriminate|intros (v & [] & _)]|apply blank_length].
  - destruct (fold_vor_nth n l i x) as [H1 H2]; [apply H; left; reflexivity|intros v Hv; apply H; right; exact Hv|].
    split; [|exact H2]. rewrite H1. split.
    + intros [E|(v & Hv & E)]; [exists x; split; [left; reflexivity|exact E]|exists v; split; [right; exact Hv|exact E]].
    + intros (v & [Hv|Hv] & E); [subst; left; exact E|right; eauto].
Qed.

Section Groups.
Variables (n : nat) (groups : list (bool * list nat)%type).
Hypothesis Hcat : concat (map snd groups) = seq 0 n.
Hypothesis Hne : forall t, In t groups -> snd t <> [].
Set Default Proof Using "All".

Definition nr_groups := length groups.
Definition grp t := snd (nth t groups (false, [])).
Definition flag t := fst (nth t groups (false, [])).
Definition lst t := last (grp t) 0.
Definition lim t := if flag t then grp t else removelast (grp t).
Definition alt t : list bvec := blank n :: map (eye n) (removelast (grp t)).
Definition ids (b : bool) := filter (fun t => Bool.eqb (flag t) b) (seq 0 nr_groups).
Definition crit b (v : bvec) := filter (fun t => nth (lst t) v false) (ids b).
Definition mask (b : bool) : bvec := if b then trigger_equality n groups else not_in_CG n groups.
Definition masked_groups (b : bool) := if b then CG_nonadjusting n groups else CG_adjusting n groups.
Definition cleared b v := vclear v (vand v (mask b)).

Lemma grp_nth t : grp t = nth t (map snd groups) [].
Proof. unfold grp. symmetry. apply (map_nth snd groups (false, []) t). Qed.
Lemma cat_SS : StronglySorted lt (concat (map snd groups)).
Proof. rewrite Hcat. apply SS_seq. Qed.
Lemma grp_between t t' i j : t < t' -> In i (grp t) -> In j (grp t') -> i < j.
Proof. intros Ht. rewrite !grp_nth. apply (concat_SS_between _ cat_SS t t' i j Ht). Qed.
Lemma grp_SS t : StronglySorted lt (grp t).
Proof. rewrite grp_nth. apply concat_SS_nth, cat_SS. Qed.
Lemma grp_NoDup t : NoDup (grp t).
Proof. apply (ScenarioProofs.SS_NoDup lt); [intros x; lia|apply grp_SS]. Qed.
Lemma grp_out t : nr_groups <= t -> grp t = [].
Proof. intros H. unfold grp. rewrite nth_overflow by exact H. reflexivity. Qed.
Lemma grp_lt t i : In i (grp t) -> t < nr_groups.
Proof. intros H. destruct (Nat.lt_ge_cases t nr_groups) as [L|L]; [exact L|]. rewrite grp_out in H by exact L. destruct H. Qed.
Lemma grp_range t i : In i (grp t) -> i < n.
Proof.
  intros H. assert (In i (seq 0 n)).
  { rewrite <- Hcat. apply in_concat. exists (grp t). split; [|exact H]. rewrite grp_nth. apply nth_In. rewrite map_length. apply (grp_lt _ _ H). }
  apply in_seq in H0. lia.
Qed.
Lemma grp_unique t t' i : In i (grp t) -> In i (grp t') -> t = t'.
Proof.
  intros H H'. destruct (lt_eq_lt_dec t t') as [[L|E]|L]; [|exact E|].
  - pose proof (grp_between _ _ _ _ L H H'). lia.
  - pose proof (grp_between _ _ _ _ L H' H). lia.
Qed.
Lemma grp_cover i : i < n -> exists t, t < nr_groups /\ In i (grp t).
Proof.
  intros H. assert (In i (concat (map snd groups))) as K by (rewrite Hcat; apply in_seq; lia).
  apply in_concat in K as (g & Hg & Hi). apply (In_nth _ _ []) in Hg as (t & Ht & <-). rewrite map_length in Ht.
  exists t. split; [exact Ht|]. rewrite grp_nth. exact Hi.
Qed.
Lemma grp_ne t : t < nr_groups -> grp t <> [].
Proof. intros H. apply Hne. apply nth_In, H. Qed.
Lemma grp_split t : t < nr_groups -> grp t = removelast (grp t) ++ [lst t].
Proof. intros H. apply removelast_last, grp_ne, H. Qed.
Lemma lst_in t : t < nr_groups -> In (lst t) (grp t).
Proof. intros H. rewrite (grp_split t H). apply in_or_app. right. left. reflexivity. Qed.
Lemma nonlast t i : t < nr_groups -> (In i (removelast (grp t)) <-> In i (grp t) /\ i <> lst t).
Proof.
  intros H. pose proof (grp_NoDup t) as N. rewrite (grp_split t H) in N. apply NoDup_remove in N as [_ N]. rewrite app_nil_r in N.
  rewrite (grp_split t H) at 2. rewrite in_app_iff. cbn [In]. split; [|intuition congruence].
  intros K. split; [left; exact K|intros ->; contradiction].
Qed.
Lemma nonlast_in t i : In i (removelast (grp t)) -> In i (grp t).
Proof.
  destruct (Nat.lt_ge_cases t nr_groups) as [L|L]; [intros H; apply (nonlast t i L), H|]. rewrite grp_out by exact L. intros [].
Qed.
Lemma lst_mono t t' : t < t' -> t' < nr_groups -> lst t < lst t'.
Proof. intros H H'. apply (grp_between t t'); [exact H|apply lst_in; lia|apply lst_in; lia]. Qed.
Lemma lst_inj t t' : t < nr_groups -> t' < nr_groups -> lst t = lst t' -> t = t'.
Proof. intros H H' E. apply (grp_unique t t' (lst t)); [apply lst_in, H|rewrite E; apply lst_in, H']. Qed.
Lemma ids_in b t : In t (ids b) <-> t < nr_groups /\ flag t = b.
Proof. unfold ids. rewrite filter_In, in_seq, eqb_true_iff. intuition lia. Qed.
Lemma lim_in t i : In i (lim t) -> In i (grp t).
Proof. unfold lim. destruct (flag t); [auto|apply nonlast_in]. Qed.

Lemma masked_groups_ids b : masked_groups b = map (fun t => map (eye n) (grp t)) (ids b).
Proof.
  unfold masked_groups, CG_adjusting, CG_nonadjusting, ids, grp, flag, as_boolarray, nr_groups. destruct b.
  - rewrite (map_filter_ids (fun t : bool * list nat => map (eye n) (snd t)) _ groups (false, [])). f_equal.
    apply filter_ext. intros t. destruct (fst (nth t groups (false, []))); reflexivity.
  - rewrite (map_filter_ids (fun t : bool * list nat => map (eye n) (snd t)) _ groups (false, [])). apply f_equal.
    apply filter_ext. intros t. destruct (fst (nth t groups (false, []))); reflexivity.
Qed.
Lemma mask_def b : mask b = reduce vor (blank n) (map (last_row n) (masked_groups b)).
Proof. destruct b; reflexivity. Qed.
Lemma mask_rows b : map (last_row n) (masked_groups b) = map (fun t => eye n (lst t)) (ids b).
Proof.
  rewrite masked_groups_ids, map_map. apply map_ext_in. intros t Ht. apply ids_in in Ht as [Ht _].
  unfold last_row. rewrite (last_map (eye n) (grp t) (blank n) 0) by (apply grp_ne, Ht). reflexivity.
Qed.
Lemma mask_spec b i : (nth i (mask b) false = true <-> exists t, In t (ids b) /\ lst t = i) /\ length (mask b) = n.
Proof.
  rewrite mask_def, mask_rows.
  destruct (reduce_vor_nth n (map (fun t => eye n (lst t)) (ids b)) i) as [H1 H2].
  { intros v Hv. apply in_map_iff in Hv as (t & <- & _). apply eye_length. }
  split; [|exact H2]. rewrite H1. split.
  - intros (v & Hv & E). apply in_map_iff in Hv as (t & <- & Ht). rewrite nth_eye in E. apply andb_prop in E as [E _].
    apply Nat.eqb_eq in E. exists t. auto.
  - intros (t & Ht & <-). exists (eye n (lst t)). split; [apply in_map_iff; exists t; split; [reflexivity|exact Ht]|]. rewrite nth_eye, Nat.eqb_refl. cbn [andb].
    apply Nat.ltb_lt. apply ids_in in Ht as [Ht _]. apply (grp_range t), lst_in, Ht.
Qed.
Lemma mask_length b : length (mask b) = n.
Proof. apply (mask_spec b 0). Qed.
Lemma map_lst_SS l : StronglySorted lt l -> (forall t, In t l -> t < nr_groups) -> StronglySorted lt (map lst l).
Proof.
  induction 1 as [|t l Hs IH Hf]; intros Hr; cbn [map]; constructor.
  - apply IH. intros u Hu. apply Hr. right. exact Hu.
  - rewrite Forall_forall in *. intros x Hx. apply in_map_iff in Hx as (u & <- & Hu). apply lst_mono; [apply Hf, Hu|apply Hr; right; exact Hu].
Qed.
Lemma ids_SS b : StronglySorted lt (ids b).
Proof. apply SS_filter, SS_seq. Qed.
Lemma flat_mask b : flatnonzero (mask b) = map lst (ids b).
Proof.
  apply SS_lt_ext; [apply flatnonzero_SS| |].
  - apply map_lst_SS; [apply ids_SS|]. intros t Ht. apply ids_in in Ht. tauto.
  - intros i. rewrite flatnonzero_in. destruct (mask_spec b i) as [-> _]. rewrite in_map_iff. firstorder.
Qed.
Lemma alternatives_ids b : alternatives n (mask b) (masked_groups b) = map (fun t => (lst t, alt t)) (ids b).
Proof.
  unfold alternatives. rewrite flat_mask, masked_groups_ids, map_map.
  rewrite combine_map_both, combine_diag, map_map. apply map_ext. intros t. cbn [fst snd]. unfold alt. rewrite removelast_map. reflexivity.
Qed.
Lemma assoc_alt b t : In t (ids b) -> assoc (alternatives n (mask b) (masked_groups b)) (lst t) = Some (alt t).
Proof.
  intros H. rewrite alternatives_ids. apply ColumnProofs2.assoc_unique.
  - rewrite map_map. cbn [fst]. apply (ScenarioProofs.SS_NoDup lt); [intros x; lia|]. apply map_lst_SS; [apply ids_SS|].
    intros u Hu. apply ids_in in Hu. tauto.
  - apply in_map_iff. exists t. auto.
Qed.
Lemma crit_in b v t : In t (crit b v) <-> t < nr_groups /\ flag t = b /\ nth (lst t) v false = true.
Proof. unfold crit. rewrite filter_In, ids_in. tauto. Qed.
Lemma crit_NoDup b v : NoDup (crit b v).
Proof. apply NoDup_filter. apply (ScenarioProofs.SS_NoDup lt); [intros x; lia|apply ids_SS]. Qed.
Lemma flat_crit b v : length v = n -> flatnonzero (vand v (mask b)) = map lst (crit b v).
Proof.
  intros Hv. apply SS_lt_ext; [apply flatnonzero_SS| |].
  - apply map_lst_SS; [apply SS_filter, ids_SS|]. intros t Ht. apply crit_in in Ht. tauto.
  - intros i. rewrite flatnonzero_in, nth_vand by (rewrite mask_length; exact Hv).
    rewrite andb_true_iff. destruct (mask_spec b i) as [-> _]. rewrite in_map_iff. split.
    + intros (E & t & Ht & <-). exists t. split; [reflexivity|]. apply filter_In. auto.
    + intros (t & <- & Ht). apply filter_In in Ht as [Ht E]. eauto.
Qed.
Lemma nth_cleared b v i : length v = n -> (nth i (cleared b v) false = true <-> nth i v false = true /\ ~ exists t, In t (ids b) /\ lst t = i).
Proof.
  intros Hv. unfold cleared. rewrite nth_vclear, nth_vand by (rewrite ?vand_length, ?mask_length; lia).
  destruct (mask_spec b i) as [M _]. destruct (nth i v false), (nth i (mask b) false); cbn; intuition congruence.
Qed.
Lemma cleared_length b v : length v = n -> length (cleared b v) = n.
Proof. intros Hv. unfold cleared. rewrite vclear_length, vand_length, mask_length. lia. Qed.
Lemma vany_crit b v : length v = n -> (vany (vand v (mask b)) = true <-> crit b v <> []).
Proof.
  intros Hv. rewrite vany_iff. split.
  - intros (i & E). apply flatnonzero_in in E. rewrite (flat_crit b v Hv) in E. intros K. rewrite K in E. destruct E.
  - intros K. destruct (crit b v) as [|t l] eqn:E; [congruence|]. exists (lst t). apply flatnonzero_in. rewrite (flat_crit b v Hv), E. left. reflexivity.
Qed.
Theorem expand_terms b v : length v = n -> crit b v <> [] ->
  expand (mask b) (alternatives n (mask b) (masked_groups b)) v = Some (nested (map alt (crit b v)) (cleared b v) false).
Proof.
  intros Hv Hc. unfold expand. rewrite flat_crit by exact Hv.
  replace (map_opt (assoc (alternatives n (mask b) (masked_groups b))) (map lst (crit b v))) with (Some (map alt (crit b v))).
  - fold (cleared b v). destruct (crit b v) as [|t l] eqn:E; [congruence|]. cbn [map]. f_equal. apply (reduce_nested (cleared b v)).
  - symmetry. apply ScenarioProofs.map_opt_some.
    assert (forall t, In t (crit b v) -> In t (ids b)) by (intros t Ht; apply filter_In in Ht; tauto).
    revert H. generalize (crit b v). clear Hc. induction l as [|t l IH]; intros H; cbn [map]; constructor.
    + apply assoc_alt, H. left. reflexivity.
    + apply IH. intros u Hu. apply H. right. exact Hu.
Qed.
End Groups.
