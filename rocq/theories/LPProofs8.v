(** Proofs about the generated linear programme: the programme of a scenario. *)
From Coq Require Import Permutation Sorted.
From Verif Require Import ScenarioSpec SymModel SymSpec LPModel LPSpec CliqueSpec LPProofs2.
From Verif Require ScenarioProofs SymProofs.
Close Scope Q_scope. Close Scope Qc_scope. Open Scope nat_scope.

Lemma blocks_concat sizes : forall off, concat (blocks off sizes) = seq off (fold_right Nat.add 0 sizes).
Proof. induction sizes as [|s r IH]; intros off; cbn; [reflexivity|]. rewrite IH. symmetry. apply seq_app. Qed.
Lemma blocks_length sizes : forall off, length (blocks off sizes) = length sizes.
Proof. induction sizes as [|s r IH]; intros off; cbn; [reflexivity|]. rewrite IH. reflexivity. Qed.
Lemma length_concat_sum {A} (L : list (list A)) : length (concat L) = fold_right Nat.add 0 (map (@length A) L).
Proof. induction L as [|l L IH]; cbn; [reflexivity|]. rewrite app_length, IH. reflexivity. Qed.
Lemma blocks_nth {A} (L : list (list A)) : forall off t, t < length L ->
  nth t (blocks off (map (@length A) L)) [] = seq (off + length (concat (firstn t L))) (length (nth t L [])).
Proof.
  induction L as [|l L IH]; intros off t Ht; cbn in Ht; [lia|]. destruct t as [|t]; cbn; [rewrite Nat.add_0_r; reflexivity|].
  rewrite IH by lia. f_equal. rewrite app_length. lia.
Qed.
Lemma concat_nth {A} (L : list (list A)) : forall t o, t < length L -> o < length (nth t L []) ->
  nth_error (concat L) (length (concat (firstn t L)) + o) = nth_error (nth t L []) o.
Proof.
  induction L as [|l L IH]; intros t o Ht Ho; cbn in Ht; [lia|]. destruct t as [|t]; cbn in *.
  - apply nth_error_app1, Ho.
  - rewrite app_length, <- Nat.add_assoc, nth_error_app2 by lia. replace (length l + _ - length l) with (length (concat (firstn t L)) + o) by lia. apply IH; lia.
Qed.
Lemma flat_map_const_length {A B} (f : A -> list B) l : length (flat_map f l) = fold_right Nat.add 0 (map (fun x => length (f x)) l).
Proof. induction l as [|x l IH]; cbn; [reflexivity|]. rewrite app_length, IH. reflexivity. Qed.

Section Scenario.
Variable sc : scenario.
Hypothesis W : wf_scenario sc.
Hypothesis Hout : forall o, In o (outcomes sc) -> 1 <= o.
Variable all_outcomes : bool.
Local Notation groups := (tagged_groups sc all_outcomes).
Local Notation n := (length (lexorder sc)).

(** the measurement of a party, with its copies and setting *)
Lemma paired : exists ms : list (nat * list nat * nat),
  group_parties sc = map (fun m => fst (fst m)) ms /\
  ortho_groups sc = map (fun m => map (fun o => mkrow (fst (fst m) + 1) (snd (fst m)) (snd m) o) (seq 0 (nth (fst (fst m)) (outcomes sc) 0))) ms /\
  forall p c s, In (p, c, s) ms <-> p < nr_parties sc /\ In c (inflation_indices sc p) /\ s < nr_settings sc p.
Proof.
  exists (flat_map (fun p => flat_map (fun c => map (fun s => (p, c, s)) (seq 0 (nr_settings sc p))) (inflation_indices sc p)) (seq 0 (nr_parties sc))).
  split; [|split].
  - unfold group_parties. induction (seq 0 (nr_parties sc)) as [|p ps IH]; [reflexivity|]. cbn [flat_map]. rewrite map_app, <- IH. f_equal.
    unfold ortho_groups_of_party. induction (inflation_indices sc p) as [|c cs IHc]; [reflexivity|]. cbn [flat_map]. rewrite !map_app, IHc. f_equal. rewrite !map_map. reflexivity.
  - unfold ortho_groups. induction (seq 0 (nr_parties sc)) as [|p ps IH]; [reflexivity|]. cbn [flat_map]. rewrite map_app, <- IH. f_equal.
    unfold ortho_groups_of_party. induction (inflation_indices sc p) as [|c cs IHc]; [reflexivity|]. cbn [flat_map]. rewrite !map_app, IHc. f_equal. rewrite !map_map. reflexivity.
  - intros p c s. rewrite in_flat_map. split.
    + intros (p' & Hp & H). apply in_flat_map in H as (c' & Hc & H). apply in_map_iff in H as (s' & [= <- <- <-] & Hs). apply in_seq in Hp, Hs. repeat split; try lia; assumption.
    + intros (Hp & Hc & Hs). exists p. split; [apply in_seq; lia|]. apply in_flat_map. exists c. split; [exact Hc|]. apply in_map_iff. exists s. split; [reflexivity|]. apply in_seq. lia.
Qed.
Lemma parties_length : length (group_parties sc) = length (ortho_idxs sc).
Proof. destruct paired as (ms & E1 & E2 & _). unfold ortho_idxs. rewrite blocks_length, map_length, E1, E2, !map_length. reflexivity. Qed.
Lemma snd_groups : map snd groups = ortho_idxs sc.
Proof.
  pose proof parties_length as H. unfold tagged_groups. revert H. generalize (group_parties sc), (ortho_idxs sc).
  induction l as [|p l IH]; intros [|b bs] H; try discriminate; [reflexivity|]. cbn. f_equal. apply IH. cbn in H. lia.
Qed.
Lemma groups_cat : concat (map snd groups) = seq 0 n.
Proof. rewrite snd_groups. unfold ortho_idxs, lexorder. rewrite blocks_concat, length_concat_sum. reflexivity. Qed.
Lemma nr_groups_eq : length groups = length (ortho_groups sc).
Proof. rewrite <- (map_length snd), snd_groups. unfold ortho_idxs. rewrite blocks_length, map_length. reflexivity. Qed.

(** what the t-th group is *)
Definition measures (t p : nat) (c : list nat) (s : nat) : Prop :=
  t < length groups /\ p < nr_parties sc /\ In c (inflation_indices sc p) /\ s < nr_settings sc p /\
  nth t groups (false, []) = (has_children sc all_outcomes p, seq (hd 0 (grp groups t)) (nth p (outcomes sc) 0)) /\
  forall o, o < nth p (outcomes sc) 0 -> nth_error (lexorder sc) (hd 0 (grp groups t) + o) = Some (mkrow (p + 1) c s o).
Lemma positive p : p < nr_parties sc -> 1 <= nth p (outcomes sc) 0.
Proof. intros H. apply Hout. apply nth_In. exact H. Qed.
Lemma combine_nth_lt {A B} (l : list A) (l' : list B) k a b : length l = length l' -> nth k (combine l l') (a, b) = (nth k l a, nth k l' b).
Proof. apply combine_nth. Qed.
Lemma measures_nth ms k p c s : group_parties sc = map (fun m => fst (fst m)) ms ->
  ortho_groups sc = map (fun m => map (fun o => mkrow (fst (fst m) + 1) (snd (fst m)) (snd m) o) (seq 0 (nth (fst (fst m)) (outcomes sc) 0))) ms ->
  (forall p c s, In (p, c, s) ms <-> p < nr_parties sc /\ In c (inflation_indices sc p) /\ s < nr_settings sc p) ->
  nth_error ms k = Some (p, c, s) -> measures k p c s.
Proof.
  intros E1 E2 E3 Hk. assert (Hin : In (p, c, s) ms) by (eapply nth_error_In, Hk). apply E3 in Hin as (Hp & Hc & Hs).
  assert (L : k < length ms) by (apply nth_error_Some; congruence).
  assert (Hl : length groups = length ms) by (rewrite nr_groups_eq, E2, map_length; reflexivity).
  assert (Hg : nth k (ortho_groups sc) [] = map (fun o => mkrow (p + 1) c s o) (seq 0 (nth p (outcomes sc) 0))).
  { apply nth_error_nth. rewrite E2. erewrite map_nth_error by exact Hk. reflexivity. }
  assert (Hb : nth k (ortho_idxs sc) [] = seq (length (concat (firstn k (ortho_groups sc)))) (nth p (outcomes sc) 0)).
  { unfold ortho_idxs. rewrite blocks_nth by (rewrite E2, map_length; exact L). rewrite Hg, map_length, seq_length. reflexivity. }
  assert (Hn : nth k groups (false, []) = (has_children sc all_outcomes p, nth k (ortho_idxs sc) [])).
  { unfold tagged_groups. rewrite (nth_indep _ _ (has_children sc all_outcomes 0, [])).
    - rewrite combine_nth by (rewrite map_length; apply parties_length). f_equal. rewrite map_nth. f_equal.
      apply nth_error_nth. rewrite E1. erewrite map_nth_error by exact Hk. reflexivity.
    - unfold tagged_groups in Hl. rewrite Hl. exact L. }
  pose proof (positive p Hp) as Pos.
  assert (Hh : hd 0 (grp groups k) = length (concat (firstn k (ortho_groups sc)))).
  { unfold grp. rewrite Hn. cbn [snd]. rewrite Hb. destruct (nth p (outcomes sc) 0); [lia|reflexivity]. }
  split; [rewrite Hl; exact L|]. split; [exact Hp|]. split; [exact Hc|]. split; [exact Hs|]. split.
  - rewrite Hn, Hh, Hb. reflexivity.
  - intros o Ho. rewrite Hh. unfold lexorder. rewrite concat_nth by (try (rewrite E2, map_length; exact L); rewrite Hg, map_length, seq_length; exact Ho).
    rewrite Hg. rewrite (map_nth_error _ _ _ (d := o)); [reflexivity|]. rewrite (nth_error_nth' _ 0) by (rewrite seq_length; exact Ho). rewrite seq_nth by exact Ho. reflexivity.
Qed.
Lemma measures_exists t : t < length groups -> exists p c s, measures t p c s.
Proof.
  intros Ht. destruct paired as (ms & E1 & E2 & E3). destruct (nth_error ms t) as [[[p c] s]|] eqn:E.
  - exists p, c, s. eapply measures_nth; eassumption.
  - exfalso. apply nth_error_None in E. rewrite nr_groups_eq, E2, map_length in Ht. lia.
Qed.
Lemma measures_onto p c s : p < nr_parties sc -> In c (inflation_indices sc p) -> s < nr_settings sc p -> exists t, measures t p c s.
Proof.
  intros Hp Hc Hs. destruct paired as (ms & E1 & E2 & E3). assert (H : In (p, c, s) ms) by (apply E3; auto).
  apply In_nth_error in H as (t & Ht). exists t. eapply measures_nth; eassumption.
Qed.
Lemma measures_grp t p c s : measures t p c s -> grp groups t = seq (hd 0 (grp groups t)) (nth p (outcomes sc) 0).
Proof. intros (_ & _ & _ & _ & H & _). unfold grp at 1. rewrite H. reflexivity. Qed.

Lemma groups_ne : forall t, In t groups -> snd t <> [].
Proof.
  intros t Ht. apply (In_nth _ _ (false, [])) in Ht as (k & Hk & <-). destruct (measures_exists k Hk) as (p & c & s & M).
  pose proof M as (_ & Hp & _). pose proof (positive p Hp) as Pos. fold (grp groups k). rewrite (measures_grp k p c s M). destruct (nth p (outcomes sc) 0); [lia|discriminate].
Qed.
Lemma template_hd t : t < length groups -> nth t (template_idxs sc) 0 = hd 0 (grp groups t).
Proof.
  intros Ht. unfold template_idxs. rewrite (nth_indep _ 0 (hd 0 [])) by (rewrite map_length, <- snd_groups, map_length; exact Ht).
  rewrite (map_nth (hd 0)). f_equal. rewrite <- snd_groups. unfold grp. rewrite (nth_indep _ [] (snd (false, @nil nat))) by (rewrite map_length; exact Ht). apply map_nth.
Qed.
Lemma compat_rule t u p c s p' c' s' : measures t p c s -> measures u p' c' s' -> (compatible sc t u = true <-> commute_rule sc p c s p' c' s').
Proof.
  intros M M'. pose proof M as (Ht & Hp & _ & _ & _ & R). pose proof M' as (Hu & Hp' & _ & _ & _ & R'). unfold compatible. rewrite negb_true_iff, !template_hd by assumption.
  apply (ScenarioProofs.default_notcomm_spec sc _ _ p c s 0 p' c' s' 0 W).
  - rewrite <- (Nat.add_0_r (hd 0 _)). apply R. pose proof (positive p Hp). lia.
  - rewrite <- (Nat.add_0_r (hd 0 _)). apply R'. pose proof (positive p' Hp'). lia.
Qed.
Lemma compat_und : undirected (nr_groups groups) (compatible sc).
Proof. intros x y _ _. unfold compatible. rewrite ScenarioProofs.default_notcomm_sym. reflexivity. Qed.
Lemma image_group g t p c s sg : is_relabelling sc sg -> induces sc sg g -> measures t p c s ->
  exists t', measures t' p (relabel sg c) s /\ map (fun k => nth k g 0) (grp groups t) = grp groups t'.
Proof.
  intros R [Lg I] M. pose proof M as (Ht & Hp & Hc & Hs & _ & Rows). pose proof (positive p Hp) as Pos.
  assert (V : valid_operator sc p c s 0).
  { assert (K : In (mkrow (p + 1) c s 0) (lexorder sc)) by (eapply nth_error_In, (Rows 0), Pos). apply (ScenarioProofs.lexorder_in sc _ W) in K as (p' & c' & s' & o' & E & V).
    pose proof (f_equal row_party E) as E1. pose proof (f_equal row_copies E) as E2. pose proof (f_equal row_setting E) as E3. pose proof (f_equal row_outcome E) as E4.
    rewrite !ScenarioProofs.mkrow_party in E1. rewrite !ScenarioProofs.mkrow_copies in E2. rewrite !ScenarioProofs.mkrow_setting in E3. rewrite !ScenarioProofs.mkrow_outcome in E4.
    assert (p = p') by lia. subst. exact V. }
  apply (SymProofs.valid_relabel sc sg) in V; [|exact W|exact R]. pose proof V as (_ & V2 & V3 & _).
  destruct (measures_onto p (relabel sg c) s Hp) as (t' & M'); [apply ScenarioProofs.inflation_indices_in; auto|exact Hs|].
  exists t'. split; [exact M'|]. rewrite (measures_grp t p c s M), (measures_grp t' p _ s M'). pose proof M' as (_ & _ & _ & _ & _ & Rows').
  rewrite <- (Nat.add_0_r (hd 0 (grp groups t))), <- (Nat.add_0_r (hd 0 (grp groups t'))).
  assert (K : forall m a, a + m <= nth p (outcomes sc) 0 -> map (fun k => nth k g 0) (seq (hd 0 (grp groups t) + a) m) = seq (hd 0 (grp groups t') + a) m).
  { induction m as [|m IH]; intros a Ha; [reflexivity|]. cbn [seq map]. rewrite <- !Nat.add_succ_r, IH by lia. f_equal.
    destruct (I _ _ _ _ _ (Rows a ltac:(lia))) as (j & J1 & J2). rewrite (nth_error_nth _ _ _ J1). 
    apply (proj1 (NoDup_nth_error (lexorder sc)) (ScenarioProofs.lexorder_NoDup sc W)); [apply nth_error_Some; congruence|]. rewrite J2, Rows' by lia. reflexivity. }
  apply K. lia.
Qed.
Lemma scenario_symmetries : symmetry_group n groups (compatible sc) (discover_lexorder_symmetries sc).
Proof.
  constructor.
  - destruct (SymProofs.discover_head sc) as (t & ->). reflexivity.
  - intros g Hg. apply SymProofs.discover_exact in Hg as (sg & R & I); [|exact W]. pose proof (SymProofs.induces_perm sc sg g W R I) as P. split; [apply I|]. split.
    + intros i Hi. apply (Permutation_in _ P) in Hi. apply in_seq in Hi. lia.
    + apply (Permutation_NoDup (Permutation_sym P)), seq_NoDup.
  - intros g h Hg Hh. apply SymProofs.discover_closed; assumption.
  - intros g Hg. destruct (SymProofs.discover_inverse sc g W Hg) as (h & Hh & _ & E). exists h. split; [exact Hh|exact E].
  - intros g t Hg Ht. apply SymProofs.discover_exact in Hg as (sg & R & I); [|exact W]. destruct (measures_exists t Ht) as (p & c & s & M).
    destruct (image_group g t p c s sg R I M) as (t' & M' & E). exists t'. split; [apply M'|]. split; [|exact E].
    destruct M as (_ & _ & _ & _ & M & _), M' as (_ & _ & _ & _ & M' & _). rewrite M, M'. reflexivity.
  - intros g t u t' u' Hg Ht Hu Ht' Hu' Et Eu. apply SymProofs.discover_exact in Hg as (sg & R & I); [|exact W].
    unfold compatible. f_equal. rewrite !template_hd by assumption. unfold grp. rewrite <- Et, <- Eu.
    assert (K : forall t, t < length groups -> hd 0 (map (fun k => nth k g 0) (snd (nth t groups (false, [])))) = nth (hd 0 (snd (nth t groups (false, [])))) g 0 /\ hd 0 (snd (nth t groups (false, []))) < n).
    { clear - W Hout. intros t Ht. pose proof (groups_ne _ (nth_In _ (false, []) Ht)) as N. 
      assert (In (hd 0 (snd (nth t groups (false, [])))) (seq 0 n)).
      { rewrite <- groups_cat. apply in_concat. exists (snd (nth t groups (false, []))). split; [apply in_map, nth_In, Ht|]. destruct (snd (nth t groups (false, []))); [congruence|left; reflexivity]. }
      apply in_seq in H. split; [|lia]. destruct (snd (nth t groups (false, []))); [congruence|reflexivity]. }
    destruct (K t Ht) as [-> K1], (K u Hu) as [-> K2]. symmetry. apply (SymProofs.notcomm_invariant sc sg g); assumption.
Qed.
Lemma scenario_syms_ne : discover_lexorder_symmetries sc <> [].
Proof. destruct (SymProofs.discover_head sc) as (t & ->). discriminate. Qed.
Lemma scenario_no_symmetry : existsb (fun l => negb (l - 1 =? 0)) (levels sc) = false -> discover_lexorder_symmetries sc = [seq 0 n].
Proof.
  intros H. unfold discover_lexorder_symmetries. replace (sources_with_copies sc) with (@nil nat); [reflexivity|]. symmetry. unfold sources_with_copies.
  assert (K : forall s, In s (seq 0 (length (levels sc))) -> (1 <? nth s (levels sc) 0) = false).
  { intros s Hs. apply in_seq in Hs. apply Nat.ltb_ge. assert (E : negb (nth s (levels sc) 0 - 1 =? 0) = false).
    { destruct (negb (nth s (levels sc) 0 - 1 =? 0)) eqn:E; [|reflexivity]. exfalso. rewrite <- not_true_iff_false in H. apply H. apply existsb_exists.
      exists (nth s (levels sc) 0). split; [apply nth_In; lia|exact E]. }
    apply negb_false_iff, Nat.eqb_eq in E. lia. }
  revert K. generalize (seq 0 (length (levels sc))). induction l as [|s l IH]; intros K; [reflexivity|]. cbn [filter]. rewrite K by (left; reflexivity). apply IH. intros u Hu. apply K. right. exact Hu.
Qed.
End Scenario.
