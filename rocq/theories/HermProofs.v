From Coq Require Import Permutation QArith Qcanon.
From Verif Require Import CanonModel CanonSpec CanonProofs CanonProofs2 PhysSpec PhysProofs PhysProofs2 MemoModel MemoSpec MemoProofs HermModel.
Open Scope nat_scope.

Section H.
Variables (nc ortho : table).
Hypothesis nc_sym : forall a b, nc a b = nc b a.
Notation "u == v" := (proj_eq nc ortho u v) (at level 70).
Notation "u ~ v" := (comm_eq nc u v) (at level 70).

Lemma ce_move_last u a : (forall b, In b u -> nc a b = false) -> a :: u ~ u ++ [a].
Proof. intros H. apply ce_sym. pose proof (ce_move nc nc_sym u a [] H) as K. rewrite app_nil_r in K. exact K. Qed.
Lemma ce_cancel_last a u v : u ++ [a] ~ v ++ [a] -> u ~ v.
Proof.
  intros H. apply (ce_rev nc nc_sym) in H. rewrite !rev_app_distr in H. cbn [rev app] in H. apply (ce_cancel nc nc_sym) in H.
  apply (ce_rev nc nc_sym) in H. rewrite !rev_involutive in H. exact H.
Qed.
(** a product that commutations turn into its own reverse is a square *)
Lemma self_reverse_square n : forall w, length w <= n -> w ~ rev w -> sum_free_square nc ortho w.
Proof.
  induction n as [|n IH]; intros w Ln H.
  - destruct w; [|cbn in Ln; lia]. exists []. split; [intros ? []|apply pe_refl].
  - destruct w as [|a c]; [exists []; split; [intros ? []|apply pe_refl]|]. cbn [rev] in H. cbn [length] in Ln.
    assert (Ex : exists p q, rev c ++ [a] = p ++ a :: q /\ (forall b, In b p -> nc a b = false)).
    { destruct (proj1 (pull_ce_compat nc nc_sym _ _ H a) c (pull_head nc a c)) as (r & Er & _).
      apply pull_split in Er as (p & q & E1 & _ & E3 & _). exists p, q. split; [exact E1|exact E3]. }
    destruct Ex as (p & q & E & Hp). destruct q as [|q0 q] using rev_ind.
    + apply app_inj_tail in E as [E _].
      assert (Hc : forall b, In b c -> nc a b = false) by (intros b Hb; apply Hp; rewrite <- E; apply in_rev; rewrite rev_involutive; exact Hb).
      assert (Hc' : c ~ rev c).
      { apply (ce_cancel nc nc_sym a). eapply ce_trans; [exact H|]. apply ce_sym, ce_move_last. intros b Hb. apply Hc, in_rev, Hb. }
      destruct (IH c ltac:(lia) Hc') as (u & Iu & Eu). exists (u ++ [a]). split.
      * intros x Hx. apply in_app_or in Hx as [Hx|[<-|[]]]; [right; apply Iu, Hx|left; reflexivity].
      * rewrite rev_app_distr. cbn [rev app]. eapply pe_trans; [apply pe_sym, (pe_idem nc ortho [] a c)|]. cbn [app].
        apply (pe_app nc ortho [a] [a] (a :: c) (rev u ++ u ++ [a])); [apply pe_refl|].
        eapply pe_trans; [apply ce_pe, ce_move_last, Hc|]. pose proof (pe_ctx nc ortho [] [a] _ _ Eu) as K. rewrite <- app_assoc in K. exact K.
    + clear IHq. change (a :: q ++ [q0]) with ((a :: q) ++ [q0]) in E. rewrite app_assoc in E. apply app_inj_tail in E as [E <-].
      assert (Ec : c = rev q ++ a :: rev p).
      { rewrite <- (rev_involutive c), E, rev_app_distr. cbn [rev]. rewrite <- app_assoc. reflexivity. }
      set (d := rev q ++ rev p).
      assert (Cd : c ~ d ++ [a]).
      { rewrite Ec. unfold d. rewrite <- app_assoc. apply (ce_app_l nc (rev q)), ce_move_last. intros b Hb. apply Hp, in_rev, Hb. }
      assert (Dd : d ~ rev d).
      { apply (ce_cancel_last a). eapply ce_trans; [apply ce_sym, Cd|]. apply (ce_cancel nc nc_sym a). eapply ce_trans; [exact H|].
        rewrite E. rewrite <- app_assoc. cbn [app]. eapply ce_trans; [apply (ce_move nc nc_sym p a (q ++ [a]) Hp)|].
        unfold d. rewrite rev_app_distr, !rev_involutive, <- app_assoc. apply ce_refl. }
      assert (Ld : length d <= n).
      { pose proof (f_equal (@length nat) Ec) as K. unfold d. rewrite app_length, !rev_length in *. cbn [length] in K. rewrite rev_length in K. lia. }
      destruct (IH d Ld Dd) as (u & Iu & Eu). exists (u ++ [a]). split.
      * intros x Hx. apply in_app_or in Hx as [Hx|[<-|[]]]; [|left; reflexivity]. right. rewrite Ec. apply Iu in Hx. unfold d in Hx.
        apply in_app_or in Hx as [Hx|Hx]; apply in_or_app; [left; exact Hx|right; right; exact Hx].
      * rewrite rev_app_distr. cbn [rev app]. eapply pe_trans; [apply ce_pe, ce_cons, Cd|].
        pose proof (pe_ctx nc ortho [a] [a] _ _ Eu) as K. rewrite <- app_assoc in K. exact K.
Qed.
End H.

Section H2.
Variables (nc ortho : table).
Hypothesis G : good_tables nc ortho.
Theorem hermitian_square w : proj_eq nc ortho (rev w) w -> is_square nc ortho w.
Proof.
  intros H. destruct (F_sound nc ortho G w) as (c & Ec & Pc).
  destruct (list_eq_dec Nat.eq_dec c [0]) as [->|Nz].
  - exists [0]. eapply pe_trans; [exact Pc|]. apply pe_sym, (pe_idem nc ortho [] 0 []).
  - assert (R : reduced nc ortho c) by (apply (canonical_reduced nc ortho false G ltac:(discriminate) w c Ec Nz)).
    assert (E1 : proj_eq nc ortho (rev c) c).
    { eapply pe_trans; [apply (pe_rev nc ortho G), pe_sym, Pc|]. eapply pe_trans; [exact H|exact Pc]. }
    assert (E2 : comm_eq nc c (rev c)).
    { pose proof (proj2 (F_complete nc ortho G (rev c) c) E1) as EF. pose proof (reduced_rev nc ortho G c R) as Rr.
      pose proof (reduced_canon nc ortho false G ltac:(discriminate) _ R) as K1. pose proof (reduced_canon nc ortho false G ltac:(discriminate) _ Rr) as K2.
      apply (canon_complete nc (gt_nc_sym _ _ G)). unfold F in EF. congruence. }
    destruct (self_reverse_square nc ortho (gt_nc_sym _ _ G) (length c) c (le_n _) E2) as (u & _ & Eu).
    exists u. eapply pe_trans; eassumption.
Qed.
End H2.

From Verif Require Import ScenarioModel ScenarioSpec SymModel SymSpec SymProofs ColumnModel ColumnSpec ColumnProofs ColumnProofs3 ScenarioProofs.
Section H3.
Variables (sc : scenario) (commuting : bool).
Hypothesis W : wf_scenario sc.
Let nc := sdp_notcomm sc.
Let ortho := sdp_orthomat sc.
Let L := S (length (lexorder sc)).
Let syms := sdp_lexorder_symmetries sc.
Hypothesis Hc : commuting = true -> forall a b, nc a b = false.
Let G : good_tables nc ortho := scenario_good_tables sc W.
Let OS := scenario_symmetries sc W.
Notation inv := (MemoProofs.inv nc ortho commuting L syms).
Lemma all_commute_rev w : (forall a b, In a w -> In b w -> nc a b = false) -> comm_eq nc w (rev w).
Proof. intros H. apply commuting_perm_ce; [apply Permutation_rev|exact H]. Qed.
Lemma is_hermitian_ok w m : inv m -> reduced nc ortho w -> in_range L w -> is_representative nc syms w w ->
  exists b m', is_hermitian nc ortho commuting syms w m = Some (b, m') /\ inv m' /\
    (b = true <-> exists g, In g syms /\ comm_eq nc (apply_lexsym g w) (rev w)).
Proof.
  intros I R Rg Rep. unfold is_hermitian.
  destruct (memo_conj_ok nc ortho commuting L syms G Hc OS w m I) as (r & m' & E & I' & A); [right; right; auto|].
  rewrite E. exists (word_eqb w r), m'. split; [reflexivity|]. split; [exact I'|]. rewrite word_eqb_true.
  cbn [right_answer] in A. destruct A as [[A ->]|[_ A]].
  - split; [intros _|reflexivity]. exists (seq 0 L). split; [eapply id_in'; eauto|]. rewrite apply_id by exact Rg. apply all_commute_rev, A.
  - apply (rep_iff nc ortho L syms OS w (rev w) w r); auto. intros x Hx. apply Rg, in_rev, Hx.
Qed.
Lemma all_hermitian_ok fs : forall m, inv m -> (forall w, In w fs -> reduced nc ortho w /\ in_range L w /\ is_representative nc syms w w) ->
  exists b m', all_hermitian nc ortho commuting syms fs m = Some (b, m') /\ inv m' /\
    (b = true <-> forall w, In w fs -> exists g, In g syms /\ comm_eq nc (apply_lexsym g w) (rev w)).
Proof.
  induction fs as [|w fs IH]; intros m I H; [exists true, m; cbn; split; [reflexivity|]; split; [exact I|]; split; [intros _ w []|reflexivity]|].
  destruct (H w (or_introl eq_refl)) as (H1 & H2 & H3). destruct (is_hermitian_ok w m I H1 H2 H3) as (b & m1 & E & I1 & B).
  cbn [all_hermitian]. rewrite E. destruct b.
  - destruct (IH m1 I1) as (b & m2 & E2 & I2 & B2); [intros; apply H; right; assumption|]. rewrite E2. exists b, m2. split; [reflexivity|]. split; [exact I2|].
    rewrite B2. split; [intros K x [<-|Hx]; [apply B; reflexivity|apply K, Hx]|intros K x Hx; apply K; right; exact Hx].
  - exists false, m1. split; [reflexivity|]. split; [exact I1|]. split; [discriminate|]. intros K. apply B, K. left. reflexivity.
Qed.
Lemma lower_bounded_ok ms : forall m, inv m ->
  (forall fs w, In fs ms -> In w fs -> reduced nc ortho w /\ in_range L w /\ is_representative nc syms w w) ->
  exists l m', lower_bounded nc ortho commuting syms false ms m = Some (l, m') /\ inv m' /\
    forall fs, In fs l <-> In fs ms /\ forall w, In w fs -> exists g, In g syms /\ comm_eq nc (apply_lexsym g w) (rev w).
Proof.
  induction ms as [|f ms IH]; intros m I H; [exists [], m; cbn; split; [reflexivity|]; split; [exact I|]; intros fs; tauto|].
  destruct (all_hermitian_ok f m I) as (b & m1 & E & I1 & B); [intros w Hw; apply (H f w); [left; reflexivity|exact Hw]|].
  destruct (IH m1 I1) as (l & m2 & E2 & I2 & B2); [intros fs w Hf Hw; apply (H fs w); [right; exact Hf|exact Hw]|].
  cbn [lower_bounded]. rewrite E, E2. eexists; exists m2. split; [reflexivity|]. split; [exact I2|]. intros fs. destruct b.
  - cbn [In]. rewrite B2. split.
    + intros [<-|[K1 K2]]; [split; [left; reflexivity|apply B; reflexivity]|split; [right; exact K1|exact K2]].
    + intros [[<-|K1] K2]; [left; reflexivity|right; split; assumption].
  - rewrite B2. cbn [In]. split; [tauto|]. intros [[<-|K1] K2]; [|tauto]. exfalso. apply B in K2. discriminate.
Qed.
(** with a single copy of every source there is no other symmetry than the identity *)
Lemma no_copies : (forall n, In n (levels sc) -> n = 1) -> forall g w, In g syms -> in_range L w -> apply_lexsym g w = w.
Proof.
  intros H1 g w Hg Hw. unfold syms, sdp_lexorder_symmetries in Hg. apply in_map_iff in Hg as (h & <- & Hh).
  apply discover_exact in Hh as (sg & R & (Lh & In')); [|exact W]. unfold apply_lexsym. rewrite <- (map_id w) at 2. apply map_ext_in.
  intros x Hx. specialize (Hw x Hx). destruct x as [|x]; [reflexivity|]. cbn [nth]. unfold L in Hw.
  destruct (lexorder_parts sc x W ltac:(lia)) as (p & c & s & o & E & V).
  destruct (In' x _ _ _ _ E) as (j & Ej & Erow).
  assert (Ec : relabel sg c = c).
  { destruct V as (_ & Lc & V & _). unfold relabel. apply nth_ext with (d := 0) (d' := 0); [rewrite map_length, seq_length; reflexivity|].
    intros k Hk. rewrite map_length, seq_length in Hk. rewrite nth_indep with (d' := sg 0 (nth 0 c 0)) by (rewrite map_length, seq_length; exact Hk).
    rewrite (map_nth (fun k => sg k (nth k c 0))), seq_nth by exact Hk. cbn [Nat.add]. rewrite Lc in Hk.
    destruct (R k Hk) as (R0 & R1 & _).
    assert (Lv : nth k (levels sc) 0 = 1) by (apply H1, nth_In; rewrite (wf_levels sc W); exact Hk).
    destruct (nth_error (sources sc) k) as [src|] eqn:Es; [|apply nth_error_None in Es; unfold nr_sources in Hk; lia].
    rewrite Lv in R1. destruct (V k src Es) as [V1 V2]. rewrite Lv in V1.
    destruct (Nat.eq_dec (nth k c 0) 0) as [->|N]; [exact R0|].
    assert (nth k c 0 = 1) as ->.
    { pose proof (hypergraph_reaches sc k p src Es) as HR. destruct (hypergraph sc k p); [specialize (V1 (proj1 HR eq_refl)); lia|]. assert (D : ~ reaches src p) by (intros D; apply HR in D; discriminate). specialize (V2 D). lia. }
    specialize (R1 1 ltac:(lia)). lia. }
  rewrite Ec in Erow. assert (x = j) as <-.
  { apply (proj1 (NoDup_nth_error (lexorder sc)) (lexorder_NoDup sc W)); [apply nth_error_Some; congruence|congruence]. }
  rewrite (nth_indep _ 0 (S 0)) by (rewrite map_length; lia). rewrite (map_nth S). f_equal. apply nth_error_nth, Ej.
Qed.
End H3.
