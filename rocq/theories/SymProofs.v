From Coq Require Import Permutation.
From Verif Require Import CanonModel CanonSpec ScenarioModel ScenarioSpec SymModel SymSpec ScenarioProofs.

(** ** itertools.permutations *)
Lemma picks_in {A} (l : list A) x r : In (x, r) (picks l) -> Permutation l (x :: r).
Proof.
  revert x r. induction l as [|y l IH]; intros x r H; [destruct H|].
  destruct H as [[= -> ->]|H]; [reflexivity|]. apply in_map_iff in H as ((x' & r') & [= <- <-] & H).
  apply IH in H. cbn. rewrite H. apply perm_swap.
Qed.
Lemma picks_ex {A} (l : list A) x : In x l -> exists r, In (x, r) (picks l).
Proof.
  induction l as [|y l IH]; intros []; [subst; eexists; left; reflexivity|].
  destruct (IH H) as [r Hr]. exists (y :: r). right. apply in_map_iff. exists (x, r). auto.
Qed.
Lemma permutations_fuel_in {A} n : forall (l p : list A), length l = n ->
  (In p (permutations_fuel n l) <-> Permutation p l).
Proof.
  induction n as [|n IH]; intros l p Hl; cbn [permutations_fuel].
  - destruct l; [|discriminate]. split; [intros [<-|[]]; reflexivity|]. intros H. apply Permutation_sym, Permutation_nil in H. left; auto.
  - rewrite in_flat_map. split.
    + intros ((x & r) & H1 & H2). apply picks_in in H1. apply in_map_iff in H2 as (p' & <- & H2).
      apply IH in H2; [|apply Permutation_length in H1; cbn in *; lia]. cbn [fst]. rewrite H1, H2. reflexivity.
    + intros H. destruct p as [|x p]; [apply Permutation_nil in H; subst; discriminate|].
      destruct (picks_ex l x) as [r Hr]; [apply (Permutation_in x H); left; reflexivity|].
      exists (x, r). split; [exact Hr|]. apply in_map_iff. exists p. split; [reflexivity|].
      apply picks_in in Hr. apply IH; [apply Permutation_length in Hr; cbn in Hr; cbn; lia|].
      cbn. apply (Permutation_cons_inv (a := x)). rewrite H, Hr. reflexivity.
Qed.
Lemma permutations_in {A} (l p : list A) : In p (permutations l) <-> Permutation p l.
Proof. apply permutations_fuel_in. reflexivity. Qed.
Lemma permutations_fuel_hd {A} n : forall (l : list A), length l = n -> exists t, permutations_fuel n l = l :: t.
Proof.
  induction n as [|n IH]; intros l Hl; cbn [permutations_fuel].
  - destruct l; [|discriminate]. eauto.
  - destruct l as [|x l]; [discriminate|]. cbn [picks flat_map fst snd]. destruct (IH l) as [t ->]; [cbn in Hl; lia|].
    cbn [map app]. eauto.
Qed.
Lemma permutations_hd {A} (l : list A) : exists t, permutations l = l :: t.
Proof. apply permutations_fuel_hd. reflexivity. Qed.

(** ** relabelling *)
Lemma relabel_length sg c : length (relabel sg c) = length c.
Proof. unfold relabel. rewrite map_length, seq_length. reflexivity. Qed.
Lemma nth_relabel sg c k : k < length c -> nth k (relabel sg c) 0 = sg k (nth k c 0).
Proof.
  intros H. unfold relabel. rewrite nth_indep with (d' := sg 0 (nth 0 c 0)) by (rewrite map_length, seq_length; exact H).
  rewrite (map_nth (fun k => sg k (nth k c 0)) (seq 0 (length c)) 0). rewrite seq_nth by exact H. reflexivity.
Qed.
Lemma list_ext (a b : list nat) : length a = length b -> (forall k, k < length a -> nth k a 0 = nth k b 0) -> a = b.
Proof. intros. eapply nth_ext; eauto. Qed.
Lemma relabel_ext sg tau c : (forall k, k < length c -> sg k (nth k c 0) = tau k (nth k c 0)) -> relabel sg c = relabel tau c.
Proof. intros H. unfold relabel. apply map_ext_in. intros k Hk. apply in_seq in Hk. apply H. lia. Qed.
Lemma relabel_comp sg tau c : relabel sg (relabel tau c) = relabel (fun k x => sg k (tau k x)) c.
Proof.
  apply list_ext; rewrite !relabel_length; [reflexivity|]. intros k Hk.
  rewrite !nth_relabel by (rewrite ?relabel_length; exact Hk). reflexivity.
Qed.
Lemma relabel_id c : relabel (fun _ x => x) c = c.
Proof. apply list_ext; rewrite relabel_length; [reflexivity|]. intros k Hk. apply nth_relabel, Hk. Qed.

Definition relabel_row (sg : relabelling) (r : row) : row :=
  mkrow (row_party r) (relabel sg (row_copies r)) (row_setting r) (row_outcome r).
Lemma relabel_mkrow sg p c s o : relabel_row sg (mkrow p c s o) = mkrow p (relabel sg c) s o.
Proof. unfold relabel_row. rewrite mkrow_party, mkrow_copies, mkrow_setting, mkrow_outcome. reflexivity. Qed.

Lemma valid_copy sc p c s o k : wf_scenario sc -> valid_operator sc p c s o -> k < nr_sources sc ->
  nth k c 0 <= nth k (levels sc) 0.
Proof.
  intros W (_ & L & H & _) Hk. destruct (nth_error (sources sc) k) as [src|] eqn:E.
  - destruct (H k src E) as [H1 H2]. destruct (hypergraph sc k p) eqn:G.
    + apply (hypergraph_reaches sc k p src E) in G. apply H1 in G. lia.
    + rewrite H2; [lia|]. intros R. apply (hypergraph_reaches sc k p src E) in R. congruence.
  - apply nth_error_None in E. unfold nr_sources in Hk. lia.
Qed.
Lemma valid_relabel sc sg p c s o : wf_scenario sc -> is_relabelling sc sg ->
  valid_operator sc p c s o -> valid_operator sc p (relabel sg c) s o.
Proof.
  intros W R (V1 & V2 & V3 & V4 & V5). split; [exact V1|]. split; [rewrite relabel_length; exact V2|].
  split; [|auto]. intros k src H. destruct (V3 k src H) as [H1 H2].
  assert (Hk : k < nr_sources sc) by (unfold nr_sources; apply nth_error_Some; congruence).
  rewrite nth_relabel by lia. destruct (R k Hk) as (R1 & R2 & _). split; intros Hr.
  - apply R2, H1, Hr.
  - rewrite (H2 Hr). exact R1.
Qed.
Lemma relabel_inj sc sg c c' : is_relabelling sc sg -> length c = nr_sources sc -> length c' = nr_sources sc ->
  (forall k, k < nr_sources sc -> nth k c 0 <= nth k (levels sc) 0) ->
  (forall k, k < nr_sources sc -> nth k c' 0 <= nth k (levels sc) 0) ->
  forall k, k < nr_sources sc -> (nth k (relabel sg c) 0 = nth k (relabel sg c') 0 <-> nth k c 0 = nth k c' 0).
Proof.
  intros R L L' B B' k Hk. rewrite !nth_relabel by lia. split; [|congruence]. intros E.
  destruct (R k Hk) as (R0 & R1 & R2). specialize (B k Hk). specialize (B' k Hk).
  destruct (nth k c 0) as [|x] eqn:Ex, (nth k c' 0) as [|y] eqn:Ey; auto.
  - rewrite R0 in E. specialize (R1 (S y) ltac:(lia)). lia.
  - rewrite R0 in E. specialize (R1 (S x) ltac:(lia)). lia.
  - apply R2; auto; lia.
Qed.

Lemma induces_lexrepr sc sg g : wf_scenario sc ->
  (induces sc sg g <-> mon_to_lexrepr sc (map (relabel_row sg) (lexorder sc)) = Some g).
Proof.
  intros W. rewrite lexrepr_roundtrip by exact W. unfold induces. split.
  - intros [L H].
    assert (forall a lex, nth_error (lexorder sc) = nth_error (lexorder sc) ->
       length lex = length (skipn a g) ->
       (forall i r, nth_error lex i = Some r -> exists j, nth_error g (a + i) = Some j /\ nth_error (lexorder sc) j = Some (relabel_row sg r)) ->
       Forall2 (fun op k => nth_error (lexorder sc) k = Some op) (map (relabel_row sg) lex) (skipn a g)) as K.
    { intros a lex _. revert a. induction lex as [|r lex IH]; intros a Ha Hl.
      - destruct (skipn a g); [constructor|discriminate].
      - destruct (Hl 0 r eq_refl) as (j & Hj & Hr). rewrite Nat.add_0_r in Hj.
        assert (E : skipn a g = j :: skipn (S a) g).
        { clear -Hj. revert a Hj. induction g as [|y g IHg]; intros [|a] Hj; try discriminate; cbn in Hj.
          - injection Hj as ->. reflexivity.
          - cbn [skipn]. rewrite (IHg a Hj). destruct g; reflexivity. }
        rewrite E. cbn [map]. constructor; [exact Hr|]. apply IH.
        + rewrite E in Ha. cbn in Ha. injection Ha as Ha. exact Ha.
        + intros i r' Hi. replace (S a + i) with (a + S i) by lia. apply Hl. exact Hi. }
    apply (K 0 (lexorder sc) eq_refl); [cbn; auto|]. intros i r Hr.
    destruct (lexorder_nth sc i r W Hr) as (p & c & s & o & -> & _). rewrite relabel_mkrow.
    cbn [Nat.add]. apply (H i _ _ _ _ Hr).
  - intros F. split; [apply Forall2_len in F; rewrite map_length in F; auto|].
    intros i p c s o Hi. remember (lexorder sc) as lex eqn:El in F at 2. rewrite El in *.
    assert (Hi' : nth_error (map (relabel_row sg) (lexorder sc)) i = Some (mkrow p (relabel sg c) s o)).
    { rewrite nth_error_map, Hi. cbn [option_map]. f_equal. apply relabel_mkrow. }
    clear El Hi. revert i Hi'. induction F as [|x y l l' Hxy _ IH]; intros [|i] Hi'; try discriminate.
    + injection Hi' as ->. exists y. auto.
    + apply IH. exact Hi'.
Qed.

Lemma induces_exists sc sg : wf_scenario sc -> is_relabelling sc sg -> exists g, induces sc sg g.
Proof.
  intros W R. destruct (mon_to_lexrepr sc (map (relabel_row sg) (lexorder sc))) as [g|] eqn:E.
  - exists g. apply induces_lexrepr; assumption.
  - exfalso. apply lexrepr_fails in E as (op & H1 & H2). apply H2. apply in_map_iff in H1 as (r & <- & Hr).
    apply (lexorder_in sc r W) in Hr as (p & c & s & o & -> & V). rewrite relabel_mkrow.
    apply (lexorder_in sc _ W). exists p, (relabel sg c), s, o. split; [reflexivity|]. apply valid_relabel; assumption.
Qed.
Lemma induces_unique sc sg g h : wf_scenario sc -> induces sc sg g -> induces sc sg h -> g = h.
Proof. intros W H1 H2. apply induces_lexrepr in H1, H2; auto. congruence. Qed.
Lemma induces_ext sc sg tau g : wf_scenario sc ->
  (forall k c, k < nr_sources sc -> c <= nth k (levels sc) 0 -> sg k c = tau k c) ->
  induces sc sg g -> induces sc tau g.
Proof.
  intros W E [L H]. split; [exact L|]. intros i p c s o Hi. destruct (H i p c s o Hi) as (j & H1 & H2).
  exists j. split; [exact H1|]. destruct (lexorder_nth sc i _ W Hi) as (p' & c' & s' & o' & Er & V).
  apply mkrow_inj in Er as (-> & -> & -> & ->).
  rewrite (relabel_ext tau sg); [exact H2|]. intros k Hk. symmetry. apply E.
  - destruct V as (_ & V & _). lia.
  - eapply valid_copy; eauto. destruct V as (_ & V & _). lia.
Qed.
Lemma induces_id sc : wf_scenario sc -> induces sc (fun _ x => x) (seq 0 (length (lexorder sc))).
Proof.
  intros W. split; [apply seq_length|]. intros i p c s o Hi. exists i. rewrite relabel_id. split; [|exact Hi].
  assert (i < length (lexorder sc)) by (apply nth_error_Some; congruence).
  rewrite (nth_error_nth' _ 0) by (rewrite seq_length; assumption). rewrite seq_nth by assumption. reflexivity.
Qed.
Definition compose (g h : list nat) : list nat := map (fun j => nth j g 0) h.
Lemma induces_comp sc sg tau g h : wf_scenario sc -> induces sc sg g -> induces sc tau h ->
  induces sc (fun k x => sg k (tau k x)) (compose g h).
Proof.
  intros W [L1 H1] [L2 H2]. split; [unfold compose; rewrite map_length; exact L2|].
  intros i p c s o Hi. destruct (H2 _ _ _ _ _ Hi) as (j & J1 & J2). destruct (H1 _ _ _ _ _ J2) as (k & K1 & K2).
  exists k. rewrite relabel_comp in K2. split; [|exact K2]. unfold compose. rewrite nth_error_map, J1. cbn. f_equal.
  apply nth_error_nth, K1.
Qed.

(** ** one source *)
Definition single (k0 : nat) (perm : list nat) : relabelling :=
  fun k c => if k =? k0 then nth c (format_permutation perm) 0 else c.

Lemma upd_relabel k0 perm : forall c, k0 < length c ->
  upd k0 (fun c => nth c (format_permutation perm) 0) c = relabel (single k0 perm) c.
Proof.
  intros c H. apply list_ext; rewrite ?relabel_length.
  - clear H. revert k0. induction c as [|x c IH]; intros [|k0]; cbn; auto.
  - intros k Hk. assert (Hk' : k < length c). { revert Hk. clear. revert k0. enough (forall k0, length (upd k0 (fun c0 : nat => nth c0 (format_permutation perm) 0) c) = length c) as E by (intros k0 Hk; rewrite E in Hk; exact Hk). induction c as [|x c IH]; intros [|k0]; cbn; auto. }
    rewrite nth_relabel by exact Hk'. clear Hk. unfold single. revert k0 k H Hk'. induction c as [|x c IH]; intros k0 k H Hk'; [cbn in Hk'; lia|].
    destruct k0 as [|k0], k as [|k]; cbn [upd nth Nat.eqb]; auto. apply IH; cbn in *; lia.
Qed.
Lemma upd_app {A} k0 (f : A -> A) l l' : k0 < length l -> upd k0 f (l ++ l') = upd k0 f l ++ l'.
Proof. revert k0. induction l as [|x l IH]; intros k0 H; [cbn in H; lia|]. destruct k0; cbn; [reflexivity|]. f_equal. apply IH. cbn in H; lia. Qed.
Lemma apply_perm_mkrow k0 perm p c s o : k0 < length c ->
  apply_source_perm_row k0 (format_permutation perm) (mkrow p c s o) = mkrow p (relabel (single k0 perm) c) s o.
Proof. intros H. unfold apply_source_perm_row, mkrow. cbn [Nat.add upd]. f_equal. rewrite upd_app by exact H. f_equal. apply upd_relabel, H. Qed.

Lemma one_source_F sc k0 perm : wf_scenario sc -> k0 < nr_sources sc ->
  apply_source_perm (lexorder sc) k0 (format_permutation perm) = map (relabel_row (single k0 perm)) (lexorder sc).
Proof.
  intros W Hk. unfold apply_source_perm. apply map_ext_in. intros r Hr.
  apply (lexorder_in sc r W) in Hr as (p & c & s & o & -> & V).
  rewrite relabel_mkrow. apply apply_perm_mkrow. destruct V as (_ & V & _). lia.
Qed.
Lemma keep_some_in {A} (l : list (option A)) x : In x (keep_some l) <-> In (Some x) l.
Proof. induction l as [|[y|] l IH]; cbn; [tauto| |]; rewrite IH; intuition congruence. Qed.

Lemma single_id k0 n k c : c <= (if k =? k0 then n else c) -> single k0 (seq 0 n) k c = c.
Proof.
  unfold single, format_permutation. destruct (k =? k0); [|auto]. intros H. destruct c as [|c]; [reflexivity|].
  cbn [nth]. rewrite seq_shift. rewrite seq_nth by lia. lia.
Qed.

Lemma one_source_in sc k0 g : wf_scenario sc -> k0 < nr_sources sc ->
  (In g (one_source_symmetries sc k0) <->
   exists perm, Permutation perm (seq 0 (nth k0 (levels sc) 0)) /\ induces sc (single k0 perm) g).
Proof.
  intros W Hk. unfold one_source_symmetries. cbn [In]. rewrite keep_some_in, in_map_iff.
  set (n := nth k0 (levels sc) 0). destruct (permutations_hd (seq 0 n)) as [t Ht].
  assert (Hid : induces sc (single k0 (seq 0 n)) (seq 0 (length (lexorder sc)))).
  { apply (induces_ext sc (fun _ x => x)); [exact W| |apply induces_id, W].
    intros k c Hk' Hc. symmetry. apply single_id. destruct (Nat.eqb_spec k k0); [subst; exact Hc|lia]. }
  split.
  - intros [<-|(perm & Hp & Ht')]; [exists (seq 0 n); auto|]. rewrite Ht in Ht'. cbn [tl] in Ht'.
    exists perm. split; [apply permutations_in; rewrite Ht; right; exact Ht'|].
    rewrite one_source_F in Hp by assumption. apply induces_lexrepr; assumption.
  - intros (perm & Hp & Hg). apply permutations_in in Hp. rewrite Ht in Hp. destruct Hp as [<-|Hp].
    + left. eapply induces_unique; eassumption.
    + right. exists perm. rewrite Ht. split; [|exact Hp]. rewrite one_source_F by assumption. apply induces_lexrepr; assumption.
Qed.

Definition supported (sc : scenario) (ks : list nat) (sg : relabelling) : Prop :=
  forall k c, k < nr_sources sc -> ~ In k ks -> c <= nth k (levels sc) 0 -> sg k c = c.
Definition spans (sc : scenario) (ks : list nat) (L : list (list nat)) : Prop :=
  forall g, In g L <-> exists sg, is_relabelling sc sg /\ supported sc ks sg /\ induces sc sg g.

Lemma single_is_relabelling sc k0 perm : Permutation perm (seq 0 (nth k0 (levels sc) 0)) -> is_relabelling sc (single k0 perm).
Proof.
  intros Hp k Hk. unfold single. destruct (Nat.eqb_spec k k0) as [->|Hne]; [|repeat split; auto; lia].
  set (n := nth k0 (levels sc) 0) in *. assert (L : length perm = n) by (apply Permutation_length in Hp; rewrite seq_length in Hp; exact Hp).
  assert (E : forall c, 1 <= c <= n -> nth c (format_permutation perm) 0 = S (nth (c - 1) perm 0)).
  { intros c Hc. destruct c as [|c]; [lia|]. unfold format_permutation. cbn [nth]. replace (S c - 1) with c by lia.
    rewrite nth_indep with (d' := S 0) by (rewrite map_length; lia). apply (map_nth S). }
  repeat split.
  - rewrite E by assumption. lia.
  - rewrite E by assumption. assert (In (nth (c - 1) perm 0) (seq 0 n)); [|rewrite in_seq in *; lia].
    apply (Permutation_in _ Hp), nth_In. lia.
  - intros c c' Hc Hc' H. rewrite !E in H by assumption.
    assert (c - 1 = c' - 1); [|lia]. injection H as H.
    apply (proj1 (NoDup_nth perm 0)); auto; try lia.
    apply (Permutation_NoDup (Permutation_sym Hp)), seq_NoDup.
Qed.

Lemma relabelling_single sc k0 sg : is_relabelling sc sg -> k0 < nr_sources sc ->
  exists perm, Permutation perm (seq 0 (nth k0 (levels sc) 0)) /\
    forall c, c <= nth k0 (levels sc) 0 -> single k0 perm k0 c = sg k0 c.
Proof.
  intros R Hk. destruct (R k0 Hk) as (R0 & R1 & R2). set (n := nth k0 (levels sc) 0) in *.
  exists (map (fun c => sg k0 (S c) - 1) (seq 0 n)). split.
  - apply NoDup_Permutation_bis.
    + assert (G : forall a m, a + m <= n -> NoDup (map (fun c => sg k0 (S c) - 1) (seq a m))).
      { intros a m; revert a. induction m as [|m IH]; intros a Ham; cbn; constructor.
        - intros H. apply in_map_iff in H as (c & Hc & Hin). apply in_seq in Hin.
          pose proof (R1 (S c) ltac:(lia)). pose proof (R1 (S a) ltac:(lia)).
          assert (S c = S a) by (apply R2; lia). lia.
        - apply IH. lia. }
      apply G. lia.
    + rewrite map_length. lia.
    + intros x Hx. apply in_map_iff in Hx as (c & <- & Hc). apply in_seq in Hc. apply in_seq.
      pose proof (R1 (S c) ltac:(lia)). lia.
  - intros c Hc. unfold single. rewrite Nat.eqb_refl. destruct c as [|c]; [cbn; auto|].
    unfold format_permutation. cbn [nth]. rewrite map_map.
    rewrite nth_indep with (d' := (fun c => S (sg k0 (S c) - 1)) 0) by (rewrite map_length, seq_length; lia).
    rewrite (map_nth (fun c => S (sg k0 (S c) - 1))). rewrite seq_nth by lia. cbn.
    pose proof (R1 (S c) ltac:(lia)). lia.
Qed.

Lemma one_source_spans sc k0 : wf_scenario sc -> k0 < nr_sources sc -> spans sc [k0] (one_source_symmetries sc k0).
Proof.
  intros W Hk g. rewrite one_source_in by assumption. split.
  - intros (perm & Hp & Hi). exists (single k0 perm). split; [apply single_is_relabelling; assumption|]. split; [|exact Hi].
    intros k c Hkk Hn Hc. unfold single. destruct (Nat.eqb_spec k k0) as [->|]; [exfalso; apply Hn; left; reflexivity|reflexivity].
  - intros (sg & R & S & I). destruct (relabelling_single sc k0 sg R Hk) as (perm & Hp & E).
    exists perm. split; [exact Hp|]. apply (induces_ext sc sg); auto. intros k c Hkk Hc.
    destruct (Nat.eq_dec k k0) as [->|Hne]; [symmetry; apply E, Hc|].
    rewrite S; auto; [|intros [->|[]]; congruence]. unfold single. destruct (Nat.eqb_spec k k0); [contradiction|reflexivity].
Qed.

Lemma is_relabelling_comp sc sg tau : is_relabelling sc sg -> is_relabelling sc tau ->
  is_relabelling sc (fun k x => sg k (tau k x)).
Proof.
  intros R T k Hk. destruct (R k Hk) as (R0 & R1 & R2). destruct (T k Hk) as (T0 & T1 & T2).
  split; [rewrite T0; exact R0|]. split; [intros c Hc; apply R1, T1, Hc|].
  intros c c' Hc Hc' E. apply T2; auto.
Qed.

Lemma combiner_in old new g : In g (perm_combiner old new) <-> exists o n, In o old /\ In n new /\ g = compose o n.
Proof.
  unfold perm_combiner. rewrite in_flat_map. split.
  - intros (o & Ho & H). apply in_map_iff in H as (n & <- & Hn). exists o, n. auto.
  - intros (o & n & Ho & Hn & ->). exists o. split; [exact Ho|]. apply in_map_iff. exists n. auto.
Qed.

Lemma combiner_spans sc ks k0 L : wf_scenario sc -> k0 < nr_sources sc -> ~ In k0 ks ->
  spans sc ks L -> spans sc (k0 :: ks) (perm_combiner L (one_source_symmetries sc k0)).
Proof.
  intros W Hk Hn HL g. pose proof (one_source_spans sc k0 W Hk) as H1. rewrite combiner_in. split.
  - intros (o & n & Ho & Hin & ->). apply HL in Ho as (sg & R & Sg & I). apply H1 in Hin as (tau & T & St & J).
    exists (fun k x => sg k (tau k x)). split; [apply is_relabelling_comp; assumption|]. split; [|apply induces_comp; assumption].
    intros k c Hkk Hni Hc. rewrite St by (auto; intros [->|[]]; apply Hni; left; reflexivity).
    apply Sg; auto. intros Hin'. apply Hni. right; exact Hin'.
  - intros (sg & R & Sg & I).
    set (sa := fun k x => if k =? k0 then x else sg k x).
    set (sb := fun k x => if k =? k0 then sg k x else x).
    assert (Ra : is_relabelling sc sa).
    { intros k Hkk. unfold sa. destruct (k =? k0); [repeat split; auto; lia|apply R, Hkk]. }
    assert (Rb : is_relabelling sc sb).
    { intros k Hkk. unfold sb. destruct (k =? k0); [apply R, Hkk|repeat split; auto; lia]. }
    destruct (induces_exists sc sa W Ra) as [ga Ga]. destruct (induces_exists sc sb W Rb) as [gb Gb].
    exists ga, gb. split; [|split].
    + apply HL. exists sa. split; [exact Ra|]. split; [|exact Ga]. intros k c Hkk Hni Hc. unfold sa.
      destruct (Nat.eqb_spec k k0) as [->|Hne]; [reflexivity|]. apply Sg; auto. intros [->|Hin]; [congruence|contradiction].
    + apply H1. exists sb. split; [exact Rb|]. split; [|exact Gb]. intros k c Hkk Hni Hc. unfold sb.
      destruct (Nat.eqb_spec k k0) as [->|Hne]; [exfalso; apply Hni; left; reflexivity|reflexivity].
    + eapply induces_unique; [exact W|exact I|]. eapply induces_ext; [exact W| |apply induces_comp; [exact W|exact Ga|exact Gb]].
      intros k c Hkk Hc. unfold sa, sb. destruct (Nat.eqb_spec k k0); reflexivity.
Qed.

Lemma spans_incl sc ks ks' L : (forall k, In k ks <-> In k ks') -> spans sc ks L -> spans sc ks' L.
Proof.
  intros E H g. rewrite (H g). split; intros (sg & R & S & I); exists sg; (split; [exact R|]; split; [|exact I]);
  intros k c Hk Hn Hc; apply S; auto; intros Hin; apply Hn, E, Hin.
Qed.

Lemma fold_spans sc : wf_scenario sc -> forall ks done L,
  (forall k, In k ks -> k < nr_sources sc) -> NoDup ks -> (forall k, In k ks -> ~ In k done) ->
  spans sc done L ->
  spans sc (done ++ ks) (fold_left perm_combiner (map (one_source_symmetries sc) ks) L).
Proof.
  intros W. induction ks as [|k ks IH]; intros done L Hr Hnd Hd HL; cbn [map fold_left].
  - rewrite app_nil_r. exact HL.
  - inversion Hnd; subst. apply (spans_incl sc ((k :: done) ++ ks)).
    { intros x. rewrite !in_app_iff. cbn. tauto. }
    apply IH; auto.
    + intros x Hx. apply Hr. right; exact Hx.
    + intros x Hx [->|Hin]; [contradiction|]. apply (Hd x); [right; exact Hx|exact Hin].
    + apply combiner_spans; auto; [apply Hr; left; reflexivity|apply Hd; left; reflexivity].
Qed.

Lemma discover_spans sc : wf_scenario sc -> spans sc (sources_with_copies sc) (discover_lexorder_symmetries sc).
Proof.
  intros W. unfold discover_lexorder_symmetries.
  assert (Hr : forall k, In k (sources_with_copies sc) -> k < nr_sources sc).
  { intros k Hk. unfold sources_with_copies in Hk. apply filter_In in Hk as [Hk _]. apply in_seq in Hk. rewrite (wf_levels sc W) in Hk. lia. }
  assert (Hnd : NoDup (sources_with_copies sc)) by (apply NoDup_filter, seq_NoDup).
  destruct (sources_with_copies sc) as [|k ks] eqn:E; cbn [map].
  - intros g. cbn [In]. split.
    + intros [<-|[]]. exists (fun _ x => x). split; [intros k _; split; [reflexivity|split; auto]|]. split; [intros k c _ _ _; reflexivity|apply induces_id, W].
    + intros (sg & R & S & I). left. eapply induces_unique; [exact W|apply induces_id, W|].
      eapply induces_ext; [exact W| |exact I]. intros k c Hk Hc. apply S; auto.
  - inversion Hnd; subst. apply (fold_spans sc W ks [k]); auto.
    + intros x Hx. apply Hr. right; exact Hx.
    + intros x Hx [->|[]]. contradiction.
    + apply one_source_spans; auto. apply Hr. left; reflexivity.
Qed.

Theorem discover_exact sc g : wf_scenario sc ->
  (In g (discover_lexorder_symmetries sc) <-> exists sg, is_relabelling sc sg /\ induces sc sg g).
Proof.
  intros W. rewrite (discover_spans sc W g). split.
  - intros (sg & R & _ & I); eauto.
  - intros (sg & R & I). exists sg. split; [exact R|]. split; [|exact I]. intros k c Hk Hn Hc.
    assert (Hl : nth k (levels sc) 0 <= 1).
    { destruct (Nat.le_gt_cases (nth k (levels sc) 0) 1) as [H|H]; [exact H|]. exfalso. apply Hn. unfold sources_with_copies.
      apply filter_In. split; [apply in_seq; rewrite (wf_levels sc W); lia|]. apply Nat.ltb_lt. exact H. }
    destruct (R k Hk) as (R0 & R1 & _). destruct c as [|c]; [exact R0|]. specialize (R1 (S c) ltac:(lia)). lia.
Qed.

Lemma compose_id g n : length g = n -> compose g (seq 0 n) = g.
Proof.
  intros <-. apply list_ext; unfold compose; rewrite map_length, seq_length; [reflexivity|]. intros k Hk.
  rewrite nth_indep with (d' := (fun j => nth j g 0) 0) by (rewrite map_length, seq_length; exact Hk).
  rewrite (map_nth (fun j => nth j g 0)), seq_nth by exact Hk. reflexivity.
Qed.

Lemma discover_head sc : exists t, discover_lexorder_symmetries sc = seq 0 (length (lexorder sc)) :: t.
Proof.
  unfold discover_lexorder_symmetries. set (ident := seq 0 (length (lexorder sc))).
  destruct (sources_with_copies sc) as [|k ks]; cbn [map]; [eauto|].
  assert (forall ls L, (forall l, In l ls -> exists t, l = ident :: t) -> (exists t, L = ident :: t) ->
    exists t, fold_left perm_combiner ls L = ident :: t) as H.
  { induction ls as [|l ls IH]; intros L Hl [t ->]; cbn [fold_left]; [eauto|]. apply IH; [intros; apply Hl; right; assumption|].
    destruct (Hl l) as [t' ->]; [left; reflexivity|]. unfold perm_combiner. cbn [flat_map map app].
    eexists. f_equal. apply (compose_id ident). unfold ident. rewrite seq_length. reflexivity. }
  apply H; [|eexists; reflexivity]. intros l Hl. apply in_map_iff in Hl as (x & <- & _). eexists; reflexivity.
Qed.

Lemma induces_nth sc sg g i p c s o : induces sc sg g -> nth_error (lexorder sc) i = Some (mkrow p c s o) ->
  nth_error (lexorder sc) (nth i g 0) = Some (mkrow p (relabel sg c) s o).
Proof. intros [_ H] Hi. destruct (H _ _ _ _ _ Hi) as (j & H1 & H2). rewrite (nth_error_nth _ _ _ H1). exact H2. Qed.

Lemma lexorder_parts sc i : wf_scenario sc -> i < length (lexorder sc) ->
  exists p c s o, nth_error (lexorder sc) i = Some (mkrow (p + 1) c s o) /\ valid_operator sc p c s o.
Proof.
  intros W Hi. destruct (nth_error (lexorder sc) i) as [r|] eqn:E; [|apply nth_error_None in E; lia].
  destruct (lexorder_nth sc i r W E) as (p & c & s & o & -> & V). exists p, c, s, o. auto.
Qed.

Lemma induces_perm sc sg g : wf_scenario sc -> is_relabelling sc sg -> induces sc sg g ->
  Permutation g (seq 0 (length (lexorder sc))).
Proof.
  intros W R I. pose proof I as [L H]. apply NoDup_Permutation_bis.
  - apply (proj2 (NoDup_nth g 0)). intros i j Hi Hj E. rewrite L in Hi, Hj.
    destruct (lexorder_parts sc i W Hi) as (p & c & s & o & Ei & Vi).
    destruct (lexorder_parts sc j W Hj) as (p' & c' & s' & o' & Ej & Vj).
    pose proof (induces_nth _ _ _ _ _ _ _ _ I Ei) as Gi. pose proof (induces_nth _ _ _ _ _ _ _ _ I Ej) as Gj.
    rewrite E in Gi.
    assert (Q : mkrow (p + 1) (relabel sg c) s o = mkrow (p' + 1) (relabel sg c') s' o').
    { unfold row in *. congruence. }
    apply mkrow_inj in Q as (Q1 & Q2 & -> & ->).
    assert (p = p') as <- by lia. assert (c = c') as <-.
    { apply list_ext; [destruct Vi as (_ & -> & _); destruct Vj as (_ & -> & _); reflexivity|]. intros k Hk.
      assert (Hk' : k < nr_sources sc) by (destruct Vi as (_ & Vi & _); lia).
      apply (relabel_inj sc sg c c' R); auto; try (destruct Vi as (_ & Vi & _); exact Vi); try (destruct Vj as (_ & Vj & _); exact Vj).
      - intros; eapply valid_copy; eauto.
      - intros; eapply valid_copy; eauto.
      - rewrite Q2. reflexivity. }
    apply (proj1 (NoDup_nth_error (lexorder sc)) (lexorder_NoDup sc W)); [exact Hi|congruence].
  - rewrite seq_length. lia.
  - intros j Hj. apply In_nth_error in Hj as [i Hi]. assert (Hl : i < length (lexorder sc)) by (rewrite <- L; apply nth_error_Some; congruence).
    destruct (lexorder_parts sc i W Hl) as (p & c & s & o & Ei & Vi). destruct (H _ _ _ _ _ Ei) as (j' & J1 & J2).
    rewrite Hi in J1. injection J1 as <-. apply in_seq. split; [lia|]. cbn. apply nth_error_Some. congruence.
Qed.

(** inverse relabelling *)
Definition inv_relabelling (sc : scenario) (sg : relabelling) : relabelling :=
  fun k c => if c =? 0 then 0 else
    match find (fun d => sg k d =? c) (seq 1 (nth k (levels sc) 0)) with Some d => d | None => c end.
Lemma inv_spec sc sg k c : is_relabelling sc sg -> k < nr_sources sc -> c <= nth k (levels sc) 0 ->
  sg k (inv_relabelling sc sg k c) = c /\ inv_relabelling sc sg k c <= nth k (levels sc) 0 /\ inv_relabelling sc sg k (sg k c) = c.
Proof.
  intros R Hk Hc. destruct (R k Hk) as (R0 & R1 & R2). set (n := nth k (levels sc) 0) in *.
  assert (surj : forall c, 1 <= c <= n -> exists d, 1 <= d <= n /\ sg k d = c).
  { intros x Hx. destruct (relabelling_single sc k sg R Hk) as (perm & Hp & E). fold n in Hp, E.
    assert (In (x - 1) perm). { apply (Permutation_in _ (Permutation_sym Hp)), in_seq. lia. }
    apply In_nth with (d := 0) in H as (i & Hi & Hix).
    apply Permutation_length in Hp. rewrite seq_length in Hp. exists (S i). split; [lia|].
    rewrite <- E by lia. unfold single. rewrite Nat.eqb_refl. unfold format_permutation. cbn [nth].
    rewrite nth_indep with (d' := S 0) by (rewrite map_length; lia). rewrite (map_nth S), Hix. lia. }
  assert (A : forall c, 1 <= c <= n -> exists d, 1 <= d <= n /\ sg k d = c /\ inv_relabelling sc sg k c = d).
  { intros x Hx. unfold inv_relabelling. fold n. destruct (Nat.eqb_spec x 0); [lia|].
    destruct (find (fun d => sg k d =? x) (seq 1 n)) as [d|] eqn:E.
    - apply find_some in E as [E1 E2]. apply in_seq in E1. apply Nat.eqb_eq in E2. exists d. repeat split; auto; lia.
    - exfalso. destruct (surj x Hx) as (d & Hd & Ed). pose proof (find_none _ _ E d ltac:(apply in_seq; lia)) as Q. cbn in Q.
      rewrite Ed, Nat.eqb_refl in Q. discriminate. }
  destruct c as [|c].
  - rewrite R0. unfold inv_relabelling. cbn. auto with arith.
  - destruct (A (S c) ltac:(lia)) as (d & D1 & D2 & D3). rewrite D3. split; [exact D2|]. split; [lia|].
    destruct (A (sg k (S c)) ltac:(apply R1; lia)) as (d' & D1' & D2' & D3'). rewrite D3'. apply R2; auto; lia.
Qed.
Lemma inv_is_relabelling sc sg : is_relabelling sc sg -> is_relabelling sc (inv_relabelling sc sg).
Proof.
  intros R k Hk. destruct (R k Hk) as (R0 & R1 & R2). split; [reflexivity|]. split.
  - intros c Hc. destruct (inv_spec sc sg k c R Hk ltac:(lia)) as (A & B & _). split; [|exact B].
    destruct (inv_relabelling sc sg k c); [|lia]. rewrite R0 in A. lia.
  - intros c c' Hc Hc' E. destruct (inv_spec sc sg k c R Hk ltac:(lia)) as (A & _). destruct (inv_spec sc sg k c' R Hk ltac:(lia)) as (A' & _). congruence.
Qed.

Theorem discover_closed sc g h : wf_scenario sc ->
  In g (discover_lexorder_symmetries sc) -> In h (discover_lexorder_symmetries sc) ->
  In (map (fun j => nth j g 0) h) (discover_lexorder_symmetries sc).
Proof.
  intros W Hg Hh. apply discover_exact in Hg as (sg & R & I), Hh as (tau & T & J); auto.
  apply discover_exact; [exact W|]. eexists. split; [apply (is_relabelling_comp sc sg tau R T)|].
  apply (induces_comp sc sg tau g h W I J).
Qed.
Theorem discover_inverse sc g : wf_scenario sc -> In g (discover_lexorder_symmetries sc) ->
  exists h, In h (discover_lexorder_symmetries sc) /\ compose h g = seq 0 (length (lexorder sc)) /\ compose g h = seq 0 (length (lexorder sc)).
Proof.
  intros W Hg. apply discover_exact in Hg as (sg & R & I); auto. pose proof (inv_is_relabelling sc sg R) as R'.
  destruct (induces_exists sc _ W R') as [h Hh]. exists h. split; [apply discover_exact; eauto|].
  split; (eapply induces_unique; [exact W| |apply induces_id, W]; eapply induces_ext; [exact W| |apply induces_comp; [exact W|eassumption|eassumption]]);
  intros k c Hk Hc; apply inv_spec; auto.
Qed.

(** ** invariance *)
Lemma commute_rule_relabel sc sg p c s o p' c' s' o' : wf_scenario sc -> is_relabelling sc sg ->
  valid_operator sc p c s o -> valid_operator sc p' c' s' o' ->
  (commute_rule sc p (relabel sg c) s p' (relabel sg c') s' <-> commute_rule sc p c s p' c' s').
Proof.
  intros W R V V'.
  assert (E : forall k, k < nr_sources sc -> (nth k (relabel sg c) 0 = nth k (relabel sg c') 0 <-> nth k c 0 = nth k c' 0)).
  { apply relabel_inj; auto; try apply V; try apply V'; intros; eapply valid_copy; eauto. }
  assert (K : forall k src, nth_error (sources sc) k = Some src -> k < nr_sources sc).
  { intros k src Hk. unfold nr_sources. apply nth_error_Some. congruence. }
  unfold commute_rule. split; (intros [H|[H1 H2]]; [left|right; split; [|exact H2]]); intros k src Hk Hj;
  (rewrite (E k (K k src Hk)) || rewrite <- (E k (K k src Hk))); eauto.
Qed.

Lemma notcomm_invariant sc sg g i j : wf_scenario sc -> is_relabelling sc sg -> induces sc sg g ->
  i < length (lexorder sc) -> j < length (lexorder sc) ->
  default_notcomm sc (nth i g 0) (nth j g 0) = default_notcomm sc i j.
Proof.
  intros W R I Hi Hj. destruct (lexorder_parts sc i W Hi) as (p & c & s & o & Ei & Vi).
  destruct (lexorder_parts sc j W Hj) as (p' & c' & s' & o' & Ej & Vj).
  pose proof (induces_nth _ _ _ _ _ _ _ _ I Ei) as Gi. pose proof (induces_nth _ _ _ _ _ _ _ _ I Ej) as Gj.
  pose proof (default_notcomm_spec _ _ _ _ _ _ _ _ _ _ _ W Ei Ej) as A.
  pose proof (default_notcomm_spec _ _ _ _ _ _ _ _ _ _ _ W Gi Gj) as B.
  rewrite commute_rule_relabel in B by eassumption. rewrite <- A in B.
  destruct (default_notcomm sc i j), (default_notcomm sc (nth i g 0) (nth j g 0)); auto; exfalso.
  - assert (true = false) by (apply B; reflexivity). discriminate.
  - assert (true = false) by (apply B; reflexivity). discriminate.
Qed.

Lemma nb_dec c c' : share_copy c c' \/ ~ share_copy c c'.
Proof.
  unfold share_copy. revert c'. induction c as [|x c IH]; intros c'.
  - right. intros (k & H & _). apply H. destruct k; reflexivity.
  - destruct (IH (tl c')) as [(k & H1 & H2)|H].
    + left. exists (S k). split; [exact H1|]. destruct c'; [destruct k; exact H2|exact H2].
    + destruct (Nat.eq_dec x 0) as [->|Hx]; [|destruct (Nat.eq_dec x (nth 0 c' 0)) as [E|E]; [left; exists 0; split; [exact Hx|exact E]|]].
      * right. intros ([|k] & H1 & H2); [apply H1; reflexivity|]. apply H. exists k. split; [exact H1|].
        destruct c'; [destruct k; exact H2|exact H2].
      * right. intros ([|k] & H1 & H2); [contradiction|]. apply H. exists k. split; [exact H1|].
        destruct c'; [destruct k; exact H2|exact H2].
Qed.
Lemma shared_source_spec c c' : length c = length c' -> (nb_exists_shared_source c c' = true <-> share_copy c c').
Proof.
  intros L. unfold nb_exists_shared_source, share_copy.
  set (common := map _ _).
  assert (Lc : length common = length c) by (unfold common; rewrite map_length, combine_length; lia).
  assert (Nc : forall k, nth k common false = true <-> nth k c 0 <> 0 /\ nth k c' 0 <> 0).
  { unfold common. clear Lc common. revert c' L. induction c as [|x c IH]; intros [|y c'] L k; try discriminate.
    - cbn. destruct k; split; try discriminate; intros [H _]; exfalso; apply H; reflexivity.
    - destruct k; cbn [combine map nth fst snd]; [|apply IH; cbn in L; lia].
      rewrite andb_true_iff, !negb_true_iff, !Nat.eqb_neq. reflexivity. }
  assert (F : forallb (fun ab => negb (fst ab =? snd ab)) (combine (mask_select common c) (mask_select common c')) = true <->
     forall k, nth k common false = true -> nth k c 0 <> nth k c' 0).
  { rewrite (mask_combine_all (fun x y => negb (x =? y))) by lia. split; intros H k Hk; specialize (H k Hk).
    - rewrite negb_true_iff, Nat.eqb_neq in H. exact H.
    - rewrite negb_true_iff, Nat.eqb_neq. exact H. }
  assert (Dec : (forall k, nth k common false = true -> nth k c 0 <> nth k c' 0) <-> ~ share_copy c c').
  { unfold share_copy. split.
    - intros H (k & H1 & H2). apply (H k); [apply Nc; split; congruence|exact H2].
    - intros H k Hk E. apply Nc in Hk as [Hk _]. apply H. eauto. }
  destruct (existsb (fun b => b) common) eqn:EX; cbn [negb].
  - rewrite negb_true_iff, <- not_true_iff_false, F, Dec. unfold share_copy. split; [|tauto].
    intros NN. destruct (nb_dec c c') as [H|H]; [exact H|]. contradiction.
  - split; [discriminate|]. intros (k & H1 & H2). assert (existsb (fun b => b) common = true); [|congruence].
    apply existsb_id. exists k. apply Nc. split; congruence.
Qed.

Lemma share_copy_relabel sc sg p c s o p' c' s' o' : wf_scenario sc -> is_relabelling sc sg ->
  valid_operator sc p c s o -> valid_operator sc p' c' s' o' ->
  (share_copy (relabel sg c) (relabel sg c') <-> share_copy c c').
Proof.
  intros W R V V'. assert (L : length c = nr_sources sc) by apply V. assert (L' : length c' = nr_sources sc) by apply V'.
  assert (E : forall k, k < nr_sources sc -> (nth k (relabel sg c) 0 = nth k (relabel sg c') 0 <-> nth k c 0 = nth k c' 0)).
  { apply relabel_inj; auto; intros; eapply valid_copy; eauto. }
  assert (Z : forall k, k < nr_sources sc -> (nth k (relabel sg c) 0 = 0 <-> nth k c 0 = 0)).
  { intros k Hk. rewrite nth_relabel by lia. destruct (R k Hk) as (R0 & R1 & _). pose proof (valid_copy sc p c s o k W V Hk).
    destruct (nth k c 0) as [|x]; [rewrite R0; tauto|]. specialize (R1 (S x) ltac:(lia)). lia. }
  unfold share_copy. split; intros (k & H1 & H2); exists k.
  - assert (Hk : k < nr_sources sc).
    { destruct (Nat.lt_ge_cases k (nr_sources sc)); [assumption|]. rewrite nth_overflow in H1 by (rewrite relabel_length; lia). lia. }
    rewrite (Z k Hk) in H1. rewrite (E k Hk) in H2. auto.
  - assert (Hk : k < nr_sources sc).
    { destruct (Nat.lt_ge_cases k (nr_sources sc)); [assumption|]. rewrite nth_overflow in H1 by lia. lia. }
    rewrite (Z k Hk), (E k Hk). auto.
Qed.

Lemma source_perm_preserves sc source perm r r' : wf_scenario sc ->
  source < nr_sources sc ->
  Permutation perm (seq 0 (nth source (levels sc) 0)) ->
  In r (lexorder sc) -> In r' (lexorder sc) ->
  let act := apply_source_perm_row source (format_permutation perm) in
  In (act r) (lexorder sc) /\ In (act r') (lexorder sc) /\
  nb_operators_commute (sources_to_check sc) (act r) (act r')
  = nb_operators_commute (sources_to_check sc) r r' /\
  nb_exists_shared_source (row_copies (act r)) (row_copies (act r'))
  = nb_exists_shared_source (row_copies r) (row_copies r').
Proof.
  intros W Hs Hp Hr Hr'. cbn zeta.
  apply (lexorder_in sc r W) in Hr as (p & c & s & o & -> & V).
  apply (lexorder_in sc r' W) in Hr' as (p' & c' & s' & o' & -> & V').
  assert (L : length c = nr_sources sc) by apply V. assert (L' : length c' = nr_sources sc) by apply V'.
  rewrite !apply_perm_mkrow by lia. pose proof (single_is_relabelling sc source perm Hp) as R.
  set (sg := single source perm) in *.
  split; [apply (lexorder_in sc _ W); exists p, (relabel sg c), s, o; split; [reflexivity|apply valid_relabel; assumption]|].
  split; [apply (lexorder_in sc _ W); exists p', (relabel sg c'), s', o'; split; [reflexivity|apply valid_relabel; assumption]|].
  split.
  - apply eq_iff_eq_true. rewrite !commute_correct by (rewrite ?relabel_length; lia).
    eapply commute_rule_relabel; eassumption.
  - rewrite !mkrow_copies. apply eq_iff_eq_true. rewrite !shared_source_spec by (rewrite ?relabel_length; lia).
    eapply share_copy_relabel; eassumption.
Qed.
