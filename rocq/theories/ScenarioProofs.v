From Coq Require Import Permutation Sorted.
From Verif Require Import CanonModel CanonSpec ScenarioModel ScenarioSpec.

Lemma Forall2_len {A B} (R : A -> B -> Prop) x y : Forall2 R x y -> length x = length y.
Proof. induction 1; cbn; congruence. Qed.

Lemma or_iff_compat A B C D : (A <-> C) -> (B <-> D) -> (A \/ B <-> C \/ D).
Proof. tauto. Qed.

(** ** rows *)
Lemma removelast_snoc {A} (l : list A) x : removelast (l ++ [x]) = l.
Proof. rewrite removelast_app by discriminate. cbn. apply app_nil_r. Qed.
Lemma last_snoc {A} (l : list A) x d : last (l ++ [x]) d = x.
Proof. induction l as [|y l IH]; [reflexivity|]. cbn. rewrite IH. destruct (l ++ [x]) eqn:E; [destruct l; discriminate|reflexivity]. Qed.

Lemma mkrow_snoc p c s o : mkrow p c s o = (p :: c ++ [s]) ++ [o].
Proof. unfold mkrow. cbn. rewrite <- app_assoc. reflexivity. Qed.
Lemma mkrow_party p c s o : row_party (mkrow p c s o) = p.
Proof. reflexivity. Qed.
Lemma mkrow_removelast p c s o : removelast (mkrow p c s o) = p :: c ++ [s].
Proof. rewrite mkrow_snoc, removelast_snoc. reflexivity. Qed.
Lemma mkrow_copies p c s o : row_copies (mkrow p c s o) = c.
Proof.
  unfold row_copies, mkrow. cbn [tl]. replace (c ++ [s; o]) with ((c ++ [s]) ++ [o]) by (rewrite <- app_assoc; reflexivity).
  rewrite !removelast_snoc. reflexivity.
Qed.
Lemma mkrow_setting p c s o : row_setting (mkrow p c s o) = s.
Proof. unfold row_setting. rewrite mkrow_removelast, app_comm_cons, last_snoc. reflexivity. Qed.
Lemma mkrow_outcome p c s o : row_outcome (mkrow p c s o) = o.
Proof. unfold row_outcome. rewrite mkrow_snoc, last_snoc. reflexivity. Qed.
Lemma mkrow_inj p c s o p' c' s' o' : mkrow p c s o = mkrow p' c' s' o' -> p = p' /\ c = c' /\ s = s' /\ o = o'.
Proof.
  intros E. repeat split.
  - apply (f_equal row_party) in E. exact E.
  - apply (f_equal row_copies) in E. rewrite !mkrow_copies in E. exact E.
  - apply (f_equal row_setting) in E. rewrite !mkrow_setting in E. exact E.
  - apply (f_equal row_outcome) in E. rewrite !mkrow_outcome in E. exact E.
Qed.

(** ** lexicographic order *)
Lemma lex_lt_irrefl u : ~ lex_lt u u.
Proof. induction u; intros H; inversion H; subst; [lia|auto]. Qed.
Lemma lex_lt_trans u v w : lex_lt u v -> lex_lt v w -> lex_lt u w.
Proof.
  intros H; revert w; induction H as [x u|a b u v Hab|a u v H IH]; intros w H'.
  - inversion H'; subst; constructor.
  - inversion H'; subst; apply lt_head; lia.
  - inversion H'; subst; [apply lt_head; assumption|apply lt_tail; auto].
Qed.
Lemma lex_lt_app p u v : lex_lt u v -> lex_lt (p ++ u) (p ++ v).
Proof. intros H; induction p; cbn; [exact H|apply lt_tail; assumption]. Qed.
Lemma lex_lt_app_r u v : length u = length v -> lex_lt u v -> forall x y, lex_lt (u ++ x) (v ++ y).
Proof.
  intros Hl H; induction H as [x u|a b u v Hab|a u v H IH]; intros x' y'; cbn in *.
  - discriminate.
  - apply lt_head; exact Hab.
  - apply lt_tail, IH. lia.
Qed.

Section SS.
Context {A : Type}.
Variable R : A -> A -> Prop.
Lemma SS_app l1 l2 : StronglySorted R l1 -> StronglySorted R l2 ->
  (forall x y, In x l1 -> In y l2 -> R x y) -> StronglySorted R (l1 ++ l2).
Proof.
  intros H1 H2 H. induction H1 as [|x l1 HS IH HF]; cbn; [exact H2|].
  constructor.
  - apply IH. intros; apply H; [right|]; assumption.
  - apply Forall_app. split; [exact HF|]. apply Forall_forall. intros y Hy. apply H; [left; reflexivity|exact Hy].
Qed.
Lemma SS_flat_map {B} (S : B -> B -> Prop) (f : B -> list A) l :
  StronglySorted S l -> (forall x, In x l -> StronglySorted R (f x)) ->
  (forall x y a b, In x l -> In y l -> S x y -> In a (f x) -> In b (f y) -> R a b) ->
  StronglySorted R (flat_map f l).
Proof.
  intros HS Hf HR. induction HS as [|x l HS IH HF]; cbn; [constructor|].
  rewrite Forall_forall in HF. apply SS_app.
  - apply Hf; left; reflexivity.
  - apply IH; [intros; apply Hf; right; assumption|].
    intros x' y' a b Hx' Hy'; apply HR; right; assumption.
  - intros a b Ha Hb. apply in_flat_map in Hb as (y & Hy & Hb).
    apply (HR x y); [left; reflexivity|right; exact Hy|apply HF; exact Hy|exact Ha|exact Hb].
Qed.
Lemma SS_map {B} (S : B -> B -> Prop) (f : B -> A) l :
  StronglySorted S l -> (forall x y, In x l -> In y l -> S x y -> R (f x) (f y)) -> StronglySorted R (map f l).
Proof.
  intros HS HR. induction HS as [|x l HS IH HF]; cbn; constructor.
  - apply IH. intros; apply HR; [right|right|]; assumption.
  - rewrite Forall_forall in *. intros y Hy. apply in_map_iff in Hy as (z & <- & Hz).
    apply HR; [left; reflexivity|right; exact Hz|apply HF, Hz].
Qed.
Lemma SS_NoDup l : (forall x, ~ R x x) -> StronglySorted R l -> NoDup l.
Proof.
  intros HI HS. induction HS as [|x l HS IH HF]; constructor; [|exact IH].
  intros Hin. rewrite Forall_forall in HF. exact (HI x (HF x Hin)).
Qed.
Lemma SS_nth l : StronglySorted R l -> forall i j a b, i < j ->
  nth_error l i = Some a -> nth_error l j = Some b -> R a b.
Proof.
  intros HS. induction HS as [|x l HS IH HF]; intros i j a b Hij Ha Hb; [destruct i; discriminate|].
  destruct j as [|j]; [lia|]. destruct i as [|i]; cbn in *.
  - injection Ha as ->. rewrite Forall_forall in HF. apply HF. eapply nth_error_In, Hb.
  - eapply IH; [|exact Ha|exact Hb]. lia.
Qed.
End SS.

Lemma seq_SS a n : StronglySorted lt (seq a n).
Proof.
  revert a; induction n as [|n IH]; intros a; cbn; constructor; [apply IH|].
  apply Forall_forall. intros x Hx. apply in_seq in Hx. lia.
Qed.

(** ** ndindex *)
Lemma ndindex_in sh : forall x, In x (ndindex sh) <-> Forall2 lt x sh.
Proof.
  induction sh as [|n sh IH]; intros x; cbn.
  - split; [intros [<-|[]]; constructor|]. intros H; inversion H; auto.
  - rewrite in_flat_map. split.
    + intros (i & Hi & Hx). apply in_seq in Hi. apply in_map_iff in Hx as (y & <- & Hy).
      constructor; [lia|apply IH, Hy].
    + intros H. inversion H as [|i n' y sh' Hi Hy]; subst. exists i. split; [apply in_seq; lia|].
      apply in_map, IH, Hy.
Qed.
Lemma ndindex_length sh : length (ndindex sh) = prodl sh.
Proof.
  induction sh as [|n sh IH]; cbn; [reflexivity|].
  unfold prodl in *. cbn. rewrite <- IH. generalize 0 at 1. induction n as [|n IHn]; intros a; cbn; [reflexivity|].
  rewrite app_length, map_length. rewrite IHn. reflexivity.
Qed.
Lemma ndindex_SS sh : StronglySorted lex_lt (ndindex sh).
Proof.
  induction sh as [|n sh IH]; cbn; [repeat constructor|].
  apply (SS_flat_map lex_lt lt); [apply seq_SS| |].
  - intros i _. apply (SS_map lex_lt lex_lt); [exact IH|]. intros; apply lt_tail; assumption.
  - intros i j a b _ _ Hij Ha Hb. apply in_map_iff in Ha as (x & <- & _). apply in_map_iff in Hb as (y & <- & _).
    apply lt_head; exact Hij.
Qed.
Lemma ndindex_NoDup sh : NoDup (ndindex sh).
Proof. eapply SS_NoDup; [apply lex_lt_irrefl|apply ndindex_SS]. Qed.

(** ** membership tests *)
Lemma memb_in x l : memb x l = true <-> In x l.
Proof.
  unfold memb. rewrite existsb_exists. split.
  - intros (y & Hy & E). apply Nat.eqb_eq in E. subst; exact Hy.
  - intros H; exists x. split; [exact H|apply Nat.eqb_refl].
Qed.

Lemma hypergraph_reaches sc k p src : nth_error (sources sc) k = Some src ->
  (hypergraph sc k p = true <-> reaches src p).
Proof.
  intros E. unfold hypergraph. rewrite E. rewrite orb_true_iff, memb_in, existsb_exists. unfold reaches.
  split; (intros [H|(l & H1 & H2)]; [left; exact H|right; exists l; split; [exact H1|apply memb_in; exact H2]]).
Qed.

(** ** inflation indices *)
Lemma active_length sc p : length (active_sources sc p) = nr_sources sc.
Proof. unfold active_sources. rewrite map_length, seq_length. reflexivity. Qed.
Lemma active_nth sc p k : k < nr_sources sc -> nth k (active_sources sc p) 0 = b2n (hypergraph sc k p).
Proof.
  intros Hk. unfold active_sources.
  rewrite (nth_indep _ 0 (b2n (hypergraph sc 0 p))) by (rewrite map_length, seq_length; exact Hk).
  rewrite (map_nth (fun s => b2n (hypergraph sc s p)) (seq 0 (nr_sources sc)) 0 k), seq_nth by exact Hk. reflexivity.
Qed.

Lemma map_add_in (act lev : list nat) : length act = length lev -> forall c,
  (exists incr, Forall2 lt incr (map (fun al => Nat.max (fst al * snd al) 1) (combine act lev)) /\
                c = map (fun ai => fst ai + snd ai) (combine act incr)) <->
  length c = length act /\
  (forall k, k < length act -> nth k act 0 <= nth k c 0 < nth k act 0 + Nat.max (nth k act 0 * nth k lev 0) 1).
Proof.
  revert lev; induction act as [|a act IH]; intros [|l lev] Hl; try discriminate; intros c; cbn [combine map].
  - split.
    + intros (incr & H & ->). split; [reflexivity|]. cbn; lia.
    + intros [H _]. destruct c; [|discriminate]. exists []. split; [constructor|reflexivity].
  - cbn in Hl. injection Hl as Hl. split.
    + intros (incr & H & ->). inversion H as [|i n incr' sh Hi Hincr]; subst. cbn [combine map fst snd length] in *.
      destruct (proj1 (IH lev Hl (map (fun ai => fst ai + snd ai) (combine act incr')))) as [H1 H2]; [eauto|].
      split; [f_equal; exact H1|]. intros [|k] Hk; cbn [nth]; [lia|]. apply H2. lia.
    + intros [H1 H2]. destruct c as [|x c]; [discriminate|]. cbn in H1. injection H1 as H1.
      destruct (proj2 (IH lev Hl c)) as (incr & Hi & Ec).
      { split; [exact H1|]. intros k Hk. apply (H2 (S k)). cbn; lia. }
      pose proof (H2 0) as H0. cbn in H0.
      exists ((x - a) :: incr). cbn [combine map fst snd]. split.
      * constructor; [lia|exact Hi].
      * rewrite Ec. f_equal. lia.
Qed.

Lemma inflation_indices_in sc p c : wf_scenario sc ->
  (In c (inflation_indices sc p) <->
   length c = nr_sources sc /\
   forall k src, nth_error (sources sc) k = Some src ->
     (reaches src p -> 1 <= nth k c 0 <= nth k (levels sc) 0) /\
     (~ reaches src p -> nth k c 0 = 0)).
Proof.
  intros W. unfold inflation_indices. rewrite in_map_iff.
  assert (Hl : length (active_sources sc p) = length (levels sc)) by (rewrite active_length, (wf_levels _ W); reflexivity).
  assert (E : (exists x, map (fun ai => fst ai + snd ai) (combine (active_sources sc p) x) = c /\ In x (ndindex (num_copies sc p))) <->
    (exists incr, Forall2 lt incr (map (fun al => Nat.max (fst al * snd al) 1) (combine (active_sources sc p) (levels sc))) /\
                c = map (fun ai => fst ai + snd ai) (combine (active_sources sc p) incr))).
  { split; intros (x & H1 & H2); exists x; split; auto; [apply ndindex_in in H2; exact H2|apply ndindex_in; exact H1]. }
  rewrite E, (map_add_in _ _ Hl), active_length. clear E.
  apply and_iff_compat_l. split.
  - intros H k src Hk. assert (Hks : k < nr_sources sc) by (apply nth_error_Some; congruence).
    specialize (H k Hks). rewrite active_nth in H by exact Hks.
    pose proof (hypergraph_reaches sc k p src Hk) as HR.
    destruct (hypergraph sc k p); cbn [b2n] in H.
    + split; [|intros Hn; exfalso; apply Hn, HR; reflexivity]. intros _.
      assert (1 <= nth k (levels sc) 0). { apply (wf_levels_pos _ W), nth_In. rewrite (wf_levels _ W). exact Hks. }
      rewrite Nat.mul_1_l in H. lia.
    + split; [intros Hr; apply HR in Hr; discriminate|]. intros _. cbn in H. lia.
  - intros H k Hk. rewrite active_nth by exact Hk.
    destruct (nth_error (sources sc) k) as [src|] eqn:Es; [|apply nth_error_None in Es; unfold nr_sources in Hk; lia].
    destruct (H k src Es) as [H1 H2]. pose proof (hypergraph_reaches sc k p src Es) as HR.
    destruct (hypergraph sc k p); cbn [b2n].
    + specialize (H1 (proj1 HR eq_refl)). rewrite Nat.mul_1_l. lia.
    + rewrite H2; [cbn; lia|]. intros Hr; apply HR in Hr; discriminate.
Qed.

Lemma add_lex act : forall x y, length x = length act -> length y = length act -> lex_lt x y ->
  lex_lt (map (fun ai => fst ai + snd ai) (combine act x)) (map (fun ai => fst ai + snd ai) (combine act y)).
Proof.
  induction act as [|a act IH]; intros [|x xs] [|y ys] Hx Hy H; try discriminate; [inversion H|].
  cbn [combine map fst snd]. inversion H; subst; [apply lt_head; lia|].
  apply lt_tail, IH; cbn in *; lia || assumption.
Qed.

Lemma inflation_indices_SS sc p : wf_scenario sc -> StronglySorted lex_lt (inflation_indices sc p).
Proof.
  intros W. unfold inflation_indices. apply (SS_map lex_lt lex_lt); [apply ndindex_SS|].
  intros x y Hx Hy H.
  assert (Hl : forall z, In z (ndindex (num_copies sc p)) -> length z = length (active_sources sc p)).
  { intros z Hz. apply ndindex_in in Hz. apply Forall2_len in Hz. rewrite Hz.
    unfold num_copies. rewrite map_length, combine_length, active_length, (wf_levels _ W). apply Nat.min_id. }
  apply add_lex; auto.
Qed.

(** ** the operator list *)
Lemma concat_flat_map {A B} (f : A -> list (list B)) l : concat (flat_map f l) = flat_map (fun x => concat (f x)) l.
Proof. induction l as [|x l IH]; cbn; [reflexivity|]. rewrite concat_app, IH. reflexivity. Qed.
Lemma concat_map_fm {A B} (f : A -> list B) l : concat (map f l) = flat_map f l.
Proof. induction l as [|x l IH]; cbn; [reflexivity|]. rewrite IH. reflexivity. Qed.

Definition rows_of_party sc p : list row :=
  flat_map (fun inf => flat_map (fun s => map (fun o => mkrow (p + 1) inf s o) (seq 0 (nth p (outcomes sc) 0)))
        (seq 0 (nr_settings sc p))) (inflation_indices sc p).
Lemma lexorder_flat sc : lexorder sc = flat_map (rows_of_party sc) (seq 0 (nr_parties sc)).
Proof.
  unfold lexorder, ortho_groups. rewrite concat_flat_map. apply flat_map_ext. intros p.
  unfold ortho_groups_of_party, rows_of_party. rewrite concat_flat_map. apply flat_map_ext. intros inf.
  apply concat_map_fm.
Qed.

Lemma rows_of_party_in sc p r : In r (rows_of_party sc p) <->
  exists c s o, r = mkrow (p + 1) c s o /\ In c (inflation_indices sc p) /\ s < nr_settings sc p /\ o < nth p (outcomes sc) 0.
Proof.
  unfold rows_of_party. rewrite in_flat_map. split.
  - intros (c & Hc & H). apply in_flat_map in H as (s & Hs & H). apply in_map_iff in H as (o & <- & Ho).
    apply in_seq in Hs, Ho. exists c, s, o. repeat split; auto; lia.
  - intros (c & s & o & -> & Hc & Hs & Ho). exists c. split; [exact Hc|]. apply in_flat_map. exists s.
    split; [apply in_seq; lia|]. apply in_map_iff. exists o. split; [reflexivity|apply in_seq; lia].
Qed.

Lemma lexorder_in sc r : wf_scenario sc ->
  (In r (lexorder sc) <-> exists p c s o, r = mkrow (p + 1) c s o /\ valid_operator sc p c s o).
Proof.
  intros W. rewrite lexorder_flat, in_flat_map. split.
  - intros (p & Hp & H). apply in_seq in Hp. apply rows_of_party_in in H as (c & s & o & -> & Hc & Hs & Ho).
    exists p, c, s, o. split; [reflexivity|]. apply (inflation_indices_in sc p c W) in Hc as [Hc1 Hc2].
    unfold valid_operator. repeat split; auto; try lia; eapply Hc2; eassumption.
  - intros (p & c & s & o & -> & Hp & Hl & Hc & Hs & Ho). exists p. split; [apply in_seq; lia|].
    apply rows_of_party_in. exists c, s, o. repeat split; auto. apply inflation_indices_in; auto.
Qed.

Lemma lexorder_SS sc : wf_scenario sc -> StronglySorted lex_lt (lexorder sc).
Proof.
  intros W. rewrite lexorder_flat. apply (SS_flat_map lex_lt lt); [apply seq_SS| |].
  - intros p _. unfold rows_of_party. apply (SS_flat_map lex_lt lex_lt); [apply inflation_indices_SS, W| |].
    + intros c _. apply (SS_flat_map lex_lt lt); [apply seq_SS| |].
      * intros s _. apply (SS_map lex_lt lt); [apply seq_SS|]. intros o o' _ _ Ho.
        unfold mkrow. apply lt_tail, lex_lt_app, lt_tail, lt_head, Ho.
      * intros s s' a b _ _ Hs Ha Hb. apply in_map_iff in Ha as (o & <- & _). apply in_map_iff in Hb as (o' & <- & _).
        unfold mkrow. apply lt_tail, lex_lt_app, lt_head, Hs.
    + intros c c' a b Hc Hc' H Ha Hb.
      apply (inflation_indices_in sc p _ W) in Hc as [Hc _]. apply (inflation_indices_in sc p _ W) in Hc' as [Hc' _].
      apply in_flat_map in Ha as (s & _ & Ha). apply in_flat_map in Hb as (s' & _ & Hb).
      apply in_map_iff in Ha as (o & <- & _). apply in_map_iff in Hb as (o' & <- & _).
      unfold mkrow. apply lt_tail, lex_lt_app_r; [congruence|exact H].
  - intros p p' a b _ _ Hp Ha Hb. apply rows_of_party_in in Ha as (c & s & o & -> & _).
    apply rows_of_party_in in Hb as (c' & s' & o' & -> & _). apply lt_head. lia.
Qed.

Lemma lexorder_NoDup sc : wf_scenario sc -> NoDup (lexorder sc).
Proof. intros W. eapply SS_NoDup; [apply lex_lt_irrefl|apply lexorder_SS, W]. Qed.

(** ** index look-up *)
Lemma row_eqb_spec a b : reflect (a = b) (row_eqb a b).
Proof. unfold row_eqb; destruct (list_eq_dec Nat.eq_dec a b); constructor; assumption. Qed.

Lemma lookup_last_some lex op : forall i k, lookup_last i lex op = Some k ->
  i <= k /\ nth_error lex (k - i) = Some op.
Proof.
  induction lex as [|r lex IH]; intros i k; cbn; [discriminate|].
  destruct (lookup_last (S i) lex op) as [k'|] eqn:E.
  - intros [= <-]. apply IH in E as [H1 H2]. split; [lia|].
    replace (k' - i) with (S (k' - S i)) by lia. exact H2.
  - destruct (row_eqb_spec r op) as [->|]; [|discriminate]. intros [= <-]. rewrite Nat.sub_diag. auto.
Qed.
Lemma lookup_last_none lex op : forall i, lookup_last i lex op = None <-> ~ In op lex.
Proof.
  induction lex as [|r lex IH]; intros i; cbn; [tauto|]. specialize (IH (S i)).
  destruct (lookup_last (S i) lex op) as [k'|].
  - split; [discriminate|]. intros H. exfalso. destruct IH as [_ IH].
    assert (Some k' = None) by (apply IH; tauto). discriminate.
  - destruct (row_eqb_spec r op) as [->|Hne]; [split; [discriminate|tauto]|]. split; [|reflexivity].
    intros _ [H|H]; [contradiction|]. apply IH in H; [exact H|reflexivity].
Qed.

Lemma lookup_nth sc k r : wf_scenario sc -> nth_error (lexorder sc) k = Some r -> lexorder_lookup sc r = Some k.
Proof.
  intros W H. unfold lexorder_lookup.
  destruct (lookup_last 0 (lexorder sc) r) as [k'|] eqn:E.
  - apply lookup_last_some in E as [_ E]. rewrite Nat.sub_0_r in E. f_equal.
    apply (proj1 (NoDup_nth_error (lexorder sc)) (lexorder_NoDup sc W)).
    + apply nth_error_Some. congruence.
    + congruence.
  - apply lookup_last_none in E. exfalso; apply E. eapply nth_error_In, H.
Qed.
Lemma lookup_some sc k r : lexorder_lookup sc r = Some k -> nth_error (lexorder sc) k = Some r.
Proof. intros H. apply lookup_last_some in H as [_ H]. rewrite Nat.sub_0_r in H. exact H. Qed.

Lemma map_opt_some {A B} (f : A -> option B) l r : map_opt f l = Some r <-> Forall2 (fun x y => f x = Some y) l r.
Proof.
  revert r; induction l as [|x l IH]; intros r; cbn.
  - split; [intros [= <-]; constructor|intros H; inversion H; reflexivity].
  - destruct (f x) as [y|] eqn:E.
    + destruct (map_opt f l) as [r'|].
      * split.
        -- intros [= <-]. constructor; [exact E|apply IH; reflexivity].
        -- intros H; inversion H as [|? ? ? ? H1 H2]; subst. apply IH in H2. congruence.
      * split; [discriminate|]. intros H; inversion H as [|? ? ? ? H1 H2]; subst. apply IH in H2. discriminate.
    + split; [discriminate|]. intros H; inversion H; congruence.
Qed.
Lemma map_opt_none {A B} (f : A -> option B) l : map_opt f l = None <-> exists x, In x l /\ f x = None.
Proof.
  induction l as [|x l IH]; cbn.
  - split; [discriminate|intros (x & [] & _)].
  - destruct (f x) as [y|] eqn:E.
    + destruct (map_opt f l) as [r'|].
      * split; [discriminate|]. intros (z & [->|Hz] & Hf); [congruence|].
        assert (Some r' = None) by (apply IH; eauto). discriminate.
      * split; [|reflexivity]. intros _. destruct (proj1 IH eq_refl) as (z & Hz & Hf). eauto.
    + split; [|reflexivity]. eauto.
Qed.

(** indices -> rows -> indices and back *)
Lemma lexrepr_roundtrip sc mon idx : wf_scenario sc ->
  (mon_to_lexrepr sc mon = Some idx <-> Forall2 (fun op k => nth_error (lexorder sc) k = Some op) mon idx).
Proof.
  intros W. unfold mon_to_lexrepr. rewrite map_opt_some.
  split; intros H; induction H as [|x y l l' Hxy _ IH]; constructor; auto.
  - apply lookup_some, Hxy.
  - apply lookup_nth; assumption.
Qed.
Lemma lexrepr_fails sc mon : (mon_to_lexrepr sc mon = None <-> exists op, In op mon /\ ~ In op (lexorder sc)).
Proof.
  unfold mon_to_lexrepr. rewrite map_opt_none.
  split; intros (x & H1 & H2); exists x; (split; [exact H1|]); apply (lookup_last_none (lexorder sc) x 0); exact H2.
Qed.

(** ** commutation *)
Lemma check_fold src p q ls : forall start,
  fold_left (fun cur l => if memb p (l_desc l) && memb q (l_desc l)
                  then Nat.max cur (1 + b2n (l_nonclassical l && negb (s_classical src))) else cur) ls start
  = fold_left Nat.max (map (fun l => if memb p (l_desc l) && memb q (l_desc l)
      then 1 + b2n (l_nonclassical l && negb (s_classical src)) else 0) ls) start.
Proof.
  induction ls as [|l ls IH]; intros start; cbn [fold_left map]; [reflexivity|]. rewrite IH.
  destruct (memb p (l_desc l) && memb q (l_desc l)); [reflexivity|]. rewrite Nat.max_0_r. reflexivity.
Qed.
Lemma fold_max_ge l : forall start n, n <= fold_left Nat.max l start <-> n <= start \/ exists x, In x l /\ n <= x.
Proof.
  induction l as [|y l IH]; intros start n; cbn [fold_left].
  - split; [auto|]. intros [H|(x & [] & _)]; exact H.
  - rewrite IH. split.
    + intros [H|(x & H1 & H2)].
      * destruct (Nat.max_dec start y) as [E|E]; rewrite E in H; [left; exact H|right; exists y; split; [left; reflexivity|exact H]].
      * right. exists x. split; [right; exact H1|exact H2].
    + intros [H|(x & [->|H1] & H2)]; [left; lia|left; lia|right; eauto].
Qed.

Lemma check_value_joins src p q : 1 <= check_value src p q <-> joins src p q.
Proof.
  unfold check_value. rewrite check_fold, fold_max_ge. unfold joins. apply or_iff_compat.
  - destruct (Nat.eqb_spec p q) as [->|Hne]; cbn [andb].
    + destruct (memb q (s_children src)) eqn:E.
      * apply memb_in in E. split; [auto|lia].
      * split; [lia|]. intros [_ H]. apply memb_in in H. congruence.
    + split; [lia|]. intros [H _]; contradiction.
  - split.
    + intros (x & Hx & Hle). apply in_map_iff in Hx as (l & <- & Hl).
      destruct (memb p (l_desc l) && memb q (l_desc l)) eqn:E; [|lia].
      apply andb_true_iff in E as [E1 E2]. apply memb_in in E1, E2. eauto.
    + intros (l & Hl & H1 & H2). apply memb_in in H1, H2.
      eexists. split; [apply in_map_iff; exists l; split; [reflexivity|exact Hl]|].
      rewrite H1, H2. cbn. lia.
Qed.
Lemma check_value_quantum src p q : 2 <= check_value src p q <-> joins_quantum src p q.
Proof.
  unfold check_value. rewrite check_fold, fold_max_ge. unfold joins_quantum.
  destruct (s_classical src); cbn [negb b2n andb].
  - split; [|intros [H _]; discriminate]. intros [H|(x & Hx & Hle)].
    + destruct ((p =? q) && memb p (s_children src)); cbn in H; lia.
    + apply in_map_iff in Hx as (l & <- & Hl). rewrite andb_false_r in Hle. cbn in Hle.
      destruct (memb p (l_desc l) && memb q (l_desc l)); lia.
  - transitivity ((p = q /\ In p (s_children src)) \/
      (exists l, In l (s_latents src) /\ l_nonclassical l = true /\ In p (l_desc l) /\ In q (l_desc l))); [|tauto].
    apply or_iff_compat.
    + destruct (Nat.eqb_spec p q) as [->|Hne]; cbn [andb].
      * destruct (memb q (s_children src)) eqn:E.
        -- apply memb_in in E. split; [auto|cbn; lia].
        -- split; [lia|]. intros [_ H]. apply memb_in in H. congruence.
      * split; [lia|]. intros [H _]; contradiction.
    + split.
      * intros (x & Hx & Hle). apply in_map_iff in Hx as (l & <- & Hl). rewrite andb_true_r in Hle.
        destruct (memb p (l_desc l) && memb q (l_desc l)) eqn:E; [|lia].
        apply andb_true_iff in E as [E1 E2]. apply memb_in in E1, E2.
        destruct (l_nonclassical l) eqn:El; cbn in Hle; [|lia]. eauto 6.
      * intros (l & Hl & Hn & H1 & H2). apply memb_in in H1, H2.
        eexists. split; [apply in_map_iff; exists l; split; [reflexivity|exact Hl]|].
        rewrite H1, H2, Hn. cbn. lia.
Qed.

Lemma mask_combine_all (f : nat -> nat -> bool) mask : forall a b, length a = length mask -> length b = length mask ->
  (forallb (fun ab => f (fst ab) (snd ab)) (combine (mask_select mask a) (mask_select mask b)) = true <->
   forall k, nth k mask false = true -> f (nth k a 0) (nth k b 0) = true).
Proof.
  induction mask as [|m mask IH]; intros [|x a] [|y b] Ha Hb; try discriminate; cbn [mask_select].
  - cbn. split; [intros _ k H; destruct k; discriminate|reflexivity].
  - cbn in Ha, Hb. specialize (IH a b (eq_add_S _ _ Ha) (eq_add_S _ _ Hb)). destruct m.
    + cbn [combine forallb fst snd]. rewrite andb_true_iff, IH. split.
      * intros [H1 H2] [|k]; cbn; auto.
      * intros H. split; [apply (H 0); reflexivity|]. intros k Hk. apply (H (S k) Hk).
    + rewrite IH. split; intros H; [intros [|k] Hk; cbn in *; [discriminate|auto]|]. intros k Hk. apply (H (S k) Hk).
Qed.
Lemma mask_eq mask : forall (a b : list nat), length a = length mask -> length b = length mask ->
  (mask_select mask a = mask_select mask b <-> forall k, nth k mask false = true -> nth k a 0 = nth k b 0).
Proof.
  induction mask as [|m mask IH]; intros [|x a] [|y b] Ha Hb; try discriminate; cbn [mask_select].
  - split; [intros _ k H; destruct k; discriminate|reflexivity].
  - cbn in Ha, Hb. specialize (IH a b (eq_add_S _ _ Ha) (eq_add_S _ _ Hb)). destruct m.
    + split.
      * intros [= E1 E2] [|k] Hk; cbn; [exact E1|]. apply IH; assumption.
      * intros H. f_equal; [apply (H 0); reflexivity|]. apply IH. intros k Hk. apply (H (S k) Hk).
    + rewrite IH. split; intros H; [intros [|k] Hk; cbn in *; [discriminate|auto]|]. intros k Hk. apply (H (S k) Hk).
Qed.
Lemma existsb_id l : existsb (fun b => b) l = true <-> exists k, nth k l false = true.
Proof.
  rewrite existsb_exists. split.
  - intros (b & Hb & ->). apply In_nth with (d := false) in Hb as (k & _ & Hk). eauto.
  - intros (k & Hk). exists true. split; [|reflexivity].
    destruct (Nat.lt_ge_cases k (length l)) as [H|H]; [rewrite <- Hk; apply nth_In, H|].
    rewrite nth_overflow in Hk by exact H. discriminate.
Qed.

Lemma nth_mask sc p q n k : nth k (map (fun v => n <=? v) (sources_to_check sc p q)) false = true <->
  exists src, nth_error (sources sc) k = Some src /\ n <= check_value src p q.
Proof.
  unfold sources_to_check. rewrite map_map.
  destruct (nth_error (sources sc) k) as [src|] eqn:E.
  - assert (nth k (map (fun x => n <=? check_value x p q) (sources sc)) false = (n <=? check_value src p q)).
    { apply nth_error_nth. rewrite nth_error_map, E. reflexivity. }
    rewrite H, Nat.leb_le. split; [eauto|]. intros (s & [= <-] & H'). exact H'.
  - rewrite nth_overflow by (rewrite map_length; apply nth_error_None, E).
    split; [discriminate|]. intros (s & H & _). discriminate.
Qed.

Lemma commute_correct sc p c s o p' c' s' o' :
  length c = nr_sources sc -> length c' = nr_sources sc ->
  (nb_operators_commute (sources_to_check sc) (mkrow (p + 1) c s o) (mkrow (p' + 1) c' s' o') = true
   <-> commute_rule sc p c s p' c' s').
Proof.
  intros Hc Hc'. unfold nb_operators_commute. rewrite !mkrow_party, !mkrow_copies, !mkrow_setting.
  replace (p + 1 - 1) with p by lia. replace (p' + 1 - 1) with p' by lia.
  assert (Lm : forall n, length (map (fun v => n <=? v) (sources_to_check sc p p')) = nr_sources sc).
  { intros n. unfold sources_to_check. rewrite !map_length. reflexivity. }
  set (quantum := map (fun v => 2 <=? v) (sources_to_check sc p p')) in *.
  set (all := map (fun v => 1 <=? v) (sources_to_check sc p p')) in *.
  assert (Lq : length quantum = nr_sources sc) by apply Lm.
  assert (La : length all = nr_sources sc) by apply Lm.
  unfold commute_rule.
  (* case 2, which subsumes case 1 *)
  assert (C2 : forallb (fun ab => negb (fst ab =? snd ab)) (combine (mask_select quantum c) (mask_select quantum c')) = true
    <-> forall k src, nth_error (sources sc) k = Some src -> joins_quantum src p p' -> nth k c 0 <> nth k c' 0).
  { rewrite (mask_combine_all (fun x y => negb (x =? y))) by (rewrite Lq; assumption). split.
    - intros H k src Hk Hj. specialize (H k). rewrite negb_true_iff, Nat.eqb_neq in H. apply H.
      apply nth_mask. exists src. split; [exact Hk|apply check_value_quantum, Hj].
    - intros H k Hk. apply nth_mask in Hk as (src & Hs & Hv). rewrite negb_true_iff, Nat.eqb_neq.
      apply (H k src Hs), check_value_quantum, Hv. }
  assert (C3 : mask_select all c = mask_select all c' <->
     forall k src, nth_error (sources sc) k = Some src -> joins src p p' -> nth k c 0 = nth k c' 0).
  { rewrite mask_eq by (rewrite La; assumption). split.
    - intros H k src Hk Hj. apply H, nth_mask. exists src. split; [exact Hk|apply check_value_joins, Hj].
    - intros H k Hk. apply nth_mask in Hk as (src & Hs & Hv). apply (H k src Hs), check_value_joins, Hv. }
  destruct (existsb (fun b => b) quantum) eqn:EX; cbn [negb].
  - destruct (forallb _ _) eqn:EF.
    + split; [|reflexivity]. intros _. left. apply C2; reflexivity.
    + assert (N2 : ~ (forall k src, nth_error (sources sc) k = Some src -> joins_quantum src p p' -> nth k c 0 <> nth k c' 0)).
      { intros H. apply C2 in H. discriminate. }
      destruct (list_eq_dec Nat.eq_dec (mask_select all c) (mask_select all c')) as [E|E]; cbn [negb].
      * rewrite C3 in E. destruct (Nat.eqb_spec p p') as [->|Hp]; cbn [negb].
        -- rewrite Nat.eqb_eq. split; [intros ->; right; auto|]. intros [H|[_ [H|H]]]; [contradiction|contradiction|exact H].
        -- split; [|reflexivity]. intros _. right. auto.
      * rewrite C3 in E. split; [discriminate|]. intros [H|[H _]]; contradiction.
  - split; [|reflexivity]. intros _. left. intros k src Hk Hj.
    assert (existsb (fun b => b) quantum = true); [|congruence].
    apply existsb_id. exists k. apply nth_mask. exists src. split; [exact Hk|apply check_value_quantum, Hj].
Qed.

Lemma joins_sym src p q : joins src p q -> joins src q p.
Proof. unfold joins. intros [[-> H]|(l & H1 & H2 & H3)]; [left; auto|right; eauto]. Qed.
Lemma joins_quantum_sym src p q : joins_quantum src p q -> joins_quantum src q p.
Proof. unfold joins_quantum. intros [H0 [[-> H]|(l & H1 & H2 & H3 & H4)]]; (split; [exact H0|]); [left; auto|right; eauto 6]. Qed.
Lemma commute_rule_sym sc p c s p' c' s' : commute_rule sc p c s p' c' s' -> commute_rule sc p' c' s' p c s.
Proof.
  intros [H|[H1 H2]]; [left|right].
  - intros k src Hk Hj E. apply (H k src Hk (joins_quantum_sym _ _ _ Hj)). auto.
  - split; [|destruct H2; auto]. intros k src Hk Hj. symmetry. apply (H1 k src Hk (joins_sym _ _ _ Hj)).
Qed.
Lemma commute_rule_refl sc p c s : commute_rule sc p c s p c s.
Proof. right. auto. Qed.

(** rows of the list, decomposed *)
Lemma lexorder_nth sc i r : wf_scenario sc -> nth_error (lexorder sc) i = Some r ->
  exists p c s o, r = mkrow (p + 1) c s o /\ valid_operator sc p c s o.
Proof. intros W H. apply (lexorder_in sc r W). eapply nth_error_In, H. Qed.

Lemma default_notcomm_spec sc i j p c s o p' c' s' o' : wf_scenario sc ->
  nth_error (lexorder sc) i = Some (mkrow (p + 1) c s o) ->
  nth_error (lexorder sc) j = Some (mkrow (p' + 1) c' s' o') ->
  (default_notcomm sc i j = false <-> commute_rule sc p c s p' c' s').
Proof.
  intros W Hi Hj.
  destruct (lexorder_nth sc i _ W Hi) as (p1 & c1 & s1 & o1 & E1 & V1).
  destruct (lexorder_nth sc j _ W Hj) as (p2 & c2 & s2 & o2 & E2 & V2).
  apply mkrow_inj in E1 as (E1 & <- & <- & <-). apply mkrow_inj in E2 as (E2 & <- & <- & <-).
  assert (p1 = p) as -> by lia. assert (p2 = p') as -> by lia.
  destruct V1 as (_ & L1 & _). destruct V2 as (_ & L2 & _).
  unfold default_notcomm. destruct (existsb (fun s0 => negb (s_classical s0)) (sources sc)) eqn:EQ.
  - unfold commutation_matrix. rewrite Hi, Hj.
    destruct (Nat.ltb_spec i j) as [Hlt|Hge].
    + rewrite negb_false_iff. apply commute_correct; assumption.
    + destruct (Nat.ltb_spec j i) as [Hlt'|Hge'].
      * rewrite negb_false_iff. rewrite commute_correct by assumption. split; apply commute_rule_sym.
      * assert (i = j) as -> by lia. rewrite Hi in Hj. injection Hj as Hj.
        assert (Hj' : mkrow (p + 1) c s o = mkrow (p' + 1) c' s' o') by (unfold mkrow; congruence).
        apply mkrow_inj in Hj' as (Ep & <- & <- & _). assert (p = p') as <- by lia.
        split; [intros _; apply commute_rule_refl|reflexivity].
  - split; [|reflexivity]. intros _. left. intros k src Hk [Hcl _]. exfalso.
    assert (existsb (fun s0 => negb (s_classical s0)) (sources sc) = true); [|congruence].
    apply existsb_exists. exists src. split; [eapply nth_error_In, Hk|]. rewrite Hcl. reflexivity.
Qed.

Lemma default_notcomm_range sc i j : default_notcomm sc i j = true ->
  i < length (lexorder sc) /\ j < length (lexorder sc).
Proof.
  unfold default_notcomm. destruct (existsb _ _); [|discriminate]. unfold commutation_matrix.
  destruct (nth_error (lexorder sc) i) eqn:Ei; [|discriminate]. destruct (nth_error (lexorder sc) j) eqn:Ej; [|discriminate].
  intros _. split; apply nth_error_Some; congruence.
Qed.

Lemma default_notcomm_sym sc i j : default_notcomm sc i j = default_notcomm sc j i.
Proof.
  unfold default_notcomm. destruct (existsb _ _); [|reflexivity]. unfold commutation_matrix.
  destruct (nth_error (lexorder sc) i), (nth_error (lexorder sc) j); try reflexivity.
  destruct (Nat.ltb_spec i j), (Nat.ltb_spec j i); try lia; reflexivity.
Qed.
Lemma default_notcomm_diag sc i : default_notcomm sc i i = false.
Proof.
  unfold default_notcomm. destruct (existsb _ _); [|reflexivity]. unfold commutation_matrix.
  destruct (nth_error (lexorder sc) i); [|reflexivity]. rewrite Nat.ltb_irrefl. reflexivity.
Qed.

(** rows of one measurement have the same commutation row *)
Lemma same_measurement_row sc a b x ra rb : wf_scenario sc ->
  nth_error (lexorder sc) a = Some ra -> nth_error (lexorder sc) b = Some rb ->
  removelast ra = removelast rb ->
  default_notcomm sc a x = default_notcomm sc b x.
Proof.
  intros W Ha Hb E.
  destruct (lexorder_nth sc a _ W Ha) as (p1 & c1 & s1 & o1 & -> & V1).
  destruct (lexorder_nth sc b _ W Hb) as (p2 & c2 & s2 & o2 & -> & V2).
  rewrite !mkrow_removelast in E. injection E as Ep Ec.
  apply app_inj_tail in Ec as [<- <-]. assert (p2 = p1) as -> by lia.
  destruct (nth_error (lexorder sc) x) as [rx|] eqn:Hx.
  - destruct (lexorder_nth sc x _ W Hx) as (p3 & c3 & s3 & o3 & -> & V3).
    pose proof (default_notcomm_spec sc a x _ _ _ _ _ _ _ _ W Ha Hx) as H1.
    pose proof (default_notcomm_spec sc b x _ _ _ _ _ _ _ _ W Hb Hx) as H2.
    destruct (default_notcomm sc a x), (default_notcomm sc b x); try reflexivity; exfalso.
    + assert (true = false); [|discriminate]. apply H1, H2. reflexivity.
    + assert (true = false); [|discriminate]. apply H2, H1. reflexivity.
  - assert (Hf : forall y, default_notcomm sc y x = false).
    { intros y. destruct (default_notcomm sc y x) eqn:E; [|reflexivity].
      apply default_notcomm_range in E as [_ E]. apply nth_error_None in Hx. lia. }
    rewrite !Hf. reflexivity.
Qed.

(** lexicographic order keeps measurements together *)
Lemma lex_between p : forall u v w, lex_lt (p ++ [u]) w -> lex_lt w (p ++ [v]) ->
  length w = S (length p) -> exists t, w = p ++ [t].
Proof.
  induction p as [|a p IH]; intros u v w H1 H2 Hl; cbn in *.
  - destruct w as [|t [|t' w]]; try discriminate. exists t; auto.
  - destruct w as [|b w]; [discriminate|]. cbn in Hl.
    inversion H1 as [|? ? ? ? Hab|? ? ? H1']; subst.
    + inversion H2; subst; lia.
    + inversion H2 as [|? ? ? ? Hab|? ? ? H2']; subst; [lia|].
      destruct (IH u v w H1' H2' ltac:(lia)) as (t & ->). exists t; auto.
Qed.

Lemma sdp_nth sc i : nth_error (sdp_lexorder sc) (S i) = nth_error (lexorder sc) i.
Proof. reflexivity. Qed.

Lemma sdp_ortho_S sc i j : sdp_orthomat sc (S i) (S j) = true <->
  exists a b, nth_error (lexorder sc) i = Some a /\ nth_error (lexorder sc) j = Some b /\
    i <> j /\ row_outcome a <> row_outcome b /\ removelast a = removelast b.
Proof.
  unfold sdp_orthomat. cbn [Nat.eqb orb]. rewrite !sdp_nth.
  destruct (nth_error (lexorder sc) i) as [a|]; [|split; [discriminate|intros (a & b & H & _); discriminate]].
  destruct (nth_error (lexorder sc) j) as [b|]; [|split; [discriminate|intros (a' & b & _ & H & _); discriminate]].
  rewrite !andb_true_iff, !negb_true_iff, !Nat.eqb_neq.
  destruct (row_eqb_spec (removelast a) (removelast b)) as [E|E].
  - split; [|intros (a' & b' & [= <-] & [= <-] & H1 & H2 & H3); auto].
    intros [[H1 H2] _]. exists a, b. auto.
  - split; [intros [_ H]; discriminate|]. intros (a' & b' & [= <-] & [= <-] & H1 & H2 & H3). contradiction.
Qed.

Lemma row_length sc i r : wf_scenario sc -> nth_error (lexorder sc) i = Some r -> length r = 1 + nr_sources sc + 2.
Proof.
  intros W H. destruct (lexorder_nth sc i r W H) as (p & c & s & o & -> & (_ & L & _)).
  unfold mkrow. cbn. rewrite app_length, L. cbn. lia.
Qed.

Lemma row_split (r : row) : r <> [] -> r = removelast r ++ [row_outcome r].
Proof. intros H. apply app_removelast_last, H. Qed.

Lemma row_eq_of_parts a b : a <> [] -> b <> [] -> removelast a = removelast b -> row_outcome a = row_outcome b -> a = b.
Proof. intros Ha Hb E1 E2. rewrite (row_split a Ha), (row_split b Hb), E1, E2. reflexivity. Qed.

Theorem scenario_good_tables sc : wf_scenario sc -> good_tables (sdp_notcomm sc) (sdp_orthomat sc).
Proof.
  intros W.
  assert (Hne : forall i r, nth_error (lexorder sc) i = Some r -> r <> []).
  { intros i r H ->. apply row_length in H; [cbn in H; lia|exact W]. }
  split.
  - intros [|a] [|b]; try reflexivity. apply default_notcomm_sym.
  - intros [|a]; [reflexivity|]. apply default_notcomm_diag.
  - intros [|a]; reflexivity.
  - intros a b. apply eq_iff_eq_true. destruct a as [|a], b as [|b]; try (split; reflexivity).
    rewrite !sdp_ortho_S. split; intros (x & y & H1 & H2 & H3 & H4 & H5); exists y, x; repeat split; auto.
  - intros [|a] H; [lia|]. apply not_true_iff_false. rewrite sdp_ortho_S. intros (x & y & _ & _ & H1 & _). lia.
  - intros [|a]; reflexivity.
  - intros [|a] [|b] [|c] Ha Hb Hc Hac; try lia. rewrite !sdp_ortho_S.
    intros (x & y & X1 & Y1 & N1 & O1 & R1) (y' & z & Y2 & Z2 & N2 & O2 & R2).
    rewrite Y1 in Y2; injection Y2 as <-. exists x, z. repeat split; auto; [|congruence].
    intros E. assert (x = z) as -> by (apply row_eq_of_parts; eauto; congruence).
    assert (a = c); [|congruence].
    apply (proj1 (NoDup_nth_error (lexorder sc)) (lexorder_NoDup sc W)); [apply nth_error_Some; congruence|congruence].
  - intros [|a] [|b] c Ha Hb; try lia. rewrite sdp_ortho_S. intros (x & y & X1 & Y1 & N1 & O1 & R1).
    destruct c as [|c]; [reflexivity|]. cbn. eapply same_measurement_row; eassumption.
  - intros [|a] [|b] [|c] Ha; try lia. rewrite !sdp_ortho_S. intros (x & y & X1 & Y1 & N1 & O1 & R1) [H1 H2].
    assert (Hcl : c < length (lexorder sc)).
    { assert (b < length (lexorder sc)) by (apply nth_error_Some; congruence). lia. }
    destruct (nth_error (lexorder sc) c) as [z|] eqn:Z1; [|apply nth_error_None in Z1; lia].
    pose proof (SS_nth lex_lt _ (lexorder_SS sc W) a c x z ltac:(lia) X1 Z1) as L1.
    pose proof (SS_nth lex_lt _ (lexorder_SS sc W) c b z y ltac:(lia) Z1 Y1) as L2.
    rewrite (row_split x (Hne _ _ X1)) in L1. rewrite (row_split y (Hne _ _ Y1)), <- R1 in L2.
    destruct (lex_between (removelast x) (row_outcome x) (row_outcome y) z L1 L2) as (t & Ez).
    { rewrite (row_length _ _ _ W Z1). pose proof (row_length _ _ _ W X1) as Lx.
      rewrite (row_split x (Hne _ _ X1)), app_length in Lx. cbn in Lx. lia. }
    exists x, z. repeat split; auto; [lia| |].
    + intros E. assert (a = c); [|lia].
      apply (proj1 (NoDup_nth_error (lexorder sc)) (lexorder_NoDup sc W)); [apply nth_error_Some; congruence|].
      rewrite X1, Z1. f_equal. apply row_eq_of_parts; eauto. rewrite Ez, removelast_snoc. reflexivity.
    + rewrite Ez, removelast_snoc. reflexivity.
Qed.

(** ** effective settings *)
Lemma assoc_combine {A} (l : list A) : forall a x,
  assoc (combine (seq a (length l)) l) x = if x <? a then None else nth_error l (x - a).
Proof.
  induction l as [|y l IH]; intros a x; cbn [length seq combine assoc].
  - destruct (x <? a); [reflexivity|]. destruct (x - a); reflexivity.
  - destruct (Nat.eqb_spec a x) as [->|H].
    + rewrite Nat.ltb_irrefl, Nat.sub_diag. reflexivity.
    + rewrite IH. destruct (Nat.ltb_spec x (S a)), (Nat.ltb_spec x a); try lia; [reflexivity|].
      destruct (x - a) as [|n] eqn:E; [lia|]. replace (x - S a) with n by lia. reflexivity.
Qed.
Lemma effective_assoc sc p x : assoc (effective_to_parent sc p) x = nth_error (ndindex (setting_shape sc p)) x.
Proof.
  unfold effective_to_parent, nr_settings. rewrite <- ndindex_length, assoc_combine. cbn [Nat.ltb Nat.leb].
  rewrite Nat.sub_0_r. reflexivity.
Qed.
Lemma effective_bijection sc p :
  let shape := setting_shape sc p in
  (forall x, x < nr_settings sc p -> exists t, assoc (effective_to_parent sc p) x = Some t /\ Forall2 lt t shape) /\
  (forall x, nr_settings sc p <= x -> assoc (effective_to_parent sc p) x = None) /\
  (forall t, Forall2 lt t shape -> exists x, x < nr_settings sc p /\ assoc (effective_to_parent sc p) x = Some t) /\
  (forall x y t t', assoc (effective_to_parent sc p) x = Some t -> assoc (effective_to_parent sc p) y = Some t' ->
     (x < y <-> lex_lt t t')).
Proof.
  cbn zeta. unfold nr_settings. repeat split.
  - intros x Hx. rewrite effective_assoc. rewrite <- ndindex_length in Hx.
    destruct (nth_error (ndindex (setting_shape sc p)) x) as [t|] eqn:E; [|apply nth_error_None in E; lia].
    exists t. split; [reflexivity|]. apply ndindex_in. eapply nth_error_In, E.
  - intros x Hx. rewrite effective_assoc. apply nth_error_None. rewrite ndindex_length. exact Hx.
  - intros t Ht. apply ndindex_in in Ht. apply In_nth_error in Ht as [x Hx]. exists x. rewrite effective_assoc. split; [|exact Hx].
    rewrite <- ndindex_length. apply nth_error_Some. congruence.
  - rewrite effective_assoc in *. intros Hlt. eapply (SS_nth lex_lt _ (ndindex_SS _)); eassumption.
  - rewrite effective_assoc in *. intros Hl. destruct (Nat.lt_trichotomy x y) as [L|[->|L]]; [exact L| |].
    + rewrite H in H0. injection H0 as <-. exfalso. exact (lex_lt_irrefl _ Hl).
    + exfalso. apply (lex_lt_irrefl t). eapply lex_lt_trans; [exact Hl|].
      eapply (SS_nth lex_lt _ (ndindex_SS _)); eassumption.
Qed.
