(** Factors of related events: relabellings of the factors combine into one, and the factors of an
    event are determined by it. *)
From Coq Require Import List Arith Bool Lia Permutation Sorted Relation_Operators.
From Verif Require Import ScenarioModel ScenarioSpec SymModel SymSpec FactorModel FactorSpec LPModel LPSpec InflatedSpec LPMomentModel LPMomentProofs LPMomentProofs2.
From Verif Require ScenarioProofs SymProofs FactorProofs LPProofs LPProofs4 LPProofs8 LPProofs9 ClassicalProofs.
Import ListNotations.
Close Scope nat_scope. Open Scope nat_scope.

(** ** A partial injection of copies extends to a permutation *)
Definition swap (a b x : nat) : nat := if x =? a then b else if x =? b then a else x.
Fixpoint extension (R : list (nat * nat)) : nat -> nat :=
  match R with [] => fun x => x | (a, b) :: R' => fun x => swap (extension R' a) b (extension R' x) end.
Definition partial_injection (L : nat) (R : list (nat * nat)) : Prop :=
  (forall a b, In (a, b) R -> 1 <= a <= L /\ 1 <= b <= L) /\
  (forall a b a' b', In (a, b) R -> In (a', b') R -> (a = a' <-> b = b')).
Lemma swap_cases a b x : (x = a /\ swap a b x = b) \/ (x <> a /\ x = b /\ swap a b x = a) \/ (x <> a /\ x <> b /\ swap a b x = x).
Proof. unfold swap. destruct (Nat.eqb_spec x a); [auto|]. destruct (Nat.eqb_spec x b); auto. Qed.
Lemma extension_ok L R : partial_injection L R ->
  extension R 0 = 0 /\ (forall c, 1 <= c <= L -> 1 <= extension R c <= L) /\
  (forall c c', 1 <= c <= L -> 1 <= c' <= L -> extension R c = extension R c' -> c = c') /\ forall a b, In (a, b) R -> extension R a = b.
Proof.
  induction R as [|[a b] R IH]; intros [H1 H2].
  - cbn. split; [reflexivity|]. split; [auto|]. split; [auto|]. intros a b [].
  - destruct IH as (E0 & E1 & E2 & E3). { split; [intros a' b' H; apply H1; right; exact H|intros a' b' a'' b'' H H'; apply H2; right; assumption]. }
    destruct (H1 a b (or_introl eq_refl)) as [Ha Hb]. pose proof (E1 a Ha) as Ra. cbn [extension]. split; [|split; [|split]].
    + rewrite E0. destruct (swap_cases (extension R a) b 0) as [[K ->]|[(K & K' & ->)|(K & K' & ->)]]; lia.
    + intros c Hc. pose proof (E1 c Hc). destruct (swap_cases (extension R a) b (extension R c)) as [[K ->]|[(K & K' & ->)|(K & K' & ->)]]; lia.
    + intros c c' Hc Hc' E. apply E2; auto. pose proof (E1 c Hc). destruct (swap_cases (extension R a) b (extension R c)) as [[K Q]|[(K & K' & Q)|(K & K' & Q)]], (swap_cases (extension R a) b (extension R c')) as [[J Q']|[(J & J' & Q')|(J & J' & Q')]]; rewrite Q, Q' in E; congruence.
    + intros a' b' [H|H].
      * assert (a' = a) by congruence. assert (b' = b) by congruence. subst a' b'. destruct (swap_cases (extension R a) b (extension R a)) as [[_ ->]|[(K & _)|(K & _)]]; [reflexivity|congruence|congruence].
      * pose proof (E3 a' b' H) as Q. rewrite Q. pose proof (H2 a b a' b' (or_introl eq_refl) (or_intror H)) as [K1 K2]. destruct (H1 a' b' (or_intror H)) as [Ha' _].
        destruct (swap_cases (extension R a) b b') as [[K ->]|[(K & K' & ->)|(_ & _ & ->)]]; [| |reflexivity].
        -- rewrite K in Q. apply E2 in Q; [|exact Ha'|exact Ha]. apply K1. congruence.
        -- exfalso. apply K. rewrite <- Q. f_equal. symmetry. apply K2. congruence.
Qed.

Section Glue.
Variables (sc : scenario) (W : wf_scenario sc) (Hout : forall o, In o (outcomes sc) -> 1 <= o).
Notation n := (length (lexorder sc)).
Notation syms := (discover_lexorder_symmetries sc).

(** the operators of [f'] are those that the relabelling sends into [f] *)
Definition moved (sg : relabelling) (g : list nat) (f f' : list nat) : Prop :=
  is_relabelling sc sg /\ induces sc sg g /\ forall i, i < n -> (In i f' <-> In (nth i g 0) f).
Lemma related_moved f f' : LPProofs4.related syms (event_of sc f) (event_of sc f') <-> exists sg g, moved sg g f f'.
Proof.
  split.
  - intros (g & Hg & E). apply SymProofs.discover_exact in Hg as (sg & R & J); [|exact W]. exists sg, g. split; [exact R|]. split; [exact J|]. intros i Hi.
    assert (Q := f_equal (fun l => nth i l false) E). cbn beta in Q. change (nth i (permuted (event_of sc f) g) false = nth i (event_of sc f') false) in Q.
    assert (Lg : i < length g) by (rewrite (proj1 J); exact Hi). rewrite ClassicalProofs.nth_permuted in Q by exact Lg.
    assert (B : nth i g 0 < n). { pose proof (SymProofs.induces_perm sc sg g W R J) as Pg. assert (K : In (nth i g 0) (seq 0 n)) by (apply (Permutation_in _ Pg), nth_In, Lg). apply in_seq in K. lia. }
    assert (A1 := event_of_nth sc f (nth i g 0)). assert (A2 := event_of_nth sc f' i). rewrite Q in A1. tauto.
  - intros (sg & g & R & J & H). exists g. split; [apply SymProofs.discover_exact; eauto|]. change (permuted (event_of sc f) g = event_of sc f').
    apply (LPProofs.bvec_ext n); [unfold permuted; rewrite map_length; apply J|apply event_of_length|]. intros i Hi. apply eq_true_iff_eq.
    assert (Lg : i < length g) by (rewrite (proj1 J); exact Hi). rewrite ClassicalProofs.nth_permuted by exact Lg.
    assert (B : nth i g 0 < n). { pose proof (SymProofs.induces_perm sc sg g W R J) as Pg. assert (K : In (nth i g 0) (seq 0 n)) by (apply (Permutation_in _ Pg), nth_In, Lg). apply in_seq in K. lia. }
    rewrite !event_of_nth. specialize (H i Hi). tauto.
Qed.
Lemma moved_range sg g i : is_relabelling sc sg -> induces sc sg g -> i < n -> nth i g 0 < n.
Proof.
  intros R J Hi. pose proof (SymProofs.induces_perm sc sg g W R J) as Pg. assert (K : In (nth i g 0) (seq 0 n)) by (apply (Permutation_in _ Pg), nth_In; rewrite (proj1 J); exact Hi). apply in_seq in K. lia.
Qed.
Lemma moved_inj sg g i j : is_relabelling sc sg -> induces sc sg g -> i < n -> j < n -> nth i g 0 = nth j g 0 -> i = j.
Proof.
  intros R J Hi Hj E. pose proof (SymProofs.induces_perm sc sg g W R J) as Pg. assert (N : NoDup g) by (eapply Permutation_NoDup; [apply Permutation_sym, Pg|apply seq_NoDup]).
  apply (proj1 (NoDup_nth g 0) N); rewrite ?(proj1 J); assumption.
Qed.
Lemma moved_onto sg g q : is_relabelling sc sg -> induces sc sg g -> q < n -> exists i, i < n /\ nth i g 0 = q.
Proof.
  intros R J Hq. pose proof (SymProofs.induces_perm sc sg g W R J) as Pg. assert (K : In q g) by (apply (Permutation_in _ (Permutation_sym Pg)), in_seq; lia).
  apply (In_nth _ _ 0) in K as (i & Hi & E). exists i. split; [rewrite (proj1 J) in Hi; exact Hi|exact E].
Qed.
Lemma copies_valid i : i < n -> exists p s o, nth_error (lexorder sc) i = Some (mkrow (p + 1) (copies sc i) s o) /\ valid_operator sc p (copies sc i) s o.
Proof. intros Hi. destruct (SymProofs.lexorder_parts sc i W Hi) as (p & c & s & o & E & V). rewrite (copies_row sc i _ _ _ _ E). eauto. Qed.
Lemma copies_moved sg g i : is_relabelling sc sg -> induces sc sg g -> i < n -> copies sc (nth i g 0) = relabel sg (copies sc i).
Proof. intros R J Hi. destruct (copies_valid i Hi) as (p & s & o & E & V). apply (copies_row sc (nth i g 0) (p + 1) _ s o). apply (SymProofs.induces_nth _ _ _ _ _ _ _ _ J E). Qed.
Lemma copies_length i : i < n -> length (copies sc i) = nr_sources sc.
Proof. intros Hi. destruct (copies_valid i Hi) as (p & s & o & E & V). apply V. Qed.
Lemma copies_le i k : i < n -> k < nr_sources sc -> nth k (copies sc i) 0 <= nth k (levels sc) 0.
Proof. intros Hi Hk. destruct (copies_valid i Hi) as (p & s & o & E & V). eapply SymProofs.valid_copy; eauto. Qed.
Lemma share_moved sg g i j : is_relabelling sc sg -> induces sc sg g -> i < n -> j < n -> (share_copy (copies sc (nth i g 0)) (copies sc (nth j g 0)) <-> share_copy (copies sc i) (copies sc j)).
Proof.
  intros R J Hi Hj. rewrite !(copies_moved sg g) by assumption. destruct (copies_valid i Hi) as (p & s & o & _ & V). destruct (copies_valid j Hj) as (p' & s' & o' & _ & V'). eapply SymProofs.share_copy_relabel; eauto.
Qed.
(** two relabellings that agree on the copies of an operator send it to the same operator *)
Lemma moved_agree sg g sg' g' i : induces sc sg g -> induces sc sg' g' -> i < n ->
  (forall k, k < nr_sources sc -> sg k (nth k (copies sc i) 0) = sg' k (nth k (copies sc i) 0)) -> nth i g 0 = nth i g' 0.
Proof.
  intros J J' Hi H. destruct (copies_valid i Hi) as (p & s & o & E & V). pose proof (SymProofs.induces_nth _ _ _ _ _ _ _ _ J E) as E1. pose proof (SymProofs.induces_nth _ _ _ _ _ _ _ _ J' E) as E2.
  rewrite (SymProofs.relabel_ext sg sg') in E1 by (intros k Hk; apply H; rewrite <- (copies_length i Hi); exact Hk).
  assert (L : nth i g 0 < n) by (apply nth_error_Some; congruence). apply (proj1 (NoDup_nth_error (lexorder sc)) (ScenarioProofs.lexorder_NoDup sc W)); [exact L|congruence].
Qed.

Definition apart (fs : list (list nat)) : Prop :=
  forall i j k k', i < length fs -> j < length fs -> In k (nth i fs []) -> In k' (nth j fs []) -> share_copy (copies sc k) (copies sc k') -> i = j.
Definition in_bounds (fs : list (list nat)) : Prop := forall f k, In f fs -> In k f -> k < n.
Lemma choose_moves fs fs' : Forall2 (fun f f' => exists sg g, moved sg g f f') fs fs' ->
  exists ms : list (relabelling * list nat), length ms = length fs' /\ forall j, j < length fs' -> moved (fst (nth j ms (fun _ x => x, []))) (snd (nth j ms (fun _ x => x, []))) (nth j fs []) (nth j fs' []).
Proof.
  induction 1 as [|f f' fs fs' (sg & g & H) _ (ms & L & IH)]; [exists []; split; [reflexivity|cbn; lia]|]. exists ((sg, g) :: ms). split; [cbn; congruence|].
  intros [|j] Hj; cbn [nth fst snd]; [exact H|]. apply IH. cbn in Hj. lia.
Qed.
(** copies of source [k] used by the factors, with the copies they are sent to *)
Definition copy_pairs (ms : list (relabelling * list nat)) (fs' : list (list nat)) (k : nat) : list (nat * nat) :=
  flat_map (fun j => flat_map (fun i => let c := nth k (copies sc i) 0 in if c =? 0 then [] else [(c, fst (nth j ms (fun _ x => x, [])) k c)]) (nth j fs' [])) (seq 0 (length fs')).
Lemma copy_pairs_in ms fs' k a b : In (a, b) (copy_pairs ms fs' k) <-> exists j i, j < length fs' /\ In i (nth j fs' []) /\ a = nth k (copies sc i) 0 /\ a <> 0 /\ b = fst (nth j ms (fun _ x => x, [])) k a.
Proof.
  unfold copy_pairs. rewrite in_flat_map. split.
  - intros (j & Hj & H). apply in_seq in Hj. apply in_flat_map in H as (i & Hi & H). cbv zeta in H. destruct (nth k (copies sc i) 0 =? 0) eqn:Z; [destruct H|]. destruct H as [H|[]]. apply Nat.eqb_neq in Z.
    assert (a = nth k (copies sc i) 0) by congruence. exists j, i. split; [lia|]. split; [exact Hi|]. split; [congruence|]. split; congruence.
  - intros (j & i & Hj & Hi & Ea & Na & Eb). exists j. split; [apply in_seq; lia|]. apply in_flat_map. exists i. split; [exact Hi|]. cbv zeta. rewrite <- Ea. apply Nat.eqb_neq in Na. rewrite Na. left. congruence.
Qed.
Lemma glue fs fs' : apart fs -> apart fs' -> in_bounds fs -> in_bounds fs' -> Forall2 (fun f f' => exists sg g, moved sg g f f') fs fs' ->
  exists sg g, moved sg g (concat fs) (concat fs').
Proof.
  intros A A' B B' F. pose proof (ScenarioProofs.Forall2_len _ _ _ F) as LL. destruct (choose_moves fs fs' F) as (ms & L & M). set (d := (fun _ x : nat => x, @nil nat)) in *.
  set (sg := fun k c => if c =? 0 then 0 else extension (copy_pairs ms fs' k) c).
  assert (BN : forall j i, j < length fs' -> In i (nth j fs' []) -> i < n) by (intros j i Hj Hi; apply (B' (nth j fs' []) i); [apply nth_In, Hj|exact Hi]).
  assert (BF : forall j i, j < length fs -> In i (nth j fs []) -> i < n) by (intros j i Hj Hi; apply (B (nth j fs []) i); [apply nth_In, Hj|exact Hi]).
  assert (PI : forall k, k < nr_sources sc -> partial_injection (nth k (levels sc) 0) (copy_pairs ms fs' k)).
  { intros k Hk. split.
    - intros a b H. apply copy_pairs_in in H as (j & i & Hj & Hi & Ea & Na & ->). pose proof (copies_le i k (BN j i Hj Hi) Hk) as Le. assert (Ra : 1 <= a <= nth k (levels sc) 0) by lia. split; [exact Ra|].
      destruct (M j Hj) as (R & _). apply (proj1 (proj2 (R k Hk))), Ra.
    - intros a b a' b' H H'. apply copy_pairs_in in H as (j & i & Hj & Hi & Ea & Na & ->). apply copy_pairs_in in H' as (j' & i' & Hj' & Hi' & Ea' & Na' & ->). fold d.
      pose proof (BN j i Hj Hi) as Bi. pose proof (BN j' i' Hj' Hi') as Bi'.
      pose proof (copies_le i k Bi Hk) as Le. pose proof (copies_le i' k Bi' Hk) as Le'.
      split.
      + intros Q. assert (j = j'); [|subst; congruence]. apply (A' j j' i i'); auto. exists k. split; congruence.
      + intros Q. destruct (M j Hj) as (R & J & H). destruct (M j' Hj') as (R' & J' & H').
        assert (j = j').
        { apply (A j j' (nth i (snd (nth j ms d)) 0) (nth i' (snd (nth j' ms d)) 0)); [lia|lia|apply H; [exact Bi|exact Hi]|apply H'; [exact Bi'|exact Hi']|].
          rewrite (copies_moved _ _ i R J Bi), (copies_moved _ _ i' R' J' Bi'). exists k.
          rewrite !SymProofs.nth_relabel by (rewrite copies_length; assumption). rewrite <- Ea, <- Ea'. split; [|exact Q]. destruct (R k Hk) as (_ & R1 & _). specialize (R1 a ltac:(lia)). lia. }
        subst j'. destruct (R k Hk) as (_ & _ & R2). apply R2; [lia|lia|exact Q]. }
  assert (R : is_relabelling sc sg).
  { intros k Hk. destruct (extension_ok _ _ (PI k Hk)) as (_ & E1 & E2 & _). unfold sg. split; [reflexivity|]. split.
    - intros c Hc. destruct c as [|c]; [lia|]. cbn [Nat.eqb]. apply E1, Hc.
    - intros c c' Hc Hc'. destruct c as [|c]; [lia|]. destruct c' as [|c']; [lia|]. cbn [Nat.eqb]. apply E2; assumption. }
  destruct (SymProofs.induces_exists sc sg W R) as (g & J). exists sg, g.
  assert (AG : forall j i, j < length fs' -> In i (nth j fs' []) -> nth i g 0 = nth i (snd (nth j ms d)) 0).
  { intros j i Hj Hi. destruct (M j Hj) as (Rj & Jj & _). apply (moved_agree sg g _ _ i J Jj (BN j i Hj Hi)). intros k Hk. unfold sg. destruct (nth k (copies sc i) 0 =? 0) eqn:Z.
    - apply Nat.eqb_eq in Z. rewrite Z. symmetry. exact (proj1 (Rj k Hk)).
    - apply Nat.eqb_neq in Z. destruct (extension_ok _ _ (PI k Hk)) as (_ & _ & _ & E3). apply E3, copy_pairs_in. exists j, i. auto. }
  split; [exact R|]. split; [exact J|]. intros i Hi. rewrite !in_concat. split.
  - intros (f' & Hf' & Hif). apply (In_nth _ _ []) in Hf' as (j & Hj & <-). exists (nth j fs []). split; [apply nth_In; lia|]. rewrite (AG j i Hj Hif). destruct (M j Hj) as (_ & _ & H). apply H; assumption.
  - intros (f & Hf & Hq). apply (In_nth _ _ []) in Hf as (j & Hj & <-). assert (Hj' : j < length fs') by lia. destruct (M j Hj') as (Rj & Jj & H).
    destruct (moved_onto _ _ (nth i g 0) Rj Jj) as (i' & Hi' & E); [apply (moved_range sg g i R J Hi)|]. assert (K : In i' (nth j fs' [])) by (apply H; [exact Hi'|rewrite E; exact Hq]).
    rewrite <- (AG j i' Hj' K) in E. apply (moved_inj sg g i' i R J Hi' Hi) in E. subst i'. exists (nth j fs' []). split; [apply nth_In, Hj'|exact K].
Qed.

(** ** Factors are determined by the event *)
Lemma connected_stays mon fs k k' f : (forall k, In k mon -> k < n) -> factor_facts sc mon fs -> connected sc mon k k' -> In f fs -> (In k f <-> In k' f).
Proof.
  intros B F C Hf. assert (H : forall x y, In x mon -> In y mon -> share_copy (copies sc x) (copies sc y) -> In x f -> In y f).
  { intros x y _ Hy Sh Hx. apply (ff_in _ _ _ F) in Hy as (f' & Hf' & Hy). apply (In_nth _ _ []) in Hf as (i & Hi & <-). apply (In_nth _ _ []) in Hf' as (j & Hj & <-).
    assert (i = j) by (apply (ff_apart _ _ _ F i j x y); auto). subst j. exact Hy. }
  induction C as [x y (H1 & H2 & H3)|x|x y _ IH|x y z _ IH1 _ IH2]; [|tauto|tauto|tauto]. split; apply H; auto.
  destruct H3 as (q & Q1 & Q2). exists q. split; congruence.
Qed.
Lemma factors_apart_nodup mon fs : (forall k, In k mon -> k < n) -> factor_facts sc mon fs -> NoDup fs.
Proof.
  intros B F. apply (NoDup_nth fs []). intros i j Hi Hj E. assert (NE := ff_nonempty _ _ _ F (nth i fs []) (nth_In _ _ Hi)). destruct (nth i fs []) as [|k f] eqn:Ei; [congruence|].
  apply (ff_apart _ _ _ F i j k k Hi Hj); [rewrite Ei; left; reflexivity|rewrite <- E; left; reflexivity|]. apply (copies_self sc W). apply B, (ff_in _ _ _ F). exists (nth i fs []). split; [apply nth_In, Hi|rewrite Ei; left; reflexivity].
Qed.
Lemma factors_unique mon mon' fs fs' : (forall k, In k mon -> k < n) -> (forall k, In k mon <-> In k mon') -> factor_facts sc mon fs -> factor_facts sc mon' fs' -> Permutation fs fs'.
Proof.
  intros B EM F F'. assert (B' : forall k, In k mon' -> k < n) by (intros k Hk; apply B, EM, Hk).
  assert (C : forall k k', connected sc mon k k' -> connected sc mon' k k').
  { intros k k' H. induction H as [x y (H1 & H2 & H3)|x|x y _ IH|x y z _ IH1 _ IH2]; [apply rst_step; rewrite <- !EM; auto|apply rst_refl|apply rst_sym, IH|eapply rst_trans; eassumption]. }
  assert (C' : forall k k', connected sc mon' k k' -> connected sc mon k k').
  { intros k k' H. induction H as [x y (H1 & H2 & H3)|x|x y _ IH|x y z _ IH1 _ IH2]; [apply rst_step; rewrite !EM; auto|apply rst_refl|apply rst_sym, IH|eapply rst_trans; eassumption]. }
  assert (G : forall m1 m2 f1 f2, (forall k, In k m1 -> k < n) -> (forall k, In k m2 -> k < n) -> (forall k, In k m1 <-> In k m2) -> factor_facts sc m1 f1 -> factor_facts sc m2 f2 ->
     (forall k k', connected sc m1 k k' -> connected sc m2 k k') -> (forall k k', connected sc m2 k k' -> connected sc m1 k k') -> forall f, In f f1 -> In f f2).
  { intros m1 m2 f1 f2 B1 B2 E F1 F2 C1 C2 f Hf. pose proof (ff_nonempty _ _ _ F1 f Hf) as NE. destruct f as [|k f0] eqn:Ef; [congruence|]. rewrite <- Ef in *. assert (Hk : In k f) by (rewrite Ef; left; reflexivity).
    assert (Hm : In k m2) by (apply E, (ff_in _ _ _ F1); eauto). apply (ff_in _ _ _ F2) in Hm as (f' & Hf' & Hk').
    assert (f = f'); [|subst f'; exact Hf']. apply SSlt_ext; [apply (ff_sorted _ _ _ F1), Hf|apply (ff_sorted _ _ _ F2), Hf'|]. intros x. split; intros Hx.
    - apply (connected_stays m2 f2 k x f' B2 F2); [apply C1, (ff_connected _ _ _ F1 f); assumption|exact Hf'|exact Hk'].
    - apply (connected_stays m1 f1 k x f B1 F1); [apply C2, (ff_connected _ _ _ F2 f'); assumption|exact Hf|exact Hk]. }
  apply NoDup_Permutation; [apply (factors_apart_nodup mon fs B F)|apply (factors_apart_nodup mon' fs' B' F')|]. intros f. split.
  - apply (G mon mon' fs fs'); auto.
  - apply (G mon' mon fs' fs); auto. intros k. rewrite EM. tauto.
Qed.
(** factors of the image of an event *)
Definition preimage (g : list nat) (f : list nat) : list nat := filter (fun i => memb (nth i g 0) f) (seq 0 n).
Lemma preimage_in g f i : In i (preimage g f) <-> i < n /\ In (nth i g 0) f.
Proof. unfold preimage. rewrite filter_In, in_seq, ScenarioProofs.memb_in. split; intros [H1 H2]; (split; [lia|exact H2]). Qed.
Lemma factors_moved sg g mon mon' fs : moved sg g mon mon' -> (forall k, In k mon -> k < n) -> (forall k, In k mon' -> k < n) -> factor_facts sc mon fs -> factor_facts sc mon' (map (preimage g) fs).
Proof.
  intros (R & J & H) B B' F. assert (FB : forall f k, In f fs -> In k f -> k < n) by (intros f k Hf Hk; apply B, (ff_in _ _ _ F); eauto). split.
  - intros f' Hf'. apply in_map_iff in Hf' as (f & <- & Hf). pose proof (ff_nonempty _ _ _ F f Hf) as NE. destruct f as [|k f0] eqn:Ef; [congruence|]. rewrite <- Ef in *.
    assert (Hk : In k f) by (rewrite Ef; left; reflexivity). destruct (moved_onto sg g k R J (FB f k Hf Hk)) as (i & Hi & Ei). intros Z. assert (X : In i (preimage g f)) by (apply preimage_in; rewrite Ei; auto). rewrite Z in X. destruct X.
  - intros f' Hf'. apply in_map_iff in Hf' as (f & <- & Hf). apply SS_filter, SS_seq.
  - intros k. split.
    + intros Hk. assert (Bk := B' k Hk). apply H in Hk; [|exact Bk]. apply (ff_in _ _ _ F) in Hk as (f & Hf & Hk). exists (preimage g f). split; [apply in_map, Hf|apply preimage_in; auto].
    + intros (f' & Hf' & Hk). apply in_map_iff in Hf' as (f & <- & Hf). apply preimage_in in Hk as [Bk Hk]. apply H; [exact Bk|]. apply (ff_in _ _ _ F). eauto.
  - intros i j k k' Hi Hj Hk Hk' Sh. rewrite map_length in Hi, Hj. change (@nil nat) with (preimage g []) in Hk, Hk' || idtac.
    assert (PN : forall i, i < length fs -> nth i (map (preimage g) fs) [] = preimage g (nth i fs [])).
    { intros q Hq. rewrite (nth_indep _ [] (preimage g [])) by (rewrite map_length; exact Hq). apply map_nth. }
    rewrite PN in Hk, Hk' by assumption. apply preimage_in in Hk as [Bk Hk]. apply preimage_in in Hk' as [Bk' Hk'].
    apply (ff_apart _ _ _ F i j _ _ Hi Hj Hk Hk'). apply (share_moved sg g k k' R J Bk Bk'), Sh.
  - intros f' k k' Hf' Hk Hk'. apply in_map_iff in Hf' as (f & <- & Hf). apply preimage_in in Hk as [Bk Hk]. apply preimage_in in Hk' as [Bk' Hk'].
    pose proof (ff_connected _ _ _ F f _ _ Hf Hk Hk') as C.
    assert (G : forall x z, connected sc mon x z -> x = z \/ (In x mon /\ In z mon /\ forall i j, i < n -> j < n -> nth i g 0 = x -> nth j g 0 = z -> connected sc mon' i j)).
    { clear - R J H B W. intros x z C. induction C as [x z (H1 & H2 & H3)|x|x z _ IH|x y z _ IH1 _ IH2].
      - right. split; [exact H1|]. split; [exact H2|]. intros i j Hi Hj Ei Ej. apply rst_step. split; [apply H; [exact Hi|rewrite Ei; exact H1]|]. split; [apply H; [exact Hj|rewrite Ej; exact H2]|].
        apply (share_moved sg g i j R J Hi Hj). rewrite Ei, Ej. exact H3.
      - left. reflexivity.
      - destruct IH as [->|(H1 & H2 & H3)]; [left; reflexivity|]. right. split; [exact H2|]. split; [exact H1|]. intros i j Hi Hj Ei Ej. apply rst_sym, H3; assumption.
      - destruct IH1 as [->|(A1 & A2 & A3)]; [exact IH2|]. destruct IH2 as [<-|(B1 & B2 & B3)]; [right; auto|]. right. split; [exact A1|]. split; [exact B2|]. intros i j Hi Hj Ei Ej.
        destruct (moved_onto sg g y R J (B y A2)) as (q & Hq & Eq). eapply rst_trans; [apply (A3 i q)|apply (B3 q j)]; assumption. }
    destruct (G _ _ C) as [Q|(_ & _ & Q)]; [|apply Q; auto]. apply (moved_inj sg g k k' R J Bk Bk') in Q. subst k'. apply rst_refl.
Qed.
(** a part of the factors *)
Lemma factors_part mon fs fs0 : (forall k, In k mon -> k < n) -> factor_facts sc mon fs -> (exists p, fs0 = filter p fs) -> factor_facts sc (concat fs0) fs0.
Proof.
  intros B F (p & ->). assert (I : forall f, In f (filter p fs) -> In f fs) by (intros f Hf; apply filter_In in Hf; apply Hf). split.
  - intros f Hf. apply (ff_nonempty _ _ _ F), I, Hf.
  - intros f Hf. apply (ff_sorted _ _ _ F), I, Hf.
  - intros k. rewrite in_concat. reflexivity.
  - intros i j k k' Hi Hj Hk Hk' Sh. apply (proj1 (NoDup_nth (filter p fs) []) (NoDup_filter _ (factors_apart_nodup mon fs B F)) i j Hi Hj).
    pose proof (I _ (nth_In _ [] Hi)) as Ii. pose proof (I _ (nth_In _ [] Hj)) as Ij. apply (In_nth _ _ []) in Ii as (a & Ha & Ea). apply (In_nth _ _ []) in Ij as (b & Hb & Eb).
    rewrite <- Ea, <- Eb. f_equal. apply (ff_apart _ _ _ F a b k k' Ha Hb); [rewrite Ea; exact Hk|rewrite Eb; exact Hk'|exact Sh].
  - intros f k k' Hf Hk Hk'. pose proof (ff_connected _ _ _ F f k k' (I f Hf) Hk Hk') as C. assert (K : forall x, In x f -> In x (concat (filter p fs))) by (intros x Hx; apply in_concat; eauto).
    assert (G : forall x z, connected sc mon x z -> In x f -> connected sc (concat (filter p fs)) x z).
    { intros x z C'. assert (D : forall a b, connected sc mon a b -> (In a f <-> In b f)) by (intros a b C0; apply (connected_stays mon fs a b f B F C0 (I f Hf))).
      induction C' as [x z (H1 & H2 & H3)|x|x z C1 IH|x y z C1 IH1 C2 IH2]; intros Hx.
      - apply rst_step. split; [apply K, Hx|]. split; [|exact H3]. apply K. apply (D x z); [apply rst_step; auto|exact Hx].
      - apply rst_refl.
      - apply rst_sym, IH. apply (D x z C1), Hx.
      - eapply rst_trans; [apply IH1, Hx|apply IH2]. apply (D x y C1), Hx. }
    apply (G k k' C Hk).
Qed.
End Glue.
