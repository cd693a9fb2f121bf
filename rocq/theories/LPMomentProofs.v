(** The factors of an event. *)
From Coq Require Import List Arith Bool Lia Permutation Sorted Relation_Operators.
From Verif Require Import ScenarioModel ScenarioSpec SymModel SymSpec FactorModel FactorSpec LPModel.
From Verif Require ScenarioProofs FactorProofs LPProofs9.
Import ListNotations.
Open Scope nat_scope.

Lemma flatnonzero_in v i : In i (flatnonzero v) <-> nth i v false = true.
Proof.
  unfold flatnonzero. rewrite filter_In, in_seq. split; [tauto|]. intros H. split; [|exact H]. split; [lia|]. cbn.
  destruct (Nat.lt_ge_cases i (length v)) as [K|K]; [exact K|]. rewrite nth_overflow in H by exact K. discriminate.
Qed.
Lemma SS_filter {A} (R : A -> A -> Prop) f l : StronglySorted R l -> StronglySorted R (filter f l).
Proof.
  induction 1 as [|x l S' IH F]; cbn [filter]; [constructor|]. destruct (f x); [|exact IH]. constructor; [exact IH|]. rewrite Forall_forall in *. intros y Hy. apply filter_In in Hy as [Hy _]. auto.
Qed.
Lemma SS_seq len : forall a, StronglySorted lt (seq a len).
Proof. induction len as [|k IH]; intros a; cbn [seq]; constructor; [apply IH|]. apply Forall_forall. intros y Hy. apply in_seq in Hy. lia. Qed.
Lemma flatnonzero_sorted v : StronglySorted lt (flatnonzero v).
Proof. apply SS_filter, SS_seq. Qed.
Lemma SS_map_nth {A} (R : A -> A -> Prop) (l : list A) d idx : StronglySorted R l -> StronglySorted lt idx -> (forall i, In i idx -> i < length l) -> StronglySorted R (map (fun i => nth i l d) idx).
Proof.
  intros Sl Si. assert (N : forall i j, i < j -> j < length l -> R (nth i l d) (nth j l d)).
  { clear Si idx. induction Sl as [|x l Sl IH F]; intros i j Hij Hj; [cbn in Hj; lia|]. destruct j as [|j]; [lia|]. cbn [length] in Hj. destruct i as [|i]; cbn [nth].
    - rewrite Forall_forall in F. apply F, nth_In. lia.
    - apply IH; lia. }
  induction Si as [|i idx Si IH F]; intros B; cbn [map]; [constructor|]. constructor; [apply IH; intros j Hj; apply B; right; exact Hj|].
  apply Forall_forall. intros y Hy. apply in_map_iff in Hy as (j & <- & Hj). rewrite Forall_forall in F. apply N; [apply F, Hj|apply B; right; exact Hj].
Qed.
Lemma SSlt_NoDup l : StronglySorted lt l -> NoDup l.
Proof. induction 1 as [|x l _ IH F]; constructor; [|exact IH]. rewrite Forall_forall in F. intros H. specialize (F x H). lia. Qed.
Lemma SSlt_ext l : forall l', StronglySorted lt l -> StronglySorted lt l' -> (forall i, In i l <-> In i l') -> l = l'.
Proof.
  induction l as [|x l IH]; intros [|y l'] H H' E; [reflexivity|destruct (proj2 (E y) (or_introl eq_refl))|destruct (proj1 (E x) (or_introl eq_refl))|].
  inversion H as [|? ? Sl Fl]; subst. inversion H' as [|? ? Sl' Fl']; subst. rewrite Forall_forall in Fl, Fl'.
  assert (x = y).
  { destruct (proj1 (E x) (or_introl eq_refl)) as [Q|Q]; [congruence|]. destruct (proj2 (E y) (or_introl eq_refl)) as [Q'|Q']; [congruence|]. specialize (Fl y Q'). specialize (Fl' x Q). lia. }
  subst y. f_equal. apply IH; [assumption..|]. intros i. split; intros Hi.
  - destruct (proj1 (E i) (or_intror Hi)) as [Q|Q]; [|exact Q]. specialize (Fl i Hi). lia.
  - destruct (proj2 (E i) (or_intror Hi)) as [Q|Q]; [|exact Q]. specialize (Fl' i Hi). lia.
Qed.
Lemma flat_of_sorted n f : StronglySorted lt f -> (forall i, In i f -> i < n) -> flatnonzero (key_of n f) = f.
Proof.
  intros Sf B. apply SSlt_ext; [apply flatnonzero_sorted|exact Sf|]. intros i. rewrite flatnonzero_in. unfold key_of. split.
  - intros H. assert (K : i < n) by (destruct (Nat.lt_ge_cases i n) as [K|K]; [exact K|]; rewrite nth_overflow in H by (rewrite map_length, seq_length; exact K); discriminate).
    rewrite (nth_indep _ false (memb 0 f)) in H by (rewrite map_length, seq_length; exact K). rewrite (map_nth (fun i => memb i f)), seq_nth in H by exact K. apply ScenarioProofs.memb_in, H.
  - intros H. assert (K := B i H). rewrite (nth_indep _ false (memb 0 f)) by (rewrite map_length, seq_length; exact K). rewrite (map_nth (fun i => memb i f)), seq_nth by exact K. apply ScenarioProofs.memb_in, H.
Qed.

Section Factors.
Variables (sc : scenario) (W : wf_scenario sc).
Notation n := (length (lexorder sc)).
Definition copies (k : nat) : list nat := row_copies (nth k (lexorder sc) []).
(** operators k and k' belong to one connected part of the set [ops] *)
Definition connected (ops : list nat) : nat -> nat -> Prop := clos_refl_sym_trans nat (fun k k' => In k ops /\ In k' ops /\ share_copy (copies k) (copies k')).
Definition nonempty (f : list nat) : bool := negb (length f =? 0).
Definition factors (mon : list nat) : list (list nat) := match factorize_monomial_1d sc mon with Some fs => filter nonempty fs | None => [] end.

Record factor_facts (mon : list nat) (fs : list (list nat)) : Prop := {
  ff_nonempty : forall f, In f fs -> f <> [];
  ff_sorted : forall f, In f fs -> StronglySorted lt f;
  ff_in : forall k, In k mon <-> exists f, In f fs /\ In k f;
  ff_apart : forall i j k k', i < length fs -> j < length fs -> In k (nth i fs []) -> In k' (nth j fs []) -> share_copy (copies k) (copies k') -> i = j;
  ff_connected : forall f k k', In f fs -> In k f -> In k' f -> connected mon k k' }.
Lemma linked_connected mon i j : linked sc mon i j -> i < length mon -> connected mon (nth i mon 0) (nth j mon 0).
Proof.
  intros H Hi. assert (G : forall i j, linked sc mon i j -> i = j \/ connected mon (nth i mon 0) (nth j mon 0)).
  { clear i j H Hi. intros i j H. induction H as [x y (H1 & H2 & H3)|x|x y _ IH|x y z _ IH1 _ IH2].
    - right. apply rst_step. split; [apply nth_In, H1|]. split; [apply nth_In, H2|exact H3].
    - left. reflexivity.
    - destruct IH as [ -> |IH]; [left; reflexivity|right; apply rst_sym, IH].
    - destruct IH1 as [ -> |IH1]; [exact IH2|]. destruct IH2 as [ <- |IH2]; [right; exact IH1|right; eapply rst_trans; eassumption]. }
  destruct (G i j H) as [ -> |K]; [apply rst_refl|exact K].
Qed.
Lemma copies_self k : k < n -> share_copy (copies k) (copies k).
Proof. intros H. apply (FactorProofs.cp_self sc W k H). Qed.
Lemma nth_filter_map {A} (p : A -> bool) d : forall (l : list A) i, i < length (filter p l) -> exists j, j < length l /\ nth i (filter p l) d = nth j l d /\ length (filter p (firstn j l)) = i.
Proof.
  induction l as [|x l IH]; intros i Hi; cbn [filter] in Hi; [cbn in Hi; lia|]. cbn [filter]. destruct (p x) eqn:E.
  - destruct i as [|i]; [exists 0; split; [cbn; lia|]; split; reflexivity|]. cbn [length] in Hi. destruct (IH i ltac:(lia)) as (j & Hj & E1 & E2). exists (S j). split; [cbn; lia|]. split; [exact E1|].
    cbn [firstn filter]. rewrite E. cbn [length]. congruence.
  - destruct (IH i Hi) as (j & Hj & E1 & E2). exists (S j). split; [cbn; lia|]. split; [exact E1|]. cbn [firstn filter]. rewrite E. exact E2.
Qed.
Lemma factors_facts mon : StronglySorted lt mon -> (forall k, In k mon -> k < n) -> distinct_copies sc mon <= 255 ->
  (exists fs, factorize_monomial_1d sc mon = Some fs) /\ factor_facts mon (factors mon).
Proof.
  intros Sm Vm D. destruct mon as [|m0 mon0].
  { assert (E : factorize_monomial_1d sc [] = Some [[]]) by (unfold factorize_monomial_1d; cbn [length Nat.leb]; rewrite orb_true_r; reflexivity).
    split; [exists [[]]; exact E|]. unfold factors. rewrite E. cbn. split.
    - intros f [].
    - intros f [].
    - intros k. split; [intros []|intros (f & [] & _)].
    - cbn. lia.
    - intros f k k' []. }
  set (mon := m0 :: mon0) in *. destruct (FactorProofs.factorize_correct sc mon W Vm D ltac:(discriminate)) as (pieces & lab & E & L & EP & R & S' & C).
  split; [eauto|]. unfold factors. rewrite E.
  assert (PI : forall q k, In k (piece mon lab q) <-> exists i, i < length mon /\ nth i lab 0 = q /\ nth i mon 0 = k).
  { intros q k. unfold piece. rewrite in_map_iff. split.
    - intros (i & <- & Hi). apply filter_In in Hi as [Hi Q]. apply in_seq in Hi. apply Nat.eqb_eq in Q. exists i. split; [lia|]. auto.
    - intros (i & Hi & Q & <-). exists i. split; [reflexivity|]. apply filter_In. split; [apply in_seq; lia|apply Nat.eqb_eq, Q]. }
  assert (NE : forall f, In f pieces -> f <> []).
  { intros f Hf. rewrite EP in Hf. apply in_map_iff in Hf as (q & <- & Hq). apply in_seq in Hq. destruct (S' q ltac:(lia)) as (i & Hi & Q). intros C'. assert (X : In (nth i mon 0) (piece mon lab q)) by (apply PI; eauto). rewrite C' in X. destruct X. }
  assert (FE : filter nonempty pieces = pieces).
  { clear - NE. induction pieces as [|f l IH]; [reflexivity|]. cbn [filter]. assert (N := NE f (or_introl eq_refl)). unfold nonempty at 1. destruct f; [congruence|]. cbn. f_equal. apply IH. intros g Hg. apply NE. right. exact Hg. }
  rewrite FE.
  assert (PN : forall q, q < length pieces -> nth q pieces [] = piece mon lab q).
  { intros q Hq. rewrite EP at 1. rewrite (nth_indep _ [] (piece mon lab 0)) by (rewrite map_length, seq_length; exact Hq). rewrite map_nth, seq_nth by exact Hq. reflexivity. }
  split.
  - exact NE.
  - intros f Hf. apply (In_nth _ _ []) in Hf as (q & Hq & <-). rewrite PN by exact Hq. unfold piece. apply SS_map_nth; [exact Sm|apply SS_filter, SS_seq|]. intros i Hi. apply filter_In in Hi as [Hi _]. apply in_seq in Hi. lia.
  - intros k. split.
    + intros Hk. apply (In_nth _ _ 0) in Hk as (i & Hi & <-). exists (piece mon lab (nth i lab 0)). split; [|apply PI; eauto]. rewrite <- PN by (apply R, Hi). apply nth_In, R, Hi.
    + intros (f & Hf & Hk). apply (In_nth _ _ []) in Hf as (q & Hq & <-). rewrite PN in Hk by exact Hq. apply PI in Hk as (i & Hi & _ & <-). apply nth_In, Hi.
  - intros a b k k' Ha Hb Hk Hk' SH. rewrite PN in Hk, Hk' by assumption. apply PI in Hk as (i & Hi & <- & <-). apply PI in Hk' as (j & Hj & <- & <-).
    apply C; [exact Hi|exact Hj|]. apply rst_step. split; [exact Hi|]. split; [exact Hj|exact SH].
  - intros f k k' Hf Hk Hk'. apply (In_nth _ _ []) in Hf as (q & Hq & <-). rewrite PN in Hk, Hk' by assumption. apply PI in Hk as (i & Hi & Q & <-). apply PI in Hk' as (j & Hj & Q' & <-).
    apply linked_connected; [apply C; [exact Hi|exact Hj|congruence]|exact Hi].
Qed.
End Factors.
