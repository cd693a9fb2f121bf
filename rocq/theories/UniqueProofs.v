(** np.unique and index lookup *)
From Coq Require Import Sorted.
From Verif Require Import FactorModel ScenarioProofs ScenarioSpec.

Record good_cmp {A} (cmp : A -> A -> comparison) : Prop := {
  gc_eq : forall x y, cmp x y = Eq <-> x = y;
  gc_anti : forall x y, cmp x y = Gt -> cmp y x = Lt;
  gc_trans : forall x y z, cmp x y = Lt -> cmp y z = Lt -> cmp x z = Lt
}.
Lemma nat_good_cmp : good_cmp Nat.compare.
Proof.
  split.
  - apply Nat.compare_eq_iff.
  - intros x y. rewrite Nat.compare_gt_iff, Nat.compare_lt_iff. auto.
  - intros x y z. rewrite !Nat.compare_lt_iff. lia.
Qed.
Lemma lex_good_cmp : good_cmp lex_compare.
Proof.
  split.
  - induction x as [|a x IH]; intros [|b y]; cbn; try (split; [discriminate|discriminate]); [tauto|].
    destruct (Nat.compare_spec a b) as [->|H|H].
    + rewrite IH. split; congruence.
    + split; [discriminate|]. intros [= -> _]. lia.
    + split; [discriminate|]. intros [= -> _]. lia.
  - induction x as [|a x IH]; intros [|b y]; cbn; auto; try discriminate.
    destruct (Nat.compare_spec a b) as [->|H|H]; try discriminate.
    + rewrite Nat.compare_refl. apply IH.
    + intros _. replace (b ?= a) with Lt; [reflexivity|]. symmetry. apply Nat.compare_lt_iff, H.
  - induction x as [|a x IH]; intros [|b y] [|c z]; cbn; auto; try discriminate.
    destruct (Nat.compare_spec a b) as [->|H|H]; try discriminate.
    + destruct (Nat.compare_spec b c) as [->|H'|H']; auto. apply IH.
    + intros _. destruct (Nat.compare_spec b c) as [->|H'|H']; try discriminate; intros _.
      * replace (a ?= c) with Lt; [reflexivity|]. symmetry. apply Nat.compare_lt_iff, H.
      * replace (a ?= c) with Lt; [reflexivity|]. symmetry. apply Nat.compare_lt_iff. lia.
Qed.

Section U.
Context {A : Type} (cmp : A -> A -> comparison) (G : good_cmp cmp).
Lemma uinsert_in x l y : In y (uinsert cmp x l) <-> y = x \/ In y l.
Proof.
  induction l as [|z l IH]; cbn; [intuition|]. destruct (cmp x z) eqn:E; cbn.
  - apply (gc_eq cmp G) in E as ->. intuition.
  - intuition.
  - rewrite IH. intuition.
Qed.
Lemma np_unique_in l y : In y (np_unique cmp l) <-> In y l.
Proof. induction l as [|x l IH]; cbn; [tauto|]. fold (np_unique cmp l). rewrite uinsert_in, IH. intuition. Qed.
Lemma uinsert_sorted x l : StronglySorted (fun a b => cmp a b = Lt) l -> StronglySorted (fun a b => cmp a b = Lt) (uinsert cmp x l).
Proof.
  induction 1 as [|z l H IH F]; cbn; [repeat constructor|]. destruct (cmp x z) eqn:E.
  - constructor; assumption.
  - constructor; [constructor; assumption|]. constructor; [exact E|].
    eapply Forall_impl; [|exact F]. intros a Ha. eapply (gc_trans cmp G); eassumption.
  - constructor; [exact IH|]. apply Forall_forall. intros a Ha. apply uinsert_in in Ha as [->|Ha].
    + apply (gc_anti cmp G), E.
    + rewrite Forall_forall in F. auto.
Qed.
Lemma np_unique_sorted l : StronglySorted (fun a b => cmp a b = Lt) (np_unique cmp l).
Proof. induction l as [|x l IH]; cbn; [constructor|]. apply uinsert_sorted, IH. Qed.
Lemma np_unique_NoDup l : NoDup (np_unique cmp l).
Proof.
  eapply SS_NoDup; [|apply np_unique_sorted]. cbn. intros x H.
  assert (cmp x x = Eq) by (apply (gc_eq cmp G); reflexivity). congruence.
Qed.
End U.

Section I.
Context {A : Type} (eqb : A -> A -> bool) (E : forall x y, eqb x y = true <-> x = y).
Lemma index_of_in x l d : In x l -> index_of eqb x l < length l /\ nth (index_of eqb x l) l d = x.
Proof.
  induction l as [|y l IH]; intros []; cbn.
  - subst. replace (eqb x x) with true by (symmetry; apply E; reflexivity). split; [lia|reflexivity].
  - destruct (eqb x y) eqn:Q; [apply E in Q; subst; split; [lia|reflexivity]|]. destruct (IH H) as [H1 H2]. split; [lia|exact H2].
Qed.
Lemma index_of_inj x y l : In x l -> In y l -> index_of eqb x l = index_of eqb y l -> x = y.
Proof. intros H1 H2 H. rewrite <- (proj2 (index_of_in x l x H1)), <- (proj2 (index_of_in y l x H2)), H. reflexivity. Qed.
Lemma index_of_nth l d i : NoDup l -> i < length l -> index_of eqb (nth i l d) l = i.
Proof.
  intros N Hi. assert (Hin : In (nth i l d) l) by (apply nth_In, Hi).
  destruct (index_of_in _ l d Hin) as [H1 H2]. apply (proj1 (NoDup_nth l d) N); auto.
Qed.
End I.
