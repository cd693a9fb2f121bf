(** Proofs about the generated linear programme: the terms of an expansion are generated. *)
From Coq Require Import Permutation Sorted.
From Verif Require Import MargModel QcSum LPModel LPSpec CliqueSpec CliqueProofs LPProofs LPProofs2 LPProofs3 LPProofs4.
From Verif Require ScenarioProofs OrbitProofs UniqueProofs ColumnProofs2 SymProofs.
Close Scope Q_scope. Close Scope Qc_scope. Open Scope nat_scope.

Section Terms.
Variables (n : nat) (groups : list (bool * list nat)%type).
Hypothesis Hcat : concat (map snd groups) = seq 0 n.
Hypothesis Hne : forall t, In t groups -> snd t <> [].
Variable compat : nat -> nat -> bool.
Hypothesis Hund : undirected (nr_groups groups) compat.
Set Default Proof Using "All".
Local Notation grp := (grp groups).
Local Notation flag := (flag groups).
Local Notation lst := (lst groups).
Local Notation lim := (lim groups).
Local Notation nr := (nr_groups groups).
Local Notation alt := (alt n groups).
Local Notation crit := (crit groups).
Local Notation cleared := (cleared n groups).
Local Notation "v ⊢ i" := (nth i v false = true) (at level 70, only parsing).

Definition add (v : bvec) i := vor v (eye n i).
Lemma add_length v i : length v = n -> length (add v i) = n.
Proof. intros H. unfold add. rewrite vor_length, eye_length. lia. Qed.
Lemma nth_add v i j : length v = n -> (nth j (add v i) false = true <-> nth j v false = true \/ (j = i /\ i < n)).
Proof.
  intros H. unfold add. rewrite nth_vor by (rewrite eye_length; exact H). rewrite orb_true_iff, nth_eye, andb_true_iff, Nat.eqb_eq, Nat.ltb_lt.
  intuition (subst; auto).
Qed.
Lemma nth_add_grp v t i j : length v = n -> In i (grp t) -> (nth j (add v i) false = true <-> nth j v false = true \/ j = i).
Proof. intros H Hi. rewrite nth_add by exact H. pose proof (grp_range n groups Hcat Hne t i Hi). intuition. Qed.

Definition touch (v : bvec) t := exists i, In i (grp t) /\ nth i v false = true.
Lemma touch_dec v t : {touch v t} + {~ touch v t}.
Proof using groups.
  destruct (existsb (fun i => nth i v false) (grp t)) eqn:E.
  - left. apply existsb_exists in E. exact E.
  - right. intros K. apply existsb_exists in K. congruence.
Qed.
Definition amo (v : bvec) := forall t i j, In i (grp t) -> In j (grp t) -> nth i v false = true -> nth j v false = true -> i = j.
Definition valid (v : bvec) := length v = n /\ amo v /\ forall t u, t <> u -> touch v t -> touch v u -> compat t u = true.

Lemma touch_lt v t : touch v t -> t < nr.
Proof. intros (i & Hi & _). apply (grp_lt n groups Hcat Hne t i Hi). Qed.
Lemma valid_sub v u : valid v -> length u = n -> amo u -> (forall t, touch u t -> touch v t) -> valid u.
Proof. intros (_ & _ & V) L A H. split; [exact L|]. split; [exact A|]. intros t t' N T T'. apply V; auto. Qed.
Definition touched v := filter (fun t => if touch_dec v t then true else false) (seq 0 nr).
Lemma touched_in v t : In t (touched v) <-> touch v t.
Proof.
  unfold touched. rewrite filter_In, in_seq. destruct (touch_dec v t) as [T|T]; split; try tauto; try (intros [_ K]; discriminate).
  intros _. pose proof (touch_lt _ _ T). split; [lia|reflexivity].
Qed.
Lemma touched_clique v : valid v -> is_clique nr compat (touched v).
Proof.
  intros (_ & _ & V). split; [apply SS_filter, SS_seq|]. split.
  - intros t Ht. apply touched_in in Ht. apply (touch_lt _ _ Ht).
  - intros t u Ht Hu N. apply touched_in in Ht, Hu. apply V; assumption.
Qed.
(** an event over a clique *)
Lemma valid_clique c v : is_clique nr compat c -> length v = n -> amo v -> involves (map snd groups) c v -> valid v.
Proof.
  intros (_ & _ & C) L A I. split; [exact L|]. split; [exact A|].
  assert (K : forall t, touch v t -> In t c).
  { intros t (i & Hi & Vi). destruct (I i Vi) as (t' & Ht' & Hi'). rewrite <- (grp_nth n groups Hcat Hne) in Hi'. rewrite (grp_unique n groups Hcat Hne t t' i); assumption. }
  intros t u N T U. apply C; auto.
Qed.
Lemma selected_valid sel c v : (forall t i, In i (sel t) -> In i (grp t)) -> is_clique nr compat c -> selected n groups sel c v -> valid v.
Proof.
  intros Hs C (L & A1 & A2 & A3). apply (valid_clique c); [exact C|exact L| |].
  - intros t i j Hi Hj Vi Vj. destruct (A1 i Vi) as (t' & Ht' & Hi'). apply Hs in Hi'. assert (t = t') by (apply (grp_unique n groups Hcat Hne t t' i); assumption). subst t'.
    apply (A3 t); assumption.
  - intros i Vi. destruct (A1 i Vi) as (t & Ht & Hi). exists t. split; [exact Ht|]. rewrite <- (grp_nth n groups Hcat Hne). apply Hs, Hi.
Qed.

Lemma crit_nil v b : crit b v = [] <-> forall t, t < nr -> flag t = b -> nth (lst t) v false = false.
Proof.
  split.
  - intros E t Ht Hf. destruct (nth (lst t) v false) eqn:K; [|reflexivity]. assert (In t (crit b v)) by (apply (crit_in n groups Hcat Hne); auto). rewrite E in H. destruct H.
  - intros H. destruct (crit b v) as [|t l] eqn:E; [reflexivity|]. assert (K : In t (crit b v)) by (rewrite E; left; reflexivity).
    apply (crit_in n groups Hcat Hne) in K as (K1 & K2 & K3). rewrite H in K3 by assumption. discriminate.
Qed.
Lemma raw_selected v : (exists c, is_clique nr compat c /\ selected n groups lim c v) <-> valid v /\ crit false v = [].
Proof.
  split.
  - intros (c & C & Hs). split; [apply (selected_valid lim c); [intros t i; apply (lim_in n groups Hcat Hne)|exact C|exact Hs]|].
    apply crit_nil. intros t Ht Hf. destruct (nth (lst t) v false) eqn:E; [|reflexivity]. exfalso. destruct Hs as (_ & A1 & _).
    destruct (A1 _ E) as (t' & _ & Hi). assert (t' = t) by (apply (grp_unique n groups Hcat Hne t' t (lst t)); [apply (lim_in n groups Hcat Hne), Hi|apply (lst_in n groups Hcat Hne), Ht]). subst t'.
    unfold LPProofs2.lim in Hi. rewrite Hf in Hi. apply (nonlast n groups Hcat Hne t _ Ht) in Hi as [_ Hi]. congruence.
  - intros (V & Hc). exists (touched v). split; [apply touched_clique, V|]. destruct V as (L & A & V). split; [exact L|].
    assert (Lim : forall t i, In i (grp t) -> nth i v false = true -> In i (lim t)).
    { intros t i Hi Vi. unfold LPProofs2.lim. destruct (flag t) eqn:E; [exact Hi|]. pose proof (grp_lt n groups Hcat Hne t i Hi) as Ht.
      apply (nonlast n groups Hcat Hne t _ Ht). split; [exact Hi|]. intros ->. rewrite (proj1 (crit_nil v false) Hc t Ht E) in Vi. discriminate. }
    split; [|split].
    + intros i Vi. destruct (grp_cover n groups Hcat Hne i) as (t & Ht & Hi); [rewrite <- L; apply nth_true_lt, Vi|]. exists t. split; [apply touched_in; exists i; auto|auto].
    + intros t Ht. apply touched_in in Ht as (i & Hi & Vi). exists i. auto.
    + intros t i j _. apply A.
Qed.

(** terms of a nested sum *)
Lemma nested_in ls : NoDup ls -> forall acc s u s', length acc = n -> (forall t i, In t ls -> In i (grp t) -> nth i acc false = false) -> amo acc ->
  In (u, s') (nested (map alt ls) acc s) ->
  length u = n /\ amo u /\ (forall i, nth i acc false = true -> nth i u false = true) /\
  (forall i, nth i u false = true -> nth i acc false = true \/ exists t, In t ls /\ In i (removelast (grp t))).
Proof.
  induction 1 as [|t ls Ht N IH]; intros acc s u s' La Ha A Hu; cbn [map nested] in Hu.
  - destruct Hu as [[= <- _]|[]]. auto.
  - apply in_flat_map in Hu as (row & Hr & Hu). unfold LPProofs2.alt in Hr. destruct Hr as [<-|Hr].
    + rewrite vor_blank in Hu by exact La. apply IH in Hu as (U1 & U2 & U3 & U4); [|exact La|intros t' i Ht'; apply Ha; right; exact Ht'|exact A].
      split; [exact U1|]. split; [exact U2|]. split; [exact U3|]. intros i Hi. destruct (U4 i Hi) as [K|(t' & K1 & K2)]; [left; exact K|right; exists t'; split; [right; exact K1|exact K2]].
    + apply in_map_iff in Hr as (k & <- & Hk). pose proof (nonlast_in n groups Hcat Hne t k Hk) as Hk'. fold (add acc k) in Hu.
      apply IH in Hu as (U1 & U2 & U3 & U4).
      * split; [exact U1|]. split; [exact U2|]. split.
        -- intros i Hi. apply U3. apply (nth_add_grp acc t); auto.
        -- intros i Hi. destruct (U4 i Hi) as [K|(t' & K1 & K2)].
           ++ apply (nth_add_grp acc t) in K as [K| ->]; [left; exact K|right; exists t; split; [left; reflexivity|exact Hk]|exact La|exact Hk'].
           ++ right. exists t'. split; [right; exact K1|exact K2].
      * apply add_length, La.
      * intros t' i Ht' Hi. destruct (nth i (add acc k) false) eqn:E; [|reflexivity]. apply (nth_add_grp acc t) in E as [E| ->]; [| |exact La|exact Hk'].
        -- rewrite (Ha t' i) in E; [discriminate|right; exact Ht'|exact Hi].
        -- exfalso. apply Ht. rewrite (grp_unique n groups Hcat Hne t t' k Hk' Hi). exact Ht'.
      * intros t' i j Hi Hj Vi Vj. apply (nth_add_grp acc t) in Vi, Vj; try assumption.
        destruct Vi as [Vi| ->], Vj as [Vj| ->]; [apply (A t'); assumption| | |reflexivity]; exfalso.
        -- assert (t' = t) by (apply (grp_unique n groups Hcat Hne t' t k); assumption). subst t'. rewrite (Ha t i) in Vi; [discriminate|left; reflexivity|exact Hi].
        -- assert (t' = t) by (apply (grp_unique n groups Hcat Hne t' t k); assumption). subst t'. rewrite (Ha t j) in Vj; [discriminate|left; reflexivity|exact Hj].
Qed.
Lemma cleared_amo b v : length v = n -> amo v -> amo (cleared b v).
Proof. intros L A t i j Hi Hj Vi Vj. apply (nth_cleared n groups Hcat Hne) in Vi as [Vi _], Vj as [Vj _]; try exact L. apply (A t); assumption. Qed.
Lemma cleared_crit b v t i : length v = n -> amo v -> In t (crit b v) -> In i (grp t) -> nth i (cleared b v) false = false.
Proof.
  intros L A Ht Hi. destruct (nth i (cleared b v) false) eqn:E; [|reflexivity]. exfalso. apply (nth_cleared n groups Hcat Hne) in E as [E1 E2]; [|exact L].
  apply (crit_in n groups Hcat Hne) in Ht as (T1 & T2 & T3). apply E2. exists t. split; [apply (ids_in n groups Hcat Hne); auto|].
  apply (A t); [apply (lst_in n groups Hcat Hne), T1|exact Hi|exact T3|exact E1].
Qed.
(** the terms of the expansion of a valid event are valid; they contain no last outcome of
    the expanded kind, and the last outcomes of the other kind do not change *)
Theorem terms_valid b v u s s0 : valid v -> In (u, s) (nested (map alt (crit b v)) (cleared b v) s0) ->
  valid u /\ crit b u = [] /\ (forall t, t < nr -> flag t <> b -> nth (lst t) u false = nth (lst t) v false) /\ (forall t, touch u t -> touch v t).
Proof.
  intros V Hu. pose proof V as (L & A & _).
  apply nested_in in Hu as (U1 & U2 & U3 & U4); [|apply (crit_NoDup n groups Hcat Hne)|apply cleared_length; assumption|intros t i Ht Hi; apply (cleared_crit b v t i L A Ht Hi)|apply cleared_amo; assumption].
  assert (T : forall t, touch u t -> touch v t).
  { intros t (i & Hi & Vi). destruct (U4 i Vi) as [K|(t' & K1 & K2)].
    - apply (nth_cleared n groups Hcat Hne) in K as [K _]; [|exact L]. exists i. auto.
    - apply (nonlast_in n groups Hcat Hne) in K2. assert (t' = t) by (apply (grp_unique n groups Hcat Hne t' t i); assumption). subst t'.
      apply (crit_in n groups Hcat Hne) in K1 as (T1 & T2 & T3). exists (lst t). split; [apply (lst_in n groups Hcat Hne), T1|exact T3]. }
  split; [apply (valid_sub v); assumption|]. split; [|split; [|exact T]].
  - apply crit_nil. intros t Ht Hf. destruct (nth (lst t) u false) eqn:E; [|reflexivity]. exfalso. destruct (U4 _ E) as [K|(t' & K1 & K2)].
    + apply (nth_cleared n groups Hcat Hne) in K as [_ K]; [|exact L]. apply K. exists t. split; [apply (ids_in n groups Hcat Hne); auto|reflexivity].
    + pose proof (nonlast_in n groups Hcat Hne t' _ K2) as K3. assert (t' = t) by (apply (grp_unique n groups Hcat Hne t' t (lst t)); [exact K3|apply (lst_in n groups Hcat Hne), Ht]). subst t'.
      apply (nonlast n groups Hcat Hne t _ Ht) in K2 as [_ K2]. congruence.
  - intros t Ht Hf. apply eq_true_iff_eq. split.
    + intros E. destruct (U4 _ E) as [K|(t' & K1 & K2)].
      * apply (nth_cleared n groups Hcat Hne) in K as [K _]; assumption.
      * pose proof (nonlast_in n groups Hcat Hne t' _ K2) as K3. assert (t' = t) by (apply (grp_unique n groups Hcat Hne t' t (lst t)); [exact K3|apply (lst_in n groups Hcat Hne), Ht]). subst t'.
        apply (nonlast n groups Hcat Hne t _ Ht) in K2 as [_ K2]. congruence.
    + intros E. apply U3. apply (nth_cleared n groups Hcat Hne); [exact L|]. split; [exact E|]. intros (t' & K1 & K2).
      apply (ids_in n groups Hcat Hne) in K1 as [K1 K3]. assert (t' = t) by (apply (lst_inj n groups Hcat Hne); assumption). subst. contradiction.
Qed.
Lemma cleared_id b v : length v = n -> crit b v = [] -> cleared b v = v.
Proof.
  intros L Hc. apply (bvec_ext n); [apply cleared_length; assumption|exact L|]. intros i _. apply eq_true_iff_eq. rewrite (nth_cleared n groups Hcat Hne) by exact L.
  split; [tauto|]. intros K. split; [exact K|]. intros (t & Ht & <-). apply (ids_in n groups Hcat Hne) in Ht as [T1 T2]. rewrite (proj1 (crit_nil v b) Hc t T1 T2) in K. discriminate.
Qed.
Lemma nsum_alt X t alts acc : length acc = n -> nsum X (alt t :: alts) acc = (nsum X alts acc - sumQ (map (fun i => nsum X alts (add acc i)) (removelast (grp t))))%Qc.
Proof.
  intros L. rewrite nsum_cons. unfold LPProofs2.alt. cbn [map]. rewrite sumQ_cons.
  rewrite (proj2 (vany_false (blank n)) (nth_blank n)), vor_blank by exact L. cbn [sgn]. rewrite map_map.
  rewrite (sumQ_ext _ _ (fun i => - (1) * nsum X alts (add acc i))%Qc).
  - rewrite sumQ_scale. ring.
  - intros i Hi. apply (nonlast_in n groups Hcat Hne) in Hi. replace (vany (eye n i)) with true; [reflexivity|]. symmetry. apply vany_iff. exists i.
    rewrite nth_eye, Nat.eqb_refl. apply Nat.ltb_lt, (grp_range n groups Hcat Hne t), Hi.
Qed.
End Terms.
