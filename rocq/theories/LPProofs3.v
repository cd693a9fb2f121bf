(** Proofs about the generated linear programme: which events are generated. *)
From Coq Require Import Permutation Sorted.
From Verif Require Import MargModel QcSum LPModel LPSpec CliqueSpec CliqueProofs LPProofs LPProofs2 PropClique.
From Verif Require ScenarioProofs OrbitProofs UniqueProofs ColumnProofs2.
Close Scope Q_scope. Close Scope Qc_scope. Open Scope nat_scope.

Lemma NoDup_app_intro {A} (a b : list A) : NoDup a -> NoDup b -> (forall x, In x a -> ~ In x b) -> NoDup (a ++ b).
Proof.
  intros Ha Hb H. induction Ha as [|x a Hx Ha IH]; [exact Hb|]. cbn. constructor.
  - rewrite in_app_iff. intros [K|K]; [contradiction|]. apply (H x); [left; reflexivity|exact K].
  - apply IH. intros y Hy. apply H. right. exact Hy.
Qed.
Lemma NoDup_flat_map_intro {A B} (f : A -> list B) l : NoDup l -> (forall x, In x l -> NoDup (f x)) ->
  (forall x y z, In x l -> In y l -> In z (f x) -> In z (f y) -> x = y) -> NoDup (flat_map f l).
Proof.
  intros Hl Hf Hd. induction Hl as [|x l Hx Hl IH]; [constructor|]. cbn [flat_map]. apply NoDup_app_intro.
  - apply Hf. left. reflexivity.
  - apply IH; [intros y Hy; apply Hf; right; exact Hy|]. intros y y' z Hy Hy' Hz Hz'. apply (Hd y y' z); try (right; assumption); assumption.
  - intros z Hz K. apply in_flat_map in K as (y & Hy & K). apply Hx.
    rewrite (Hd x y z); [exact Hy|left; reflexivity|right; exact Hy|exact Hz|exact K].
Qed.

Lemma Forall2_weaken {A B} (R R' : A -> B -> Prop) l l' : (forall x y, R x y -> R' x y) -> Forall2 R l l' -> Forall2 R' l l'.
Proof. intros H. induction 1; constructor; auto. Qed.

Section Events.
Variables (n : nat) (groups : list (bool * list nat)%type).
Hypothesis Hcat : concat (map snd groups) = seq 0 n.
Hypothesis Hne : forall t, In t groups -> snd t <> [].
Local Notation grp := (grp groups).
Local Notation flag := (flag groups).
Local Notation lst := (lst groups).
Local Notation lim := (lim groups).
Local Notation nr := (nr_groups groups).

Lemma nth_all_groups t : nth t (all_groups n groups) [] = map (eye n) (grp t).
Proof.
  unfold all_groups. destruct (Nat.lt_ge_cases t nr) as [L|L].
  - rewrite (nth_indep _ [] ((fun t : bool * list nat => as_boolarray n (snd t)) (false, []))) by (rewrite map_length; exact L).
    rewrite (map_nth (fun t : bool * list nat => as_boolarray n (snd t))). reflexivity.
  - rewrite nth_overflow by (rewrite map_length; exact L). unfold grp. rewrite nth_overflow by exact L. reflexivity.
Qed.
Lemma nth_CG_limited t : nth t (CG_limited n groups) [] = map (eye n) (lim t).
Proof.
  unfold CG_limited, LPProofs2.lim. destruct (Nat.lt_ge_cases t nr) as [L|L].
  - rewrite (nth_indep _ [] ((fun t : bool * list nat => if fst t then as_boolarray n (snd t) else removelast (as_boolarray n (snd t))) (false, []))) by (rewrite map_length; exact L).
    rewrite (map_nth (fun t : bool * list nat => if fst t then as_boolarray n (snd t) else removelast (as_boolarray n (snd t)))).
    unfold LPProofs2.flag, LPProofs2.grp, as_boolarray. rewrite removelast_map. destruct (fst (nth t groups (false, []))); reflexivity.
  - rewrite nth_overflow by (rewrite map_length; exact L). unfold LPProofs2.flag, LPProofs2.grp. rewrite nth_overflow by exact L. reflexivity.
Qed.

(** a selection of one operator for every measurement of [c], among [sel] *)
Definition selected (sel : nat -> list nat) (c : list nat) (v : bvec) : Prop :=
  length v = n /\
  (forall i, nth i v false = true -> exists t, In t c /\ In i (sel t)) /\
  (forall t, In t c -> exists i, In i (sel t) /\ nth i v false = true) /\
  (forall t i j, In t c -> In i (grp t) -> In j (grp t) -> nth i v false = true -> nth j v false = true -> i = j).

Section Select.
Variable sel : nat -> list nat.
Hypothesis Hsel : forall t i, In i (sel t) -> In i (grp t).
Hypothesis Hsel_nd : forall t, NoDup (sel t).
Variable dec : list (list bvec).
Hypothesis Hdec : forall t, nth t dec [] = map (eye n) (sel t).

Definition union acc fs : bvec := fold_left (fun a i => vor a (eye n i)) fs acc.
Lemma union_spec fs : forall acc, length acc = n -> (forall i, In i fs -> i < n) ->
  length (union acc fs) = n /\ forall j, nth j (union acc fs) false = true <-> nth j acc false = true \/ In j fs.
Proof.
  unfold union. induction fs as [|i fs IH]; intros acc Ha Hr; cbn [fold_left].
  - split; [exact Ha|]. intros j. cbn. tauto.
  - destruct (IH (vor acc (eye n i))) as [I1 I2].
    + rewrite vor_length, eye_length. lia.
    + intros j Hj. apply Hr. right. exact Hj.
    + split; [exact I1|]. intros j. rewrite I2, nth_vor by (rewrite eye_length; exact Ha). rewrite orb_true_iff, nth_eye, andb_true_iff, Nat.eqb_eq, Nat.ltb_lt.
      cbn [In]. split; [tauto|]. intros [K|[K|K]]; [tauto| |tauto]. subst. left. right. split; [reflexivity|]. apply Hr. left. reflexivity.
Qed.
Lemma products_in l : forall acc v, In v (products (map (fun t => map (eye n) (sel t)) l) acc) <->
  exists fs, Forall2 (fun t i => In i (sel t)) l fs /\ v = union acc fs.
Proof.
  induction l as [|t l IH]; intros acc v; cbn [map products].
  - split; [intros [<-|[]]; exists []; split; [constructor|reflexivity]|]. intros (fs & F & ->). inversion F; subst. left. reflexivity.
  - rewrite in_flat_map. split.
    + intros (row & Hr & Hv). apply in_map_iff in Hr as (i & <- & Hi). apply IH in Hv as (fs & F & ->). exists (i :: fs). split; [constructor; assumption|reflexivity].
    + intros (fs & F & ->). inversion F as [|? i ? fs' Hi F']; subst. exists (eye n i). split; [apply in_map, Hi|]. apply IH. exists fs'. auto.
Qed.
Lemma sel_range t i : In i (sel t) -> i < n.
Proof. intros H. apply (grp_range n groups Hcat Hne t), Hsel, H. Qed.
Lemma template_products c : template_to_event n c dec = products (map (fun t => map (eye n) (sel t)) (rev c)) (blank n).
Proof.
  unfold template_to_event. destruct c as [|t0 c0]; [reflexivity|].
  assert (E : rev (t0 :: c0) <> []) by (cbn; intros K; apply app_eq_nil in K as [_ K]; discriminate).
  rewrite (map_ext _ _ Hdec). destruct (rev (t0 :: c0)) as [|t l]; [congruence|]. cbn [map reduce products].
  rewrite fold_products. rewrite !flat_map_map. rewrite !flat_map_concat_map. f_equal. apply map_ext. intros i. f_equal.
  rewrite vor_comm, vor_blank by apply eye_length. reflexivity.
Qed.
Lemma Forall2_choice {A B} (R : A -> B -> Prop) l : (forall x, In x l -> exists y, R x y) -> exists fs, Forall2 R l fs.
Proof.
  induction l as [|x l IH]; intros H; [exists []; constructor|]. destruct (H x (or_introl eq_refl)) as [y Hy].
  destruct IH as [fs F]; [intros z Hz; apply H; right; exact Hz|]. exists (y :: fs). constructor; assumption.
Qed.
Lemma Forall2_in_l {A B} (R : A -> B -> Prop) l l' x : Forall2 R l l' -> In x l -> exists y, In y l' /\ R x y.
Proof. induction 1; intros []; [subst; eexists; split; [left; reflexivity|assumption]|]. destruct (IHForall2 H1) as (z & ? & ?). exists z. split; [right; assumption|assumption]. Qed.
Lemma Forall2_in_r {A B} (R : A -> B -> Prop) l l' y : Forall2 R l l' -> In y l' -> exists x, In x l /\ R x y.
Proof. induction 1; intros []; [subst; eexists; split; [left; reflexivity|assumption]|]. destruct (IHForall2 H1) as (z & ? & ?). exists z. split; [right; assumption|assumption]. Qed.
Lemma template_in c v : NoDup c -> (In v (template_to_event n c dec) <-> selected sel c v).
Proof.
  intros Nc. rewrite template_products, products_in. split.
  - intros (fs & F & ->).
    assert (Hr : forall i, In i fs -> i < n). { intros i Hi. apply (Forall2_in_r _ _ _ _ F) in Hi as (t & _ & Hi). apply (sel_range t), Hi. }
    destruct (union_spec fs (blank n)) as [U1 U2]; [apply blank_length|exact Hr|].
    assert (U : forall j, nth j (union (blank n) fs) false = true <-> In j fs).
    { intros j. rewrite U2, nth_blank. intuition discriminate. }
    split; [exact U1|]. split; [|split].
    + intros i Hi. apply U in Hi. apply (Forall2_in_r _ _ _ _ F) in Hi as (t & Ht & Hi). exists t. split; [apply in_rev, Ht|exact Hi].
    + intros t Ht. apply in_rev in Ht. apply (Forall2_in_l _ _ _ _ F) in Ht as (i & Hi & Hs). exists i. split; [exact Hs|apply U, Hi].
    + intros t i j _ Hi Hj Ui Uj. apply U in Ui, Uj. clear U U1 U2 Hr. apply NoDup_rev in Nc. revert fs F Ui Uj Nc. generalize (rev c).
      induction l as [|u l IH]; intros fs F Ui Uj Nl; inversion F as [|? k ? fs' Hk F']; subst; [destruct Ui|].
      inversion Nl as [|? ? Hu Nl']; subst.
      assert (D : forall m, In m fs' -> In m (grp t) -> In k (grp t) -> False).
      { intros m Hm Hm' Hk'. apply (Forall2_in_r _ _ _ _ F') in Hm as (u' & Hu' & Hm). apply Hsel in Hm, Hk.
        apply Hu. rewrite (grp_unique n groups Hcat Hne u t k Hk Hk'). rewrite <- (grp_unique n groups Hcat Hne u' t m Hm Hm'). exact Hu'. }
      destruct Ui as [<-|Ui], Uj as [<-|Uj]; [reflexivity| | |].
      * exfalso. apply (D j Uj Hj Hi).
      * exfalso. apply (D i Ui Hi Hj).
      * apply (IH fs'); assumption.
  - intros (L & Hon & Hall & Huniq).
    destruct (Forall2_choice (fun t i => In i (sel t) /\ nth i v false = true) (rev c)) as [fs F].
    { intros t Ht. apply Hall. apply in_rev. exact Ht. }
    exists fs. split; [eapply Forall2_weaken; [|exact F]; cbn; tauto|].
    assert (Hr : forall i, In i fs -> i < n). { intros i Hi. apply (Forall2_in_r _ _ _ _ F) in Hi as (t & _ & Hi & _). apply (sel_range t), Hi. }
    destruct (union_spec fs (blank n)) as [U1 U2]; [apply blank_length|exact Hr|].
    apply (bvec_ext n); [exact L|exact U1|]. intros j _. apply eq_true_iff_eq. rewrite U2, nth_blank. split.
    + intros Hj. right. destruct (Hon j Hj) as (t & Ht & Hjs). apply in_rev in Ht. apply (Forall2_in_l _ _ _ _ F) in Ht as (i & Hi & Hs & Hv).
      rewrite (Huniq t j i); [exact Hi| |apply Hsel; exact Hjs|apply Hsel; exact Hs|exact Hj|exact Hv].
      destruct (Hon j Hj) as (t' & Ht' & Hjs'). rewrite (grp_unique n groups Hcat Hne t t' j); auto.
    + intros [K|K]; [discriminate|]. apply (Forall2_in_r _ _ _ _ F) in K as (t & _ & _ & K). exact K.
Qed.
Lemma products_NoDup : forall l acc, NoDup l -> length acc = n -> (forall t i, In t l -> In i (grp t) -> nth i acc false = false) ->
  NoDup (products (map (fun t => map (eye n) (sel t)) l) acc).
Proof.
    induction l as [|t l IH]; intros acc Nl Ha Hacc; cbn [map products]; [constructor; [intros []|constructor]|].
    apply NoDup_cons_iff in Nl as [Ht Nl']. rewrite flat_map_map. 
    assert (St : forall i, In i (sel t) -> forall u j, In u l -> In j (grp u) -> nth j (vor acc (eye n i)) false = false).
    { intros i Hi u j Hu Hj. rewrite nth_vor by (rewrite eye_length; exact Ha). rewrite (Hacc u) by (try (right; exact Hu); exact Hj). cbn [orb].
      rewrite nth_eye. destruct (Nat.eqb_spec i j) as [->|]; [|reflexivity]. exfalso. apply Ht. rewrite (grp_unique n groups Hcat Hne t u j); auto. }
    apply NoDup_flat_map_intro.
    - apply Hsel_nd.
    - intros i Hi. apply IH; [exact Nl'|rewrite vor_length, eye_length; lia|apply St, Hi].
    - intros i j z Hi Hj Hz Hz'. apply products_in in Hz as (fs & F & ->), Hz' as (fs' & F' & E).
      assert (R1 : forall i, In i fs -> i < n). { intros k Hk. apply (Forall2_in_r _ _ _ _ F) in Hk as (u & _ & Hk). apply (sel_range u), Hk. }
      assert (R2 : forall i, In i fs' -> i < n). { intros k Hk. apply (Forall2_in_r _ _ _ _ F') in Hk as (u & _ & Hk). apply (sel_range u), Hk. }
      destruct (union_spec fs (vor acc (eye n i))) as [_ U]; [rewrite vor_length, eye_length; lia|exact R1|].
      destruct (union_spec fs' (vor acc (eye n j))) as [_ U']; [rewrite vor_length, eye_length; lia|exact R2|].
      assert (T : nth i (union (vor acc (eye n j)) fs') false = true).
      { rewrite <- E. apply U. left. rewrite nth_vor by (rewrite eye_length; exact Ha). rewrite nth_eye, Nat.eqb_refl.
        rewrite (proj2 (Nat.ltb_lt i n)) by (apply (sel_range t), Hi). apply orb_true_r. }
      apply U' in T as [T|T].
      + rewrite nth_vor in T by (rewrite eye_length; exact Ha). rewrite (Hacc t i (or_introl eq_refl) (Hsel _ _ Hi)) in T. cbn [orb] in T. rewrite nth_eye in T.
        apply andb_prop in T as [T _]. apply Nat.eqb_eq in T. congruence.
      + exfalso. apply (Forall2_in_r _ _ _ _ F') in T as (u & Hu & T). apply Ht. rewrite (grp_unique n groups Hcat Hne t u i); auto.
Qed.
Lemma template_NoDup c : NoDup c -> NoDup (template_to_event n c dec).
Proof.
  intros Nc. rewrite template_products. apply NoDup_rev in Nc. apply products_NoDup; [exact Nc|apply blank_length|]. intros t i _ _. apply nth_blank.
Qed.
End Select.

Lemma lim_NoDup t : NoDup (lim t).
Proof.
  unfold LPProofs2.lim. pose proof (grp_NoDup n groups Hcat Hne t) as N. destruct (flag t); [exact N|].
  destruct (grp t) as [|x l] eqn:E; [constructor|]. rewrite (app_removelast_last 0) in N by discriminate. apply NoDup_remove_1 in N. rewrite app_nil_r in N. exact N.
Qed.

Variable compat : nat -> nat -> bool.
Hypothesis Hund : undirected nr compat.

Theorem events_exist : exists raw events, raw_monomials n groups compat = Some raw /\ maximal_events n groups compat = Some events /\
  hd_error raw = Some (blank n) /\ NoDup raw /\ NoDup events /\
  (forall v, In v raw <-> exists c, is_clique nr compat c /\ selected lim c v) /\
  (forall v, In v events <-> exists c, c <> [] /\ is_maximal nr compat c /\ selected grp c v).
Proof.
  unfold raw_monomials, maximal_events, cliques. fold nr.
  destruct (C18_all_cliques nr compat 0 true Hund) as (all & mx & E & Na & Hh & _ & Ha).
  destruct (C18_maximal_cliques nr compat Hund) as (all' & mx' & E' & Nm & Hm). rewrite E in E'. injection E' as <- <-.
  unfold nr_groups in *. rewrite E. cbn [option_map fst snd]. eexists. eexists. split; [reflexivity|]. split; [reflexivity|].
  assert (CN : forall c, is_clique (length groups) compat c -> NoDup c).
  { intros c (Hc & _). apply (ScenarioProofs.SS_NoDup lt); [intros x; lia|exact Hc]. }
  assert (Hl : forall t i, In i (lim t) -> In i (grp t)) by (intros t i; apply (lim_in n groups Hcat Hne)).
  assert (Det : forall sel c c', (forall t i, In i (sel t) -> In i (grp t)) -> is_clique (length groups) compat c -> is_clique (length groups) compat c' ->
     forall v, selected sel c v -> selected sel c' v -> c = c').
  { intros sel c c' Hs (C1 & _) (C2 & _) v (_ & A1 & A2 & _) (_ & B1 & B2 & _). apply SS_lt_ext; [exact C1|exact C2|]. intros t. split; intros Ht.
    - destruct (A2 t Ht) as (i & Hi & Vi). destruct (B1 i Vi) as (t' & Ht' & Hi'). rewrite (grp_unique n groups Hcat Hne t t' i); auto.
    - destruct (B2 t Ht) as (i & Hi & Vi). destruct (A1 i Vi) as (t' & Ht' & Hi'). rewrite (grp_unique n groups Hcat Hne t t' i); auto. }
  split; [destruct all as [|c all]; [discriminate|]; cbn in Hh; injection Hh as ->; reflexivity|].
  assert (Ca : forall c, In c all -> is_clique (length groups) compat c) by (intros c Hc; apply Ha in Hc; tauto).
  assert (Cm : forall c, In c mx -> is_clique (length groups) compat c) by (intros c Hc; apply Hm in Hc as [_ [Hc _]]; exact Hc).
  split; [|split; [|split]].
  - apply NoDup_flat_map_intro; [exact Na| |].
    + intros c Hc. apply (template_NoDup lim Hl lim_NoDup _ nth_CG_limited), CN, Ca, Hc.
    + intros c c' v Hc Hc' Hv Hv'. apply (Det lim c c' Hl (Ca _ Hc) (Ca _ Hc') v);
        apply (template_in lim Hl _ nth_CG_limited); auto.
  - apply NoDup_flat_map_intro; [exact Nm| |].
    + intros c Hc. apply (template_NoDup grp (fun t i H => H) (grp_NoDup n groups Hcat Hne) _ nth_all_groups), CN, Cm, Hc.
    + intros c c' v Hc Hc' Hv Hv'. apply (Det grp c c' (fun t i H => H) (Cm _ Hc) (Cm _ Hc') v);
        apply (template_in grp (fun t i H => H) _ nth_all_groups); auto.
  - intros v. rewrite in_flat_map. split; intros (c & Hc & Hv); exists c.
    + split; [apply Ca, Hc|]. apply (template_in lim Hl _ nth_CG_limited) in Hv; auto.
    + split; [apply Ha; split; [exact Hc|left; reflexivity]|]. apply (template_in lim Hl _ nth_CG_limited); auto.
  - intros v. rewrite in_flat_map. split.
    + intros (c & Hc & Hv). exists c. apply (template_in grp (fun t i H => H) _ nth_all_groups) in Hv; [|auto]. apply Hm in Hc. tauto.
    + intros (c & Hc & Hx & Hv). exists c. split; [apply Hm; auto|]. apply (template_in grp (fun t i H => H) _ nth_all_groups); [apply CN, Hx|exact Hv].
Qed.
End Events.
