(** Proofs about the generated linear programme: every solution is a behaviour. *)
From Coq Require Import Permutation Sorted.
From Verif Require Import MargModel QcSum LPModel LPSpec CliqueSpec CliqueProofs LPProofs LPProofs2 LPProofs3 LPProofs4 LPProofs5 LPProofs6.
From Verif Require ScenarioProofs OrbitProofs UniqueProofs ColumnProofs2 SymProofs.
Close Scope Q_scope. Close Scope Qc_scope. Open Scope nat_scope.

Section Converse.
Variables (n : nat) (groups : list (bool * list nat)%type).
Hypothesis Hcat : concat (map snd groups) = seq 0 n.
Hypothesis Hne : forall t, In t groups -> snd t <> [].
Variable compat : nat -> nat -> bool.
Hypothesis Hund : undirected (nr_groups groups) compat.
Variables (syms : list (list nat)) (symmetrize : bool).
Hypothesis Hsg : symmetry_group n groups compat syms.
Hypothesis Hsyms : syms <> [].
Set Default Proof Using "All".
Local Notation grp := (grp groups).
Local Notation flag := (flag groups).
Local Notation lst := (lst groups).
Local Notation nr := (nr_groups groups).
Local Notation alt := (alt n groups).
Local Notation crit := (crit groups).
Local Notation cleared := (cleared n groups).
Local Notation valid := (valid n groups compat).
Local Notation touch := (touch groups).
Local Notation amo := (amo groups).
Local Notation add := (add n).
Local Notation colof := (column_of syms symmetrize).
Local Notation reps := (representatives syms symmetrize).

(** * symmetries and groups *)
Definition image (g : list nat) t t' := t' < nr /\ flag t' = flag t /\ map (fun k => nth k g 0) (grp t) = grp t'.
Lemma image_exists g t : In g syms -> t < nr -> exists t', image g t t'.
Proof. intros Hg Ht. destruct (sg_groups n groups compat syms Hsg g t Hg Ht) as (t' & H). exists t'. exact H. Qed.
Lemma g_facts g : In g syms -> length g = n /\ (forall i, In i g -> i < n) /\ NoDup g.
Proof. apply (sg_range n groups compat syms Hsg). Qed.
Lemma g_range g i : In g syms -> i < n -> nth i g 0 < n.
Proof. intros Hg Hi. destruct (g_facts g Hg) as (L & R & _). apply R, nth_In. lia. Qed.
Lemma g_inj g i j : In g syms -> i < n -> j < n -> nth i g 0 = nth j g 0 -> i = j.
Proof. intros Hg Hi Hj E. destruct (g_facts g Hg) as (L & _ & N). apply (proj1 (NoDup_nth g 0) N); [lia|lia|exact E]. Qed.
Lemma vt_length v g : In g syms -> length (vtake v g) = n.
Proof. intros Hg. rewrite vtake_length. apply (g_facts g Hg). Qed.
Lemma vt_nth v g i : In g syms -> i < n -> nth i (vtake v g) false = nth (nth i g 0) v false.
Proof. intros Hg Hi. apply nth_vtake. destruct (g_facts g Hg) as (L & _). lia. Qed.
Lemma image_in g t t' i : image g t t' -> In i (grp t) -> In (nth i g 0) (grp t').
Proof. intros (_ & _ & E) Hi. rewrite <- E. apply (in_map (fun k => nth k g 0)), Hi. Qed.
Lemma image_inv g t t' j : image g t t' -> In j (grp t') -> exists i, In i (grp t) /\ nth i g 0 = j.
Proof. intros (_ & _ & E) Hj. rewrite <- E in Hj. apply in_map_iff in Hj as (i & <- & Hi). eauto. Qed.
Lemma image_fun g t t1 t2 : t < nr -> image g t t1 -> image g t t2 -> t1 = t2.
Proof.
  intros Ht I1 I2. pose proof (image_in g t t1 _ I1 (lst_in n groups Hcat Hne t Ht)) as A. pose proof (image_in g t t2 _ I2 (lst_in n groups Hcat Hne t Ht)) as B.
  apply (grp_unique n groups Hcat Hne t1 t2 _ A B).
Qed.
Lemma image_inj g t u t' : In g syms -> t < nr -> u < nr -> image g t t' -> image g u t' -> t = u.
Proof.
  intros Hg Ht Hu I1 I2. pose proof (image_in g t t' _ I1 (lst_in n groups Hcat Hne t Ht)) as A. apply (image_inv g u t' _ I2) in A as (i & Hi & E).
  apply (grp_unique n groups Hcat Hne t u i); [|exact Hi]. rewrite (g_inj g i (lst t)); [apply (lst_in n groups Hcat Hne t Ht)|exact Hg| | |exact E].
  - apply (grp_range n groups Hcat Hne u i Hi).
  - apply (grp_range n groups Hcat Hne t), (lst_in n groups Hcat Hne t Ht).
Qed.
Lemma image_lst g t t' : t < nr -> image g t t' -> lst t' = nth (lst t) g 0.
Proof.
  intros Ht (_ & _ & E). unfold LPProofs2.lst at 1. rewrite <- E. rewrite (last_map _ _ 0 0); [reflexivity|]. apply (grp_ne n groups Hcat Hne t Ht).
Qed.
Lemma image_removelast g t t' : image g t t' -> removelast (grp t') = map (fun k => nth k g 0) (removelast (grp t)).
Proof. intros (_ & _ & E). rewrite <- E. apply removelast_map. Qed.
Lemma image_onto g t' : In g syms -> t' < nr -> exists t, t < nr /\ image g t t'.
Proof.
  intros Hg Ht'. destruct (sg_inv n groups compat syms Hsg g Hg) as (h & Hh & E). destruct (image_exists h t' Hh Ht') as (t & It). pose proof It as (Ht & Hf & Em).
  exists t. split; [exact Ht|]. split; [exact Ht'|]. split; [congruence|]. rewrite <- Em, map_map.
  rewrite <- (map_id (grp t')) at 2. apply map_ext_in. intros k Hk. pose proof (grp_range n groups Hcat Hne t' k Hk) as Kr.
  assert (nth k (map (fun k => nth k g 0) h) (nth 0 g 0) = nth (nth k h 0) g 0) by apply (map_nth (fun k => nth k g 0)).
  rewrite <- H, E. rewrite (nth_indep _ _ 0) by (rewrite seq_length; exact Kr). rewrite seq_nth by exact Kr. reflexivity.
Qed.
Lemma touch_sym g t t' v : In g syms -> image g t t' -> (touch (vtake v g) t <-> touch v t').
Proof.
  intros Hg I. split.
  - intros (i & Hi & V). rewrite vt_nth in V by (try exact Hg; apply (grp_range n groups Hcat Hne t i Hi)). exists (nth i g 0). split; [apply (image_in g t t' i I Hi)|exact V].
  - intros (j & Hj & V). apply (image_inv g t t' j I) in Hj as (i & Hi & <-). exists i. split; [exact Hi|].
    rewrite vt_nth by (try exact Hg; apply (grp_range n groups Hcat Hne t i Hi)). exact V.
Qed.
Lemma amo_sym g v : In g syms -> amo v -> amo (vtake v g).
Proof.
  intros Hg A t i j Hi Hj Vi Vj. destruct (image_exists g t Hg (grp_lt n groups Hcat Hne t i Hi)) as (t' & I).
  pose proof (grp_range n groups Hcat Hne t i Hi) as Ri. pose proof (grp_range n groups Hcat Hne t j Hj) as Rj.
  rewrite vt_nth in Vi, Vj by assumption. apply (g_inj g); [exact Hg|exact Ri|exact Rj|]. apply (A t'); [apply (image_in g t t' i I Hi)|apply (image_in g t t' j I Hj)|exact Vi|exact Vj].
Qed.
Lemma valid_sym g v : In g syms -> valid v -> valid (vtake v g).
Proof.
  intros Hg (L & A & V). split; [apply vt_length, Hg|]. split; [apply amo_sym; assumption|]. intros t u Ntu Tt Tu.
  pose proof (touch_lt n groups Hcat Hne compat Hund _ _ Tt) as Rt. pose proof (touch_lt n groups Hcat Hne compat Hund _ _ Tu) as Ru.
  destruct (image_exists g t Hg Rt) as (t' & It), (image_exists g u Hg Ru) as (u' & Iu).
  rewrite (sg_compat n groups compat syms Hsg g t u t' u' Hg Rt Ru (proj1 It) (proj1 Iu) (proj2 (proj2 It)) (proj2 (proj2 Iu))).
  apply V; [|apply (touch_sym g t t' v Hg It), Tt|apply (touch_sym g u u' v Hg Iu), Tu]. intros ->. apply Ntu. apply (image_inj g t u u'); assumption.
Qed.
Lemma crit_sym g b v t t' : In g syms -> t < nr -> image g t t' -> (In t (crit b (vtake v g)) <-> In t' (crit b v)).
Proof.
  intros Hg Ht I. rewrite !(crit_in n groups Hcat Hne). pose proof I as (Ht' & Hf & _). rewrite Hf, (image_lst g t t' Ht I).
  rewrite vt_nth by (try exact Hg; apply (grp_range n groups Hcat Hne t), (lst_in n groups Hcat Hne t Ht)). tauto.
Qed.

Variables raw events : list bvec.
Hypothesis Eraw : raw_monomials n groups compat = Some raw.
Hypothesis Eevents : maximal_events n groups compat = Some events.
Hypothesis Hsym : symmetrize = false -> syms = [seq 0 n].
Local Notation rfacts := (raw_facts n groups Hcat Hne compat Hund syms symmetrize Hsg Hsyms raw events Eraw Eevents).

Lemma raw_sym g v : In g syms -> In v raw -> In (vtake v g) raw.
Proof.
  intros Hg Hv. destruct rfacts as (_ & _ & _ & R & _). apply R in Hv as [V C]. apply R. split; [apply valid_sym; assumption|].
  destruct (crit false (vtake v g)) as [|t l] eqn:E; [reflexivity|]. exfalso. assert (K : In t (crit false (vtake v g))) by (rewrite E; left; reflexivity).
  pose proof K as K'. apply (crit_in n groups Hcat Hne) in K' as (Ht & _). destruct (image_exists g t Hg Ht) as (t' & I).
  apply (crit_sym g false v t t' Hg Ht I) in K. rewrite C in K. destruct K.
Qed.
Lemma raw_sym_inv g v : In g syms -> length v = n -> In (vtake v g) raw -> In v raw.
Proof.
  intros Hg L H. destruct (sg_inv n groups compat syms Hsg g Hg) as (h & Hh & E). apply (raw_sym h) in H; [|exact Hh].
  rewrite vtake_vtake, E, (vtake_id n) in H; [exact H|exact L|]. destruct (g_facts g Hg) as [-> _]. apply (g_facts h Hh).
Qed.

Variable x : nat -> Qc.
Definition X (u : bvec) : Qc := match colof raw u with Some c => x c | None => 0%Qc end.
Lemma X_sym g u : In g syms -> length u = n -> X (vtake u g) = X u.
Proof.
  intros Hg L. destruct rfacts as (_ & N & _). unfold X. destruct (in_dec (list_eq_dec Bool.bool_dec) u raw) as [H|H].
  - replace (colof raw (vtake u g)) with (colof raw u); [reflexivity|]. destruct Hsg. apply (column_same n syms); auto.
    + intros v Hv. apply rfacts in Hv as [(Hv & _) _]. exact Hv.
    + apply raw_sym; assumption.
    + exists g. auto.
  - assert (K : colof raw u = None). { destruct (colof raw u) eqn:E; [|reflexivity]. exfalso. apply H. apply (column_in syms raw N symmetrize u _ E). }
    assert (K' : colof raw (vtake u g) = None).
    { destruct (colof raw (vtake u g)) eqn:E; [|reflexivity]. exfalso. apply H. apply (raw_sym_inv g); [exact Hg|exact L|]. apply (column_in syms raw N symmetrize _ _ E). }
    rewrite K, K'. reflexivity.
Qed.
Lemma add_sym g v i : In g syms -> length v = n -> i < n -> add (vtake v g) i = vtake (add v (nth i g 0)) g.
Proof.
  intros Hg L Hi. pose proof (g_range g i Hg Hi) as Hr. apply (bvec_ext n); [apply (add_length n groups Hcat Hne compat Hund), vt_length, Hg|apply vt_length, Hg|].
  intros j Hj. apply eq_true_iff_eq. rewrite (vt_nth (add v (nth i g 0)) g j Hg Hj).
  rewrite !(nth_add n groups Hcat Hne compat Hund) by (try exact L; apply vt_length; exact Hg). rewrite vt_nth by assumption.
  split.
  - intros [K|[-> _]]; [left; exact K|right; split; [reflexivity|exact Hr]].
  - intros [K|[K _]]; [left; exact K|right; split; [apply (g_inj g); assumption|exact Hi]].
Qed.
Lemma nsum_sym g ls ls' : In g syms -> Forall2 (fun t t' => t < nr /\ image g t t') ls ls' -> forall acc, length acc = n ->
  nsum X (map alt ls) (vtake acc g) = nsum X (map alt ls') acc.
Proof.
  intros Hg. induction 1 as [|t t' ls ls' [Ht I] F IH]; intros acc L; cbn [map].
  - rewrite !nsum_nil. apply X_sym; assumption.
  - rewrite !(nsum_alt n groups Hcat Hne compat Hund) by (try exact L; apply vt_length; exact Hg). rewrite IH by exact L. f_equal. f_equal.
    rewrite (image_removelast g t t' I), map_map. apply map_ext_in. intros i Hi. apply (nonlast_in n groups Hcat Hne) in Hi. pose proof (grp_range n groups Hcat Hne t i Hi) as Ri.
    rewrite add_sym by assumption. apply IH. apply (add_length n groups Hcat Hne compat Hund), L.
Qed.
Definition Ex b v := nsum X (map alt (crit b v)) (cleared b v).
Lemma cleared_sym g b v : In g syms -> length v = n -> cleared b (vtake v g) = vtake (cleared b v) g.
Proof.
  intros Hg L. apply (bvec_ext n); [apply cleared_length; try assumption; apply vt_length, Hg|apply vt_length, Hg|]. intros i Hi. apply eq_true_iff_eq.
  rewrite (vt_nth (cleared b v)) by assumption. rewrite !(nth_cleared n groups Hcat Hne) by (try exact L; apply vt_length; exact Hg). rewrite vt_nth by assumption.
  assert (K : (exists t, In t (ids groups b) /\ lst t = i) <-> (exists t, In t (ids groups b) /\ lst t = nth i g 0)).
  { split; intros (t & Ht & E); apply (ids_in n groups Hcat Hne) in Ht as [Ht Hf].
    - destruct (image_exists g t Hg Ht) as (t' & I). exists t'. split; [apply (ids_in n groups Hcat Hne); destruct I as (I1 & I2 & _); split; congruence|]. rewrite (image_lst g t t' Ht I). congruence.
    - destruct (image_onto g t Hg Ht) as (t0 & Ht0 & I). exists t0. split; [apply (ids_in n groups Hcat Hne); destruct I as (I1 & I2 & _); split; congruence|].
      rewrite (image_lst g t0 t Ht0 I) in E. apply (g_inj g); [exact Hg| |exact Hi|exact E]. apply (grp_range n groups Hcat Hne t0), (lst_in n groups Hcat Hne t0 Ht0). }
  tauto.
Qed.
Lemma Ex_sym g b v : In g syms -> length v = n -> Ex b (vtake v g) = Ex b v.
Proof.
  intros Hg L. unfold Ex. rewrite cleared_sym by assumption.
  destruct (Forall2_choice (fun t t' => t < nr /\ image g t t') (crit b (vtake v g))) as [ls F].
  { intros t Ht. apply (crit_in n groups Hcat Hne) in Ht as (Ht & _). destruct (image_exists g t Hg Ht) as (t' & I). exists t'. auto. }
  rewrite (nsum_sym g _ _ Hg F) by (apply cleared_length; assumption). apply nsum_perm. apply Permutation_map.
  apply perm_of_same_elements.
  - pose proof (crit_NoDup n groups Hcat Hne b (vtake v g)) as N. clear L. induction F as [|t t' l l' [Ht I] F IH]; [constructor|].
    apply NoDup_cons_iff in N as [N1 N2]. constructor; [|apply IH, N2]. intros K. apply (Forall2_in_r _ _ _ _ F) in K as (u & Hu & Ru & Iu).
    apply N1. rewrite (image_inj g t u t'); assumption.
  - apply (crit_NoDup n groups Hcat Hne).
  - intros t'. split.
    + intros K. apply (Forall2_in_r _ _ _ _ F) in K as (t & Ht & Rt & I). apply (crit_sym g b v t t' Hg Rt I), Ht.
    + intros K. pose proof K as K'. apply (crit_in n groups Hcat Hne) in K' as (Ht' & _). destruct (image_onto g t' Hg Ht') as (t & Ht & I).
      apply (crit_sym g b v t t' Hg Ht I) in K. apply (Forall2_in_l _ _ _ _ F) in K as (t2 & K1 & K2 & K3). rewrite (image_fun g t t' t2 Ht I K3). exact K1.
Qed.

(** * one-step marginalisation *)
Lemma vt_eq_crit b v w : (forall t, t < nr -> flag t = b -> nth (lst t) v false = nth (lst t) w false) -> crit b v = crit b w.
Proof.
  intros H. unfold LPProofs2.crit. assert (K : forall t, In t (ids groups b) -> nth (lst t) v false = nth (lst t) w false) by (intros t Ht; apply (ids_in n groups Hcat Hne) in Ht as [A B]; auto).
  revert K. generalize (ids groups b). clear. induction l as [|t l IH]; intros K; cbn; [reflexivity|]. rewrite K by (left; reflexivity).
  rewrite IH by (intros u Hu; apply K; right; exact Hu). reflexivity.
Qed.
(** adding an operator that is not an expanded last outcome *)
Lemma add_plain b v t i : length v = n -> In i (grp t) -> (flag t = b -> i <> lst t) ->
  crit b (add v i) = crit b v /\ cleared b (add v i) = add (cleared b v) i.
Proof.
  intros L Hi Hl. pose proof (grp_lt n groups Hcat Hne t i Hi) as Ht. split.
  - apply vt_eq_crit. intros u Hu Hf. apply eq_true_iff_eq. rewrite (nth_add_grp n groups Hcat Hne compat Hund v t) by assumption. split; [|auto].
    intros [K|K]; [exact K|]. exfalso. assert (u = t) by (apply (grp_unique n groups Hcat Hne u t i); [rewrite <- K; apply (lst_in n groups Hcat Hne u Hu)|exact Hi]). subst u. apply (Hl Hf). congruence.
  - apply (bvec_ext n); [apply cleared_length; try assumption; apply (add_length n groups Hcat Hne compat Hund), L|apply (add_length n groups Hcat Hne compat Hund), cleared_length; assumption|].
    intros j _. apply eq_true_iff_eq. rewrite (nth_add_grp n groups Hcat Hne compat Hund (cleared b v) t) by (try exact Hi; apply cleared_length; assumption).
    rewrite !(nth_cleared n groups Hcat Hne) by (try exact L; apply (add_length n groups Hcat Hne compat Hund), L). rewrite (nth_add_grp n groups Hcat Hne compat Hund v t) by assumption.
    split; [tauto|]. intros [[K1 K2]| ->]; [tauto|]. split; [right; reflexivity|]. intros (u & Hu & E). apply (ids_in n groups Hcat Hne) in Hu as [Hu Hf].
    assert (u = t) by (apply (grp_unique n groups Hcat Hne u t i); [rewrite <- E; apply (lst_in n groups Hcat Hne u Hu)|exact Hi]). subst u. apply (Hl Hf). congruence.
Qed.
(** adding an expanded last outcome *)
Lemma add_last b v t : length v = n -> t < nr -> flag t = b -> ~ touch v t ->
  Permutation (crit b (add v (lst t))) (t :: crit b v) /\ cleared b (add v (lst t)) = cleared b v.
Proof.
  intros L Ht Hf Nt. pose proof (lst_in n groups Hcat Hne t Ht) as Hl. split.
  - apply perm_of_same_elements; [apply (crit_NoDup n groups Hcat Hne)|constructor; [|apply (crit_NoDup n groups Hcat Hne)]|].
    + intros K. apply (crit_in n groups Hcat Hne) in K as (_ & _ & K). apply Nt. exists (lst t). auto.
    + intros u. cbn [In]. rewrite !(crit_in n groups Hcat Hne), (nth_add_grp n groups Hcat Hne compat Hund v t) by assumption. split.
      * intros (U1 & U2 & [U3|U3]); [right; auto|left]. apply (lst_inj n groups Hcat Hne); auto.
      * intros [<-|(U1 & U2 & U3)]; auto.
  - apply (bvec_ext n); [apply cleared_length; try assumption; apply (add_length n groups Hcat Hne compat Hund), L|apply cleared_length; assumption|].
    intros j _. apply eq_true_iff_eq. rewrite !(nth_cleared n groups Hcat Hne) by (try exact L; apply (add_length n groups Hcat Hne compat Hund), L).
    rewrite (nth_add_grp n groups Hcat Hne compat Hund v t) by assumption. split; [|tauto]. intros [[K| ->] K2]; [tauto|]. exfalso. apply K2. exists t.
    split; [apply (ids_in n groups Hcat Hne); auto|reflexivity].
Qed.
Lemma sum_grp t (f : nat -> Qc) : t < nr -> sumQ (map f (grp t)) = (sumQ (map f (removelast (grp t))) + f (lst t))%Qc.
Proof. intros Ht. rewrite (grp_split n groups Hcat Hne t Ht) at 1. rewrite map_app, sumQ_app. cbn [map]. rewrite sumQ_cons, sumQ_nil. ring. Qed.
Lemma step_expanded b v t : length v = n -> t < nr -> flag t = b -> ~ touch v t -> sumQ (map (fun i => Ex b (add v i)) (grp t)) = Ex b v.
Proof.
  intros L Ht Hf Nt. rewrite sum_grp by exact Ht. destruct (add_last b v t L Ht Hf Nt) as [A1 A2]. unfold Ex at 2. rewrite A2.
  rewrite (nsum_perm X _ _ (Permutation_map alt A1)). cbn [map]. rewrite (nsum_alt n groups Hcat Hne compat Hund) by (apply cleared_length; assumption).
  rewrite (sumQ_ext (removelast (grp t)) (fun i => Ex b (add v i)) (fun i => nsum X (map alt (crit b v)) (add (cleared b v) i))); [unfold Ex; ring|].
  intros i Hi. apply (nonlast n groups Hcat Hne t i Ht) in Hi as [Hi Hl]. destruct (add_plain b v t i L Hi) as [P1 P2]; [intros _; exact Hl|].
  unfold Ex. rewrite P1, P2. reflexivity.
Qed.
Lemma add_comm acc i j : add (add acc i) j = add (add acc j) i.
Proof. unfold LPProofs5.add. rewrite <- !vor_assoc. f_equal. apply vor_comm. Qed.
(** an operator of a measurement that is not expanded can be summed over term by term *)
Lemma nsum_marginal (is : list nat) ls : forall acc, length acc = n ->
  (forall s0 u s, In (u, s) (nested (map alt ls) acc s0) -> sumQ (map (fun i => X (add u i)) is) = X u) ->
  sumQ (map (fun i => nsum X (map alt ls) (add acc i)) is) = nsum X (map alt ls) acc.
Proof.
  induction ls as [|t ls IH]; intros acc L H; cbn [map].
  - rewrite nsum_nil. rewrite <- (H false acc false) by (left; reflexivity). apply sumQ_ext. intros i _. apply nsum_nil.
  - rewrite (nsum_alt n groups Hcat Hne compat Hund) by exact L.
    rewrite (sumQ_ext is _ (fun i => nsum X (map alt ls) (add acc i) + - (1) * sumQ (map (fun j => nsum X (map alt ls) (add (add acc i) j)) (removelast (grp t))))%Qc).
    + rewrite sumQ_add, sumQ_scale, IH; [|exact L|].
      * rewrite sumQ_swap. rewrite (sumQ_ext (removelast (grp t)) _ (fun j => nsum X (map alt ls) (add acc j))); [ring|].
        intros j Hj. rewrite (sumQ_ext is _ (fun i => nsum X (map alt ls) (add (add acc j) i))) by (intros i _; rewrite add_comm; reflexivity).
        apply IH; [apply (add_length n groups Hcat Hne compat Hund), L|]. intros s0 u s Hu. apply (H (xorb s0 (vany (eye n j))) u s). cbn [map nested]. apply in_flat_map.
        exists (eye n j). split; [right; apply in_map, Hj|]. replace (xorb (xorb s0 (vany (eye n j))) (vany (eye n j))) with s0 by (destruct s0, (vany (eye n j)); reflexivity). exact Hu.
      * intros s0 u s Hu. apply (H s0 u s). cbn [map nested]. apply in_flat_map. exists (blank n). split; [left; reflexivity|].
        rewrite vor_blank by exact L. rewrite (proj2 (vany_false (blank n)) (nth_blank n)), xorb_false_r. exact Hu.
    + intros i Hi. rewrite (nsum_alt n groups Hcat Hne compat Hund) by (apply (add_length n groups Hcat Hne compat Hund), L). ring.
Qed.

(** * solutions *)
Variable prog : programme.
Hypothesis Eprog : generate_lp n groups compat syms symmetrize = Some prog.
Hypothesis Hx0 : x 0 = 1%Qc.
Hypothesis Heq : forall r, In r (lp_equalities prog) -> row_value x r = 0%Qc.
Hypothesis Hineq : forall r, In r (lp_inequalities prog) -> (0 <= row_value x r)%Qc.
Local Notation gok := (generate_ok n groups Hcat Hne compat Hund syms symmetrize Hsg Hsyms raw events Eraw Eevents).

Lemma X_col : forall v c, In v raw -> colof raw v = Some c -> x c = X v.
Proof. intros v c _ E. unfold X. rewrite E. reflexivity. Qed.
Lemma raw_len v : In v raw -> length v = n.
Proof. intros Hv. apply rfacts in Hv as [(Hv & _) _]. exact Hv. Qed.
Lemma X_equality v : In v raw -> Ex true v = X v.
Proof.
  intros Hv. destruct (column_ok n groups Hcat Hne compat Hund syms symmetrize Hsg Hsyms raw events Eraw Eevents v Hv) as (c & Ec & Hc & (g & Hg & Eg) & Hr).
  pose proof (raw_len v Hv) as L. rewrite <- (Ex_sym g true v Hg L), <- (X_sym g v Hg L), Eg. set (r := nth c (reps raw) []) in *.
  destruct (crit true r) as [|t l] eqn:K.
  - unfold Ex. rewrite K, (cleared_id n groups Hcat Hne compat Hund) by (try exact K; apply raw_len; exact Hr). cbn [map]. apply nsum_nil.
  - assert (K' : crit true r <> []) by congruence. destruct gok as (prog' & E' & C & _ & F). rewrite Eprog in E'. injection E' as <-.
    assert (Hin : In r (filter (fun v => vany (vand v (trigger_equality n groups))) (reps raw))).
    { apply filter_In. split; [apply nth_In, Hc|]. apply (trigger_crit n groups Hcat Hne compat Hund syms symmetrize Hsg Hsyms raw events Eraw Eevents r Hr), K'. }
    apply (Forall2_in_l _ _ _ _ F) in Hin as (row & Hrow & Erow).
    destruct (equality_row_ok n groups Hcat Hne compat Hund syms symmetrize Hsg Hsyms raw events Eraw Eevents r Hr K') as (row' & E2 & V). rewrite Erow in E2. injection E2 as <-.
    pose proof (V x X X_col) as V'. rewrite (Heq row Hrow) in V'. unfold Ex. 
    replace (nsum X (map alt (crit true r)) (cleared true r)) with (X r + (nsum X (map alt (crit true r)) (cleared true r) - X r))%Qc by ring. rewrite <- V'. ring.
Qed.
Lemma X_one_step u t : t < nr -> flag t = true -> ~ touch u t -> In u raw -> (forall i, In i (grp t) -> In (add u i) raw) ->
  sumQ (map (fun i => X (add u i)) (grp t)) = X u.
Proof.
  intros Ht Hf Nt Hu Hi. rewrite <- (X_equality u Hu), <- (step_expanded true u t (raw_len u Hu) Ht Hf Nt). apply sumQ_ext. intros i Hg. symmetry. apply X_equality, Hi, Hg.
Qed.
Lemma add_touch v t i u : length v = n -> In i (grp t) -> (touch (add v i) u <-> touch v u \/ u = t).
Proof.
  intros L Hi. split.
  - intros (j & Hj & V). apply (nth_add_grp n groups Hcat Hne compat Hund v t) in V as [V| ->]; [left; exists j; auto| |exact L|exact Hi].
    right. apply (grp_unique n groups Hcat Hne u t i); assumption.
  - intros [(j & Hj & V)| ->]; [exists j; split; [exact Hj|]|exists i; split; [exact Hi|]]; apply (nth_add_grp n groups Hcat Hne compat Hund v t); auto.
Qed.
Lemma add_amo v t i : length v = n -> In i (grp t) -> amo v -> ~ touch v t -> amo (add v i).
Proof.
  intros L Hi A Nt u j k Hj Hk Vj Vk. apply (nth_add_grp n groups Hcat Hne compat Hund v t) in Vj, Vk; try assumption.
  destruct Vj as [Vj| ->], Vk as [Vk| ->]; [apply (A u); assumption| | |reflexivity]; exfalso; apply Nt.
  - exists j. split; [|exact Vj]. rewrite (grp_unique n groups Hcat Hne t u i); assumption.
  - exists k. split; [|exact Vk]. rewrite (grp_unique n groups Hcat Hne t u i); assumption.
Qed.
(** the measurement [t] can be added to the event *)
Definition extends v t := t < nr /\ ~ touch v t /\ forall u, touch v u -> compat t u = true /\ compat u t = true.
Lemma extends_valid v t i : valid v -> extends v t -> In i (grp t) -> valid (add v i).
Proof.
  intros (L & A & V) (Ht & Nt & Hc) Hi. split; [apply (add_length n groups Hcat Hne compat Hund), L|]. split; [apply (add_amo v t); assumption|].
  intros u w N Tu Tw. apply (add_touch v t) in Tu, Tw; try assumption. destruct Tu as [Tu| ->], Tw as [Tw| ->]; [apply V; assumption|apply Hc, Tu|apply Hc, Tw|congruence].
Qed.
Theorem one_step v t : valid v -> extends v t -> sumQ (map (fun i => Ex false (add v i)) (grp t)) = Ex false v.
Proof.
  intros V Et. pose proof V as (L & A & _). pose proof Et as (Ht & Nt & Hc). destruct (flag t) eqn:Hf; [|apply step_expanded; assumption].
  unfold Ex at 2. rewrite <- (nsum_marginal (grp t) (crit false v) (cleared false v)); [|apply cleared_length; assumption|].
  - apply sumQ_ext. intros i Hi. destruct (add_plain false v t i L Hi) as [P1 P2]; [congruence|]. unfold Ex. rewrite P1, P2. reflexivity.
  - intros s0 u s Hu. apply (terms_valid n groups Hcat Hne compat Hund) in Hu as (U1 & U2 & U3 & U4); [|exact V].
    assert (Eu : extends u t). { split; [exact Ht|]. split; [intros K; apply Nt, U4, K|]. intros w Tw. apply Hc, U4, Tw. }
    pose proof U1 as (Lu & _). apply X_one_step; [exact Ht|exact Hf|apply Eu|apply rfacts; auto|].
    intros i Hi. apply rfacts. split; [apply (extends_valid u t); assumption|]. destruct (add_plain false u t i Lu Hi) as [P1 _]; [congruence|]. rewrite P1. exact U2.
Qed.
Lemma event_nonneg v : In v events -> (0 <= Ex false v)%Qc.
Proof.
  intros Hv. destruct rfacts as (_ & _ & Ne & _).
  assert (Lev : forall v, In v events -> length v = n) by (intros u Hu; apply (events_length n groups Hcat Hne compat Hund syms symmetrize Hsg Hsyms raw events Eraw Eevents u Hu)).
  assert (Hc : exists c, c < length (reps events) /\ related syms v (nth c (reps events) []) /\ In (nth c (reps events) []) events).
  { destruct Hsg. destruct (column_exists n syms sg_head Hsyms sg_range sg_comp sg_inv events Lev Ne symmetrize v Hv) as (c & _ & Hc). exists c. exact Hc. }
  destruct Hc as (c & Hc & (g & Hg & Eg) & Hr). rewrite <- (Ex_sym g false v Hg (Lev v Hv)), Eg. set (r := nth c (reps events) []) in *.
  destruct gok as (prog' & E' & C & F & _). rewrite Eprog in E'. injection E' as <-.
  destruct (Forall2_in_l _ _ _ r F) as (row & Hrow & Erow); [apply nth_In, Hc|].
  destruct (inequality_row_ok n groups Hcat Hne compat Hund syms symmetrize Hsg Hsyms raw events Eraw Eevents r) as (row' & E2 & V).
  { apply (events_valid n groups Hcat Hne compat Hund syms symmetrize Hsg Hsyms raw events Eraw Eevents), Hr. }
  rewrite Erow in E2. injection E2 as <-. unfold Ex. rewrite <- (V x X X_col). apply Hineq, Hrow.
Qed.

(** * the joint distribution of a maximal clique *)
Definition rows_of (l : list nat) := map (fun t => map (eye n) (grp t)) l.
Lemma products_sum l : NoDup l -> (forall t, In t l -> t < nr) -> (forall t u, In t l -> In u l -> t <> u -> compat t u = true) ->
  forall v, valid v -> (forall t, In t l -> extends v t) -> sumQ (map (Ex false) (products (rows_of l) v)) = Ex false v.
Proof.
  induction 1 as [|t l Ht N IH]; intros Hr Hc v V He; cbn [rows_of map products].
  - cbn [map]. rewrite sumQ_cons, sumQ_nil. ring.
  - rewrite flat_map_map. rewrite <- (one_step v t V) by (apply He; left; reflexivity).
    rewrite (flat_map_concat_map), concat_map, map_map. 
    assert (S0 : forall (ll : list (list Qc)), sumQ (concat ll) = sumQ (map sumQ ll)).
    { induction ll as [|a ll IHl]; [reflexivity|]. cbn [concat map]. rewrite sumQ_app, sumQ_cons, IHl. reflexivity. }
    rewrite S0, map_map. apply sumQ_ext. intros i Hi. fold (LPProofs5.add n v i). pose proof V as (L & _). apply IH.
    + intros u Hu. apply Hr. right. exact Hu.
    + intros u w Hu Hw. apply Hc; right; assumption.
    + apply (extends_valid v t); auto. apply He. left. reflexivity.
    + intros u Hu. destruct (He u (or_intror Hu)) as (E1 & E2 & E3). split; [exact E1|]. assert (Nut : u <> t) by (intros ->; contradiction). split.
      * intros K. apply (add_touch v t) in K as [K|K]; auto.
      * intros w Tw. apply (add_touch v t) in Tw as [Tw| ->]; [apply E3, Tw| |exact L|exact Hi]. split; apply Hc; first [right; exact Hu|left; reflexivity|congruence].
Qed.
Lemma extend_maximal c : is_clique nr compat c -> exists c', is_maximal nr compat c' /\ incl c c'.
Proof.
  intros C. remember (nr - length c) as k eqn:Ek. revert c C Ek. induction k as [k IH] using (well_founded_induction lt_wf). intros c C Ek.
  assert (D : {v | v < nr /\ ~ In v c /\ forall y, In y c -> compat y v = true} + {forall v, v < nr -> ~ In v c -> exists y, In y c /\ compat y v = false}).
  { assert (G : forall m, m <= nr -> {v | v < m /\ ~ In v c /\ forall y, In y c -> compat y v = true} + {forall v, v < m -> ~ In v c -> exists y, In y c /\ compat y v = false}).
    { induction m as [|m IHm]; intros Hm; [right; intros v Hv; lia|]. destruct IHm as [(v & H1 & H2)|H]; [lia|left; exists v; split; [lia|exact H2]|].
      destruct (in_dec Nat.eq_dec m c) as [K|K]; [right; intros v Hv Nv; apply H; [|exact Nv]; destruct (Nat.eq_dec v m); [subst; contradiction|lia]|].
      destruct (forallb (fun y => compat y m) c) eqn:E.
      - left. exists m. split; [lia|]. split; [exact K|]. apply forallb_forall, E.
      - right. intros v Hv Nv. destruct (Nat.eq_dec v m) as [->|]; [|apply H; [lia|exact Nv]]. clear - E. induction c as [|y c IH]; [discriminate|]. cbn in E. destruct (compat y m) eqn:Ey.
        + destruct (IH E) as (z & Hz & Ez). exists z. split; [right; exact Hz|exact Ez].
        + exists y. split; [left; reflexivity|exact Ey]. }
    apply G. lia. }
  destruct D as [(v & V1 & V2 & V3)|D]; [|exists c; split; [split; assumption|apply incl_refl]].
  destruct C as (C1 & C2 & C3). destruct (insert_sorted v c C1 V2) as (l & r & E & S').
  assert (C' : is_clique nr compat (l ++ v :: r)).
  { split; [exact S'|]. assert (M : forall y, In y (l ++ v :: r) <-> y = v \/ In y c). { intros y. subst c. rewrite !in_app_iff. cbn. intuition. }
    split; [intros y Hy; apply M in Hy as [->|Hy]; auto|]. intros y z Hy Hz Nyz. apply M in Hy, Hz. destruct Hy as [->|Hy], Hz as [->|Hz]; [congruence| |apply V3; exact Hy|apply C3; assumption].
    rewrite Hund; [apply V3, Hz|exact V1|apply C2, Hz]. }
  destruct (IH (nr - length (l ++ v :: r))) with (c := l ++ v :: r) as (c' & M & I); [|exact C'|reflexivity|].
  - subst c. rewrite app_length in *. cbn [length] in *. 
    assert (length l + S (length r) <= nr).
    { assert (length (l ++ v :: r) <= length (seq 0 nr)); [|rewrite app_length, seq_length in H; exact H]. apply NoDup_incl_length.
      - apply (ScenarioProofs.SS_NoDup lt); [intros y; lia|exact S'].
      - intros y Hy. apply in_seq. destruct C' as (_ & C' & _). specialize (C' y Hy). lia. }
    lia.
  - exists c'. split; [exact M|]. intros y Hy. apply I. subst c. rewrite in_app_iff in *. cbn. tauto.
Qed.
Lemma amo_dec v : {amo v} + {~ amo v}.
Proof.
  destruct (forallb (fun t => forallb (fun i => forallb (fun j => negb (nth i v false && nth j v false) || (i =? j)) (grp t)) (grp t)) (seq 0 nr)) eqn:E.
  - left. intros t i j Hi Hj Vi Vj. pose proof (grp_lt n groups Hcat Hne t i Hi) as Ht. rewrite forallb_forall in E. specialize (E t). rewrite forallb_forall in E.
    specialize (E ltac:(apply in_seq; lia) i Hi). rewrite forallb_forall in E. specialize (E j Hj). rewrite Vi, Vj in E. cbn in E. apply Nat.eqb_eq, E.
  - right. intros A. assert (K : forallb (fun t => forallb (fun i => forallb (fun j => negb (nth i v false && nth j v false) || (i =? j)) (grp t)) (grp t)) (seq 0 nr) = true); [|congruence].
    apply forallb_forall. intros t _. apply forallb_forall. intros i Hi. apply forallb_forall. intros j Hj. destruct (nth i v false) eqn:Vi, (nth j v false) eqn:Vj; cbn; try reflexivity.
    apply Nat.eqb_eq, (A t); assumption.
Qed.
Definition PX v : Qc := if amo_dec v then Ex false v else 0%Qc.
Lemma Ex_raw v : In v raw -> Ex false v = X v.
Proof.
  intros Hv. pose proof (raw_len v Hv) as L. apply rfacts in Hv as [_ C]. unfold Ex. rewrite C, (cleared_id n groups Hcat Hne compat Hund) by assumption. apply nsum_nil.
Qed.
Lemma blank_valid : valid (blank n).
Proof.
  split; [apply blank_length|]. split.
  - intros t i j _ _ K _. rewrite nth_blank in K. discriminate.
  - intros t u _ (i & _ & K). rewrite nth_blank in K. discriminate.
Qed.
Lemma Ex_blank : Ex false (blank n) = 1%Qc.
Proof.
  destruct rfacts as (H0 & N & _). destruct raw as [|r0 raw'] eqn:Er; [discriminate|]. cbn in H0. injection H0 as ->. rewrite <- Er in *.
  rewrite Ex_raw by (rewrite Er; left; reflexivity). unfold X.
  destruct (column_first n syms (sg_head _ _ _ _ Hsg) Hsyms (sg_range _ _ _ _ Hsg) (sg_comp _ _ _ _ Hsg) (sg_inv _ _ _ _ Hsg) raw raw_len N symmetrize) as [K _]; [rewrite Er; discriminate|].
  rewrite Er in K at 2. cbn [nth] in K. rewrite K. exact Hx0.
Qed.
Lemma happens_iff f v : length v = n -> (happens (fun i => nth i f false) v = true <-> forall i, nth i v false = true -> nth i f false = true).
Proof.
  intros L. unfold happens. rewrite forallb_forall. split.
  - intros H i Hi. specialize (H i). rewrite Hi in H. apply H. apply in_seq. split; [lia|]. cbn. destruct (Nat.lt_ge_cases i (length v)) as [K|K]; [exact K|].
    rewrite nth_overflow in Hi by exact K. discriminate.
  - intros H i _. destruct (nth i v false) eqn:E; [|reflexivity]. cbn. apply H, E.
Qed.
Lemma sum_filter {A} (p : A -> bool) (f : A -> Qc) l : sumQ (map (fun a => if p a then f a else 0%Qc) l) = sumQ (map f (filter p l)).
Proof. induction l as [|a l IH]; [reflexivity|]. cbn [map filter]. rewrite sumQ_cons, IH. destruct (p a); [cbn [map]; rewrite sumQ_cons; reflexivity|ring]. Qed.
(** events of a maximal clique that contain [v] *)
Lemma clique_events c v : is_clique nr compat c -> length v = n -> amo v -> involves (map snd groups) c v ->
  sumQ (map (Ex false) (filter (fun f => happens (fun i => nth i f false) v) (template_to_event n c (all_groups n groups)))) = Ex false v.
Proof.
  intros C L A I. assert (V : valid v) by (apply (valid_clique n groups Hcat Hne compat Hund c v); assumption). pose proof C as (C1 & C2 & C3).
  assert (Nc : NoDup c) by (apply (ScenarioProofs.SS_NoDup lt); [intros y; lia|exact C1]).
  assert (Tc : forall t, touch v t -> In t c).
  { intros t (i & Hi & Vi). destruct (I i Vi) as (t' & Ht' & Hi'). rewrite <- (grp_nth n groups Hcat Hne) in Hi'. rewrite (grp_unique n groups Hcat Hne t t' i); assumption. }
  set (l := filter (fun t => if touch_dec groups v t then false else true) (rev c)).
  assert (Lin : forall t, In t l <-> In t c /\ ~ touch v t).
  { intros t. unfold l. rewrite filter_In, <- in_rev. destruct (touch_dec groups v t); intuition discriminate. }
  assert (Nl : NoDup l) by (apply NoDup_filter, NoDup_rev, Nc).
  rewrite <- (products_sum l Nl) with (v := v); [|intros t Ht; apply C2, Lin, Ht|intros t u Ht Hu; apply C3; apply Lin; assumption|exact V|].
  2:{ intros t Ht. apply Lin in Ht as [Ht Nt]. split; [apply C2, Ht|]. split; [exact Nt|]. intros u Tu. assert (t <> u) by (intros ->; contradiction). split; apply C3; auto. }
  apply QcSum.sumQ_perm. apply Permutation_map. apply perm_of_same_elements.
  - apply NoDup_filter. apply (template_NoDup n groups Hcat Hne grp (fun t i H => H) (grp_NoDup n groups Hcat Hne) _ (nth_all_groups n groups)), Nc.
  - apply (products_NoDup n groups Hcat Hne grp (fun t i H => H) (grp_NoDup n groups Hcat Hne) _ (nth_all_groups n groups)); [exact Nl|exact L|].
    intros t i Ht Hi. destruct (nth i v false) eqn:E; [|reflexivity]. exfalso. apply Lin in Ht as [_ Nt]. apply Nt. exists i. auto.
  - intros f. rewrite filter_In, happens_iff by exact L. rewrite (template_in n groups Hcat Hne grp (fun t i H => H) _ (nth_all_groups n groups)) by exact Nc.
    unfold rows_of. rewrite products_in. split.
    + intros [(Lf & F1 & F2 & F3) Sub]. destruct (Forall2_choice (fun t i => In i (grp t) /\ nth i f false = true) l) as [fs F].
      { intros t Ht. apply F2, Lin, Ht. }
      exists fs. split; [eapply Forall2_weaken; [|exact F]; cbn; tauto|].
      destruct (union_spec n groups Hcat grp _ (nth_all_groups n groups) fs v L) as [U1 U2]. { intros i Hi. apply (Forall2_in_r _ _ _ _ F) in Hi as (t & _ & Hi & _). apply (grp_range n groups Hcat Hne t i Hi). }
      apply (bvec_ext n); [exact Lf|exact U1|]. intros j _. apply eq_true_iff_eq. rewrite U2. split.
      * intros Fj. destruct (F1 j Fj) as (t & Ht & Hj). destruct (touch_dec groups v t) as [(i & Hi & Vi)|Nt].
        { left. rewrite (F3 t j i Ht Hj Hi Fj (Sub i Vi)). exact Vi. }
        right. assert (Ht' : In t l) by (apply Lin; auto). apply (Forall2_in_l _ _ _ _ F) in Ht' as (i & Hi & Gi & Fi). rewrite (F3 t j i); assumption.
      * intros [K|K]; [apply Sub, K|]. apply (Forall2_in_r _ _ _ _ F) in K as (t & _ & _ & K). exact K.
    + intros (fs & F & ->).
      destruct (union_spec n groups Hcat grp _ (nth_all_groups n groups) fs v L) as [U1 U2]. { intros i Hi. apply (Forall2_in_r _ _ _ _ F) in Hi as (t & _ & Hi). apply (grp_range n groups Hcat Hne t i Hi). }
      split; [|intros i Vi; apply U2; left; exact Vi]. split; [exact U1|]. split; [|split].
      * intros i Hi. apply U2 in Hi as [Hi|Hi].
        { destruct (I i Hi) as (t & Ht & Hi'). rewrite <- (grp_nth n groups Hcat Hne) in Hi'. exists t. auto. }
        apply (Forall2_in_r _ _ _ _ F) in Hi as (t & Ht & Hi). exists t. split; [apply Lin, Ht|exact Hi].
      * intros t Ht. destruct (touch_dec groups v t) as [(i & Hi & Vi)|Nt]; [exists i; split; [exact Hi|apply U2; left; exact Vi]|].
        assert (Ht' : In t l) by (apply Lin; auto). apply (Forall2_in_l _ _ _ _ F) in Ht' as (i & Hi & Gi). exists i. split; [exact Gi|apply U2; right; exact Hi].
      * assert (D : forall t i j, In i (grp t) -> In j (grp t) -> nth i v false = true -> In j fs -> False).
        { intros t i j Hi Hj Vi Kj. apply (Forall2_in_r _ _ _ _ F) in Kj as (u & Hu & Gj). rewrite (grp_unique n groups Hcat Hne u t j Gj Hj) in Hu. apply Lin in Hu as [_ Hu]. apply Hu. exists i. auto. }
        intros t i j _ Hi Hj Ui Uj. apply U2 in Ui, Uj. destruct Ui as [Ui|Ui], Uj as [Uj|Uj]; [apply (A t); assumption|exfalso; apply (D t i j); assumption|exfalso; apply (D t j i); assumption|].
        clear - F Nl Ui Uj Hi Hj Hcat Hne. revert Nl Ui Uj. induction F as [|u k l' fs' Hk F' IH]; intros Nl Ui Uj; [destruct Ui|]. apply NoDup_cons_iff in Nl as [Hu Nl'].
        assert (D : forall m, In m fs' -> In m (grp t) -> In k (grp t) -> False).
        { intros m Hm Hm' Hk'. apply (Forall2_in_r _ _ _ _ F') in Hm as (u' & Hu' & Hm).
          apply Hu. rewrite (grp_unique n groups Hcat Hne u t k Hk Hk'). rewrite <- (grp_unique n groups Hcat Hne u' t m Hm Hm'). exact Hu'. }
        destruct Ui as [<-|Ui], Uj as [<-|Uj]; [reflexivity|exfalso; apply (D j Uj Hj Hi)|exfalso; apply (D i Ui Hi Hj)|apply IH; assumption].
Qed.

Theorem solution_behaviour : behaviour n (map snd groups) compat PX.
Proof.
  intros c0 C0. rewrite map_length in C0. destruct (extend_maximal c0 C0) as (c & M & Hin). pose proof M as [C Mx]. pose proof C as (C1 & C2 & C3).
  assert (Nc : NoDup c) by (apply (ScenarioProofs.SS_NoDup lt); [intros y; lia|exact C1]).
  set (F := template_to_event n c (all_groups n groups)).
  assert (HF : forall f, In f F <-> selected n groups grp c f) by (intros f; apply (template_in n groups Hcat Hne grp (fun t i H => H) _ (nth_all_groups n groups)), Nc).
  exists (map (fun f => (Ex false f, fun i => nth i f false)) F). 
  assert (PE : forall v, length v = n -> prob (map (fun f => (Ex false f, fun i => nth i f false)) F) v = sumQ (map (Ex false) (filter (fun f => happens (fun i => nth i f false) v) F))).
  { intros v Lv. unfold prob. rewrite map_map. cbn [fst snd]. apply (sum_filter (fun f => happens (fun i => nth i f false) v)). }
  split; [split|split].
  - intros q Hq. apply in_map_iff in Hq as (f & <- & Hf). cbn [fst]. destruct c as [|t0 c'] eqn:Ec.
    + destruct Hf as [<-|[]]. rewrite Ex_blank. discriminate.
    + apply event_nonneg. apply rfacts. exists (t0 :: c'). split; [discriminate|]. split; [exact M|]. apply HF, Hf.
  - rewrite map_map. cbn [fst]. rewrite <- Ex_blank. rewrite <- (clique_events c (blank n) C (blank_length n)).
    + fold F. f_equal. f_equal. symmetry. clear HF PE. induction F as [|f F IH]; [reflexivity|]. cbn [filter]. rewrite (proj2 (happens_iff f (blank n) (blank_length n))), IH; [reflexivity|].
      intros i Hi. rewrite nth_blank in Hi. discriminate.
    + apply blank_valid.
    + intros i Hi. rewrite nth_blank in Hi. discriminate.
  - intros q t Hq Ht. apply in_map_iff in Hq as (f & <- & Hf). cbn [snd]. apply HF in Hf as (_ & F1 & F2 & F3). apply Hin in Ht. rewrite <- (grp_nth n groups Hcat Hne).
    destruct (F2 t Ht) as (i & Hi & Fi). exists i. split; [exact Hi|]. split; [exact Fi|]. intros j Hj Fj. apply (F3 t); assumption.
  - intros v Lv Iv. rewrite (PE v Lv). assert (Iv' : involves (map snd groups) c v) by (intros i Hi; destruct (Iv i Hi) as (t & Ht & Hi'); exists t; split; [apply Hin, Ht|exact Hi']).
    unfold PX. destruct (amo_dec v) as [A|A]; [symmetry; apply clique_events; assumption|].
    replace (filter (fun f => happens (fun i => nth i f false) v) F) with (@nil bvec); [reflexivity|]. symmetry.
    assert (K : forall f, In f F -> happens (fun i => nth i f false) v = false).
    { intros f Hf. destruct (happens (fun i => nth i f false) v) eqn:E; [|reflexivity]. exfalso. apply A. pose proof (proj1 (happens_iff f v Lv) E) as Sub. clear E.
      apply HF in Hf as (_ & _ & _ & F3). intros t i j Hi Hj Vi Vj. apply (F3 t); auto. destruct (Iv' i Vi) as (t' & Ht' & Hi'). rewrite <- (grp_nth n groups Hcat Hne) in Hi'.
      rewrite (grp_unique n groups Hcat Hne t t' i); assumption. }
    clear - K. induction F as [|f F IH]; [reflexivity|]. cbn [filter]. rewrite K by (left; reflexivity). apply IH. intros g Hg. apply K. right. exact Hg.
Qed.
Theorem solution_invariant : invariant n syms PX.
Proof.
  intros g v Hg L. change (permuted v g) with (vtake v g). unfold PX.
  assert (K : amo (vtake v g) -> amo v).
  { intros A. destruct (sg_inv n groups compat syms Hsg g Hg) as (h & Hh & E). apply (amo_sym h) in A; [|exact Hh].
    rewrite vtake_vtake, E, (vtake_id n) in A; [exact A|exact L|]. destruct (g_facts g Hg) as [-> _]. apply (g_facts h Hh). }
  destruct (amo_dec (vtake v g)) as [A|A], (amo_dec v) as [B|B]; [apply Ex_sym; assumption|exfalso; auto|exfalso; apply A, amo_sym; assumption|reflexivity].
Qed.
Theorem solution_columns c : c < length (lp_columns prog) -> x c = PX (nth c (lp_columns prog) []).
Proof.
  intros Hc. destruct gok as (prog' & E' & C & _). rewrite Eprog in E'. injection E' as <-. rewrite C in *. destruct rfacts as (_ & N & _).
  destruct (column_rep n syms (sg_head _ _ _ _ Hsg) Hsyms (sg_range _ _ _ _ Hsg) (sg_comp _ _ _ _ Hsg) (sg_inv _ _ _ _ Hsg) raw raw_len N symmetrize c Hc) as [K1 K2].
  unfold PX. destruct (amo_dec (nth c (reps raw) [])) as [A|A]; [|exfalso; apply A; apply rfacts in K2 as [(_ & K & _) _]; exact K].
  rewrite Ex_raw by exact K2. unfold X. rewrite K1. reflexivity.
Qed.
End Converse.
