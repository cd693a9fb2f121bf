(** Proofs about normalisation equalities, part 1: operators inserted in a product. *)
From Coq Require Import Permutation QArith Qcanon.
Close Scope Qc_scope. Close Scope Q_scope.
From Verif Require Import CanonModel CanonSpec CanonProofs CanonProofs2 MomentModel MomentSpec MomentProofs
  MargModel QcSum NormSpec.

Section Count.
Variable nc : table.
Hypothesis nc_sym : good_comm nc.
Notation "u ~ v" := (comm_eq nc u v) (at level 70).

Definition noneb {A} (o : option A) : bool := match o with None => true | Some _ => false end.
Variable P : nat -> bool.
(** letters that satisfy P and are not absorbed by an equal letter later in the word *)
Fixpoint rc (w : word) : nat :=
  match w with
  | [] => 0
  | x :: w' => (if P x && noneb (pull nc x w') then 1 else 0) + rc w'
  end.

Lemma noneb_ce a w w' : w ~ w' -> noneb (pull nc a w) = noneb (pull nc a w').
Proof.
  intros H.
  destruct (pull nc a w) as [r|] eqn:E1, (pull nc a w') as [r'|] eqn:E2; try reflexivity; exfalso.
  - destruct (pull_ce_compat nc nc_sym _ _ H a) as [A _]. destruct (A _ E1) as (r2 & E & _). congruence.
  - destruct (pull_ce_compat nc nc_sym _ _ H a) as [_ A]. destruct (A _ E2) as (r2 & E & _). congruence.
Qed.

Lemma rc_swap u x y v : nc x y = false -> rc (u ++ x :: y :: v) = rc (u ++ y :: x :: v).
Proof.
  intros H. induction u as [|z u IH].
  - cbn [app rc]. destruct (Nat.eq_dec x y) as [->|Hne]; [reflexivity|].
    cbn [pull]. destruct (Nat.eqb_spec y x); [congruence|]. destruct (Nat.eqb_spec x y); [congruence|].
    rewrite H. rewrite (nc_sym y x), H. destruct (pull nc x v), (pull nc y v); cbn; destruct (P x), (P y); cbn; lia.
  - cbn [app rc]. rewrite IH. rewrite (noneb_ce z (u ++ x :: y :: v) (u ++ y :: x :: v)); [reflexivity|].
    apply ce_swap, H.
Qed.
Lemma rc_ce w w' : w ~ w' -> rc w = rc w'.
Proof. induction 1; [reflexivity|apply rc_swap; assumption|congruence|congruence]. Qed.

Lemma noneb_double s a t b : noneb (pull nc b (s ++ a :: a :: t)) = noneb (pull nc b (s ++ a :: t)).
Proof.
  pose proof (pull_double nc s a t b) as [H1 H2].
  destruct (pull nc b (s ++ a :: t)) as [r|] eqn:E1, (pull nc b (s ++ a :: a :: t)) as [r'|] eqn:E2; try reflexivity; exfalso.
  - destruct H1 as [x Hx]; [eauto|discriminate].
  - destruct H2 as [x Hx]; [eauto|discriminate].
Qed.
Lemma rc_double s a t : rc (s ++ a :: a :: t) = rc (s ++ a :: t).
Proof.
  induction s as [|z s IH].
  - cbn [app rc]. rewrite pull_head. cbn. destruct (P a); reflexivity.
  - cbn [app rc]. rewrite IH, noneb_double. reflexivity.
Qed.
Lemma rc_squeeze r : rc (remove_projector_squares r) = rc r.
Proof.
  destruct r as [|x r]; [reflexivity|]. cbn [remove_projector_squares].
  assert (H : forall p l s, rc (s ++ p :: squeeze_from p l) = rc (s ++ p :: l)).
  { intros p l; revert p; induction l as [|y l IH]; intros p s; cbn [squeeze_from]; [reflexivity|].
    destruct (Nat.eqb_spec y p) as [->|Hne].
    - rewrite rc_double. apply IH.
    - specialize (IH y (s ++ [p])). rewrite <- !app_assoc in IH. apply IH. }
  apply (H x r []).
Qed.

Lemma rc_nf w : anf nc w -> no_adj_eq w -> rc w = length (filter P w).
Proof.
  induction w as [|x w IH]; [reflexivity|]. intros Ha Hn.
  assert (E : pull nc x w = None).
  { destruct (pull nc x w) as [r|] eqn:E; [exfalso|reflexivity].
    assert (M : meetsR nc eq (x :: w)) by (cbn [meetsR]; left; exists x, r; auto).
    apply (anf_meets_adjacent nc nc_sym eq (eqP_row nc)) with (n := length (x :: w)) in M; [|lia|lia|exact Ha].
    exact (adjacentP_eq _ M Hn). }
  cbn [rc filter]. rewrite E. cbn [noneb]. rewrite andb_true_r.
  rewrite IH; [destruct (P x); reflexivity|apply Ha|].
  destruct w as [|y w]; [exact Logic.I|apply Hn].
Qed.
End Count.

Section Tables.
Variable nc ortho : table.
Hypothesis G : good_tables nc ortho.
Let nc_sym : good_comm nc := gt_nc_sym _ _ G.
Notation "u ~ v" := (comm_eq nc u v) (at level 70).
Notation "u == v" := (proj_eq nc ortho u v) (at level 70).
Notation F := (F nc ortho).

Definition nonzero (w : word) : Prop := ~ w == [0].

Lemma meets_zero u p m q v : orthoP ortho p q -> (forall x, In x m -> nc q x = false) ->
  u ++ p :: m ++ q :: v == [0].
Proof.
  intros Ho Hm. eapply pe_trans.
  - apply (ce_pe nc ortho). replace (u ++ p :: m ++ q :: v) with ((u ++ [p]) ++ (m ++ q :: v)) by (rewrite <- app_assoc; reflexivity).
    apply ce_app_l. apply ce_move; [exact nc_sym|exact Hm].
  - rewrite <- app_assoc. apply pe_ortho. apply Ho.
Qed.
Lemma meetsR_zero w : meetsR nc (orthoP ortho) w -> w == [0].
Proof.
  assert (H : forall u, meetsR nc (orthoP ortho) w -> u ++ w == [0]); [|apply (H [])].
  induction w as [|x w IH]; intros u; [intros []|]. cbn [meetsR]. intros [(q & r & Ho & Hq)|H].
  - destruct (pull_split nc _ _ _ Hq) as (m & v & -> & _ & Hc & _). apply meets_zero; assumption.
  - replace (u ++ x :: w) with ((u ++ [x]) ++ w) by (rewrite <- app_assoc; reflexivity). apply IH, H.
Qed.
Lemma zero_meetsR w : w == [0] -> In 0 w \/ meetsR nc (orthoP ortho) w.
Proof.
  intros H. apply (F_zero_iff nc ortho G) in H. unfold CanonProofs2.F in H. rewrite (internal_eq nc ortho G) in H.
  destruct (canon_correct nc nc_sym w) as (r & E & C & L). rewrite E in H. cbn in H.
  assert (IZ : In 0 r -> In 0 w) by (intros K; eapply Permutation_in; [apply Permutation_sym, (ce_perm nc), C|exact K]).
  unfold post in H. destruct (lexmon_is_zero ortho r) eqn:Z.
  - apply (is_zero_iff nc ortho G) in Z as [->|(u & a & b & v & -> & Ho)]; [left; apply IZ; left; reflexivity|].
    destruct (Nat.eq_dec a 0) as [->|Ha]; [left; apply IZ, in_or_app; right; left; reflexivity|].
    destruct (Nat.eq_dec b 0) as [->|Hb]; [left; apply IZ, in_or_app; right; right; left; reflexivity|].
    right. apply (meetsR_ce nc nc_sym (orthoP ortho) (orthoP_sym nc ortho G) (orthoP_row nc ortho G) _ _ C).
    apply meetsR_app. cbn [meetsR]. left. exists b, v. split; [repeat split; assumption|apply pull_head].
  - left. apply IZ. destruct r as [|x r]; [discriminate|]. cbn in H. injection H as -> _. left; reflexivity.
Qed.

(** number of letters satisfying P in the canonical form of a non-zero word *)
Lemma count_getF P w : nonzero w -> rc nc P w = length (filter P (getF nc ortho w)).
Proof.
  intros NZ. pose proof (F_getF nc ortho G w) as E. set (r := getF nc ortho w) in *.
  destruct (F_shape nc ortho G w r E) as [E0|((N1 & N2 & N3 & N4) & _)].
  { exfalso. apply NZ. apply (F_zero_iff nc ortho G). rewrite E, E0. reflexivity. }
  rewrite <- (rc_nf nc nc_sym P r N1 N2).
  unfold CanonProofs2.F in E. rewrite (internal_eq nc ortho G) in E.
  destruct (canon_correct nc nc_sym w) as (c & Ec & C & L). rewrite Ec in E. cbn in E. injection E as E.
  rewrite (rc_ce nc nc_sym P w c C). rewrite <- E. unfold post.
  destruct (lexmon_is_zero ortho c) eqn:Z; [|symmetry; apply rc_squeeze].
  exfalso. apply NZ. apply (F_zero_iff nc ortho G). unfold CanonProofs2.F. rewrite (internal_eq nc ortho G), Ec. cbn.
  unfold post. rewrite Z. reflexivity.
Qed.
Lemma rc_pe P w w' : nonzero w -> w == w' -> rc nc P w = rc nc P w'.
Proof.
  intros NZ H. rewrite !count_getF; [|intros Z; apply NZ; eapply pe_trans; eassumption|exact NZ].
  f_equal. f_equal. apply (getF_eq nc ortho G), H.
Qed.
Lemma filter_perm {A} (P : A -> bool) l l' : Permutation l l' -> length (filter P l) = length (filter P l').
Proof.
  induction 1 as [|x l l' _ IH|x y l|]; cbn [filter]; [reflexivity|destruct (P x); cbn; congruence|destruct (P x), (P y); reflexivity|congruence].
Qed.
Lemma rc_rev P w : nonzero w -> rc nc P (rev w) = rc nc P w.
Proof.
  intros NZ.
  assert (NZ' : nonzero (rev w)).
  { intros Z. apply NZ. apply (pe_rev nc ortho G) in Z. rewrite rev_involutive in Z. exact Z. }
  pose proof (F_getF nc ortho G w) as E. set (r := getF nc ortho w) in *.
  destruct (F_shape nc ortho G w r E) as [E0|(N & _)].
  { exfalso. apply NZ. apply (F_zero_iff nc ortho G). rewrite E, E0. reflexivity. }
  destruct (canon_correct nc nc_sym (rev r)) as (c & Ec & C & L).
  destruct (conj_nf nc ortho G r c N Ec) as [N2 E2].
  assert (Hw : w == r) by apply (getF_pe nc ortho G).
  rewrite (rc_pe P (rev w) (rev r) NZ') by (apply (pe_rev nc ortho G), Hw).
  rewrite (rc_ce nc nc_sym P (rev r) c C), (rc_pe P w r NZ Hw).
  rewrite !(rc_nf nc nc_sym) by (apply N || apply N2).
  rewrite (filter_perm P c (rev r)) by (apply Permutation_sym, (ce_perm nc), C).
  apply filter_perm, Permutation_sym, Permutation_rev.
Qed.

(** ** replacing an operator by another outcome of the same measurement *)
Lemma pull_none_app a u v : pull nc a (u ++ v) = None ->
  pull nc a u = None /\ ((exists b, In b u /\ nc a b = true) \/ pull nc a v = None).
Proof.
  induction u as [|x u IH]; cbn [app pull]; [auto|].
  destruct (Nat.eqb_spec x a); [discriminate|]. destruct (nc a x) eqn:E.
  - intros _. split; [reflexivity|]. left. exists x. split; [left; reflexivity|exact E].
  - destruct (pull nc a (u ++ v)) eqn:E1; [discriminate|]. intros _. destruct (IH eq_refl) as [H1 H2]. rewrite H1.
    split; [reflexivity|]. destruct H2 as [(b & H2 & H3)|H2]; [left; exists b; split; [right|]; assumption|right; exact H2].
Qed.
(** can letter b reach the end of u from the right? *)
Lemma pull_app b u v : pull nc b u = None -> ~ In b u ->
  noneb (pull nc b (u ++ v)) = existsb (nc b) u || noneb (pull nc b v).
Proof.
  intros Hu Hi. induction u as [|x u IH]; [reflexivity|].
  cbn [app pull existsb] in *. destruct (Nat.eqb_spec x b) as [->|Hne]; [exfalso; apply Hi; left; reflexivity|].
  destruct (nc b x) eqn:E; [reflexivity|]. cbn [orb].
  destruct (pull nc b u) eqn:Eu; [discriminate|].
  rewrite <- IH; [|reflexivity|intros K; apply Hi; right; exact K].
  destruct (pull nc b (u ++ v)); reflexivity.
Qed.
Lemma pull_app_some b u v r : pull nc b u = Some r -> noneb (pull nc b (u ++ v)) = false.
Proof.
  revert r; induction u as [|x u IH]; intros r; [discriminate|]. cbn [app pull].
  destruct (x =? b); [reflexivity|]. destruct (nc b x); [discriminate|].
  destruct (pull nc b u) as [r'|]; [|discriminate]. intros _. specialize (IH r' eq_refl).
  destruct (pull nc b (u ++ v)); [reflexivity|discriminate].
Qed.
Lemma pull_blocked b u : In b u -> pull nc b u = None -> existsb (nc b) u = true.
Proof.
  induction u as [|x u IH]; [intros []|]. cbn [pull existsb]. intros Hi.
  destruct (Nat.eqb_spec x b) as [->|Hne]; [discriminate|]. destruct (nc b x) eqn:E; [reflexivity|].
  destruct Hi as [->|Hi]; [congruence|]. destruct (pull nc b u) eqn:Eu; [discriminate|]. intros _. apply IH; auto.
Qed.
Lemma pull_blocked_app b u v : pull nc b u = None -> existsb (nc b) u = true -> noneb (pull nc b (u ++ v)) = true.
Proof.
  induction u as [|x u IH]; [discriminate|]. cbn [app pull existsb].
  destruct (x =? b); [discriminate|]. destruct (nc b x); [reflexivity|]. cbn [orb].
  destruct (pull nc b u) eqn:Eu; [discriminate|]. intros _ H. specialize (IH eq_refl H).
  destruct (pull nc b (u ++ v)); [discriminate|reflexivity].
Qed.
(** the general form *)
Lemma noneb_app b u v : noneb (pull nc b (u ++ v)) = match pull nc b u with
  | Some _ => false
  | None => existsb (nc b) u || noneb (pull nc b v) end.
Proof.
  destruct (pull nc b u) as [r|] eqn:E; [eapply pull_app_some, E|].
  destruct (existsb (nc b) u) eqn:B; [apply pull_blocked_app; assumption|]. cbn [orb].
  rewrite pull_app; [rewrite B; reflexivity|exact E|]. intros Hi. rewrite (pull_blocked b u Hi E) in B. discriminate.
Qed.

Section Replace.
Variables (a a' : nat).
Hypothesis Ho : orthoP ortho a a'.

Lemma ortho_ne : a <> a'.
Proof. intros ->. destruct Ho as (H1 & _ & H3). rewrite (gt_ortho_irrefl _ _ G) in H3; congruence. Qed.

Lemma head_reach v u : nonzero (u ++ a' :: v) -> pull nc a v = None.
Proof.
  intros NZ. destruct (pull nc a v) as [r|] eqn:E; [exfalso|reflexivity]. apply NZ. apply meetsR_zero.
  apply meetsR_app. cbn [meetsR]. left. exists a, r. split; [apply (orthoP_sym nc ortho G), Ho|exact E].
Qed.
Lemma left_blocked u1 u2 v : nonzero (u1 ++ a :: u2 ++ a' :: v) ->
  pull nc a u2 = None -> existsb (nc a) u2 = true.
Proof.
  intros NZ Hp. apply not_false_iff_true. intros B. apply NZ. apply meets_zero; [exact Ho|].
  intros x Hx. rewrite <- (orthoP_row nc ortho G _ _ _ Ho). exact (existsb_false _ _ B x Hx).
Qed.

Lemma rc_replace (P : nat -> bool) v u0 u : P a = true -> P a' = false ->
  nonzero (u0 ++ u ++ a :: v) -> nonzero (u0 ++ u ++ a' :: v) ->
  rc nc P (u ++ a :: v) = S (rc nc P (u ++ a' :: v)).
Proof.
  intros Pa Pa'. revert u0. induction u as [|x u IH]; intros u0 N1 N2.
  - cbn [app rc] in *. rewrite Pa, Pa', (head_reach v u0 N2). reflexivity.
  - cbn [app rc].
    assert (IH' := IH (u0 ++ [x])). rewrite <- !app_assoc in IH'. cbn [app] in IH'.
    rewrite IH' by assumption. rewrite <- plus_n_Sm. f_equal. f_equal.
    destruct (P x) eqn:Px; [|reflexivity]. cbn [andb].
    rewrite !noneb_app. destruct (pull nc x u) as [r|] eqn:E; [reflexivity|].
    destruct (existsb (nc x) u) eqn:B; [reflexivity|]. cbn [orb pull].
    destruct (Nat.eqb_spec a x) as [Eax|Hax].
    { exfalso. rewrite <- Eax in *. rewrite (left_blocked u0 u v) in B; [discriminate|exact N2|exact E]. }
    destruct (Nat.eqb_spec a' x) as [Ea'|Hax']; [congruence|].
    rewrite (nc_sym x a), (nc_sym x a'), (orthoP_row nc ortho G _ _ x Ho).
    destruct (nc a' x); [reflexivity|]. destruct (pull nc x v); reflexivity.
Qed.

(** ... and removing it *)
Lemma rc_remove (P : nat -> bool) v u0 u : P a = true ->
  nonzero (u0 ++ u ++ a' :: v) -> rc nc P (u ++ v) < rc nc P (u ++ a :: v).
Proof.
  intros Pa. revert u0. induction u as [|x u IH]; intros u0 N2.
  - cbn [app rc] in *. rewrite Pa, (head_reach v u0 N2). cbn. lia.
  - cbn [app rc].
    assert (IH' := IH (u0 ++ [x])). rewrite <- !app_assoc in IH'. cbn [app] in IH'. specialize (IH' N2).
    destruct (P x) eqn:Px; [|exact IH']. cbn [andb].
    rewrite !noneb_app. destruct (pull nc x u) as [r|] eqn:E; [exact IH'|].
    destruct (existsb (nc x) u) eqn:B; [cbn; lia|]. cbn [orb pull].
    destruct (Nat.eqb_spec a x) as [Eax|Hax].
    { exfalso. rewrite <- Eax in *. rewrite (left_blocked u0 u v) in B; [discriminate|exact N2|exact E]. }
    destruct (nc x a); [destruct (pull nc x v); cbn; lia|]. destruct (pull nc x v); cbn; lia.
Qed.
End Replace.

(** ** an equality with a vanishing summand is an identity between products *)
Lemma absorb_right u q m v : (forall x, In x m -> nc q x = false) -> u ++ q :: m ++ q :: v == u ++ m ++ q :: v.
Proof.
  intros Hm. eapply pe_trans.
  - apply (ce_pe nc ortho). replace (u ++ q :: m ++ q :: v) with ((u ++ [q]) ++ (m ++ q :: v)) by (rewrite <- app_assoc; reflexivity).
    apply ce_app_l. apply ce_move; [exact nc_sym|exact Hm].
  - rewrite <- app_assoc. eapply pe_trans; [apply pe_idem|]. apply (ce_pe nc ortho), ce_app_l, ce_sym, ce_move; [exact nc_sym|exact Hm].
Qed.
Lemma meetsR_inv w : meetsR nc (orthoP ortho) w -> exists u p m q v, w = u ++ p :: m ++ q :: v /\
  orthoP ortho p q /\ (forall x, In x m -> nc q x = false).
Proof.
  induction w as [|x w IH]; [intros []|]. cbn [meetsR]. intros [(q & r & Ho & Hq)|H].
  - destruct (pull_split nc _ _ _ Hq) as (m & v & -> & _ & Hc & _). exists [], x, m, q, v. auto.
  - destruct (IH H) as (u & p & m & q & v & -> & H1 & H2). exists (x :: u), p, m, q, v. auto.
Qed.

(** where the marked letter of u ++ a :: v lies relative to another decomposition *)
Lemma split_cases (u : word) a v s x t : u ++ a :: v = s ++ x :: t ->
  (exists m, u = s ++ x :: m /\ t = m ++ a :: v) \/
  (u = s /\ a = x /\ v = t) \/
  (exists m, s = u ++ a :: m /\ v = m ++ x :: t).
Proof.
  revert s; induction u as [|y u IH]; intros [|z s] E; cbn in E.
  - injection E as -> ->. right; left; auto.
  - injection E as <- ->. right; right. exists s. auto.
  - injection E as -> <-. left. exists u. auto.
  - injection E as <- E. destruct (IH s E) as [(m & -> & ->)|[(-> & -> & ->)|(m & -> & ->)]].
    + left. exists m. auto.
    + right; left. auto.
    + right; right. exists m. auto.
Qed.

Lemma in_app_mid (x b : nat) m1 m2 : In x (m1 ++ m2) -> In x (m1 ++ b :: m2).
Proof. intros H. apply in_app_or in H as [H|H]; apply in_or_app; [left|right; right]; exact H. Qed.

Lemma vanishing_summand u v a g : In a g -> NoDup g -> (forall x y, In x g -> In y g -> x <> y -> orthoP ortho x y) ->
  (forall x b, In x g -> orthoP ortho x b -> In b g) -> ~ In 0 g ->
  u ++ a :: v == [0] ->
  (u ++ v == [0] /\ forall b, In b g -> u ++ b :: v == [0]) \/
  (exists c, In c g /\ u ++ c :: v == u ++ v /\ forall b, In b g -> b <> c -> u ++ b :: v == [0]).
Proof.
  intros Ha ND Hg Hcl H0 Z.
  assert (Z0 : forall s t, (forall b, In b (s ++ t) -> True) -> In 0 (s ++ t) -> s ++ t == [0]).
  { intros s t _ Hi. apply in_split in Hi as (x & y & ->). apply pe_zero. }
  destruct (zero_meetsR _ Z) as [Hi|M].
  { left. assert (Hi' : In 0 (u ++ v)).
    { apply in_app_or in Hi as [Hi|[Hi|Hi]]; [apply in_or_app; left; exact Hi|congruence|apply in_or_app; right; exact Hi]. }
    split; [apply Z0; auto|]. intros b _. apply Z0; [auto|].
    apply in_app_or in Hi' as [K|K]; apply in_or_app; [left|right; right]; exact K. }
  destruct (meetsR_inv _ M) as (s & p & m & q & t & E & Ho & Hm).
  assert (Hrow : forall x, In x g -> forall y, nc x y = nc a y).
  { intros x Hx y. destruct (Nat.eq_dec x a) as [->|Hne]; [reflexivity|].
    apply (orthoP_row nc ortho G). apply Hg; auto. }
  destruct (split_cases _ _ _ _ _ _ E) as [(m1 & -> & E2)|[(-> & -> & ->)|(m1 & -> & ->)]].
  - (* p in u *)
    symmetry in E2. destruct (split_cases _ _ _ _ _ _ E2) as [(m2 & -> & ->)|[(-> & -> & ->)|(m2 & -> & ->)]].
    + (* both in u *)
      left. split; [|intros b Hb]; rewrite <- !app_assoc; cbn [app]; rewrite <- !app_assoc; cbn [app]; apply meets_zero; assumption.
    + (* q marked *)
      right. exists p. assert (Hp : In p g) by (apply (Hcl q p Ha), (orthoP_sym nc ortho G), Ho).
      split; [exact Hp|]. split.
      * rewrite <- !app_assoc. cbn [app]. 
        eapply pe_trans; [apply absorb_right|].
        -- intros x Hx. rewrite (Hrow p Hp). apply Hm, Hx.
        -- apply (ce_pe nc ortho), ce_app_l. apply ce_move; [exact nc_sym|]. intros x Hx. rewrite (Hrow p Hp). apply Hm, Hx.
      * intros b Hb Hne. rewrite <- !app_assoc. cbn [app]. apply meets_zero; [apply Hg; auto|].
        intros x Hx. rewrite (Hrow b Hb). apply Hm, Hx.
    + (* marked letter between *)
      left. assert (Hap : nc q a = false) by (apply Hm, in_or_app; right; left; reflexivity).
      split.
      * rewrite <- !app_assoc. cbn [app]. rewrite app_assoc with (l := m1) (m := m2). apply meets_zero; [exact Ho|].
        intros x Hx. apply Hm. apply in_app_mid, Hx.
      * intros b Hb. rewrite <- !app_assoc. cbn [app].
        replace (m1 ++ b :: m2 ++ q :: t) with ((m1 ++ b :: m2) ++ q :: t) by (rewrite <- app_assoc; reflexivity).
        apply meets_zero; [exact Ho|]. intros x Hx. apply in_app_or in Hx as [Hx|[<-|Hx]].
        -- apply Hm, in_or_app; left; exact Hx.
        -- rewrite nc_sym, (Hrow b Hb), nc_sym. exact Hap.
        -- apply Hm, in_or_app; right; right; exact Hx.
  - (* p marked *)
    right. exists q. assert (Hq : In q g) by (apply (Hcl p q Ha), Ho).
    split; [exact Hq|]. split; [apply absorb_right, Hm|].
    intros b Hb Hne. apply meets_zero; [apply Hg; auto|exact Hm].
  - (* both in v *)
    left. split; [|intros b Hb].
    + rewrite app_assoc. apply meets_zero; assumption.
    + replace (u ++ b :: m1 ++ p :: m ++ q :: t) with ((u ++ b :: m1) ++ p :: m ++ q :: t) by (rewrite <- app_assoc; reflexivity).
      apply meets_zero; assumption.
Qed.

Lemma vanishing_trivial u v a g (val : word -> Qc) : In a g -> NoDup g -> (forall x y, In x g -> In y g -> x <> y -> orthoP ortho x y) ->
  (forall x b, In x g -> orthoP ortho x b -> In b g) -> ~ In 0 g ->
  u ++ a :: v == [0] -> moment_functional nc ortho val ->
  sumQ (map (fun b => val (u ++ b :: v)) g) = val (u ++ v).
Proof.
  intros Ha ND Hg Hcl H0 Z (V1 & V2 & _).
  destruct (vanishing_summand u v a g Ha ND Hg Hcl H0 Z) as [[Z1 Z2]|(c & Hc & C1 & C2)].
  - rewrite (V1 _ _ Z1), V2. apply sumQ_zero. intros b Hb. rewrite (V1 _ _ (Z2 b Hb)). exact V2.
  - rewrite (sumQ_single Nat.eq_dec g c _ ND Hc); [apply V1, C1|].
    intros b Hb Hne. rewrite (V1 _ _ (C2 b Hb Hne)). exact V2.
Qed.
End Tables.
