(** Proofs about the clique enumeration. *)
From Coq Require Import Sorted Permutation.
From Verif Require Import CliqueModel CliqueSpec.

(** ** Shortlex order *)
Fixpoint lx (a b : list nat) : Prop :=
  match a, b with
  | x :: a', y :: b' => x < y \/ (x = y /\ lx a' b')
  | _, _ => False
  end.
Definition sl (a b : list nat) : Prop := length a < length b \/ (length a = length b /\ lx a b).

Lemma lx_irrefl a : ~ lx a a.
Proof. induction a; cbn; [tauto|]. intros [|[_ ]]; [lia|auto]. Qed.
Lemma lx_trans a : forall b c, lx a b -> lx b c -> lx a c.
Proof.
  induction a as [|x a IH]; intros [|y b] [|z c]; cbn; try tauto.
  intros [H|[-> H]] [K|[-> K]]; try (left; lia). right; split; [reflexivity|]. eapply IH; eauto.
Qed.
Lemma sl_irrefl a : ~ sl a a.
Proof. intros [H|[_ H]]; [lia|]. now apply lx_irrefl in H. Qed.
Lemma sl_trans a b c : sl a b -> sl b c -> sl a c.
Proof. unfold sl. intros [H|[E H]] [K|[E' K]]; try (left; lia). right; split; [lia|]. eapply lx_trans; eauto. Qed.
Lemma sl_len a b : sl a b -> length a <= length b.
Proof. intros [H|[H _]]; lia. Qed.
Lemma lx_app a : forall b s t, length a = length b -> lx a b -> lx (a ++ s) (b ++ t).
Proof.
  induction a as [|x a IH]; intros [|y b] s t; cbn; try tauto; try discriminate.
  intros L [H|[-> H]]; [now left|]. right; split; [reflexivity|]. apply IH; [lia|exact H].
Qed.
Lemma lx_last a x y : x < y -> lx (a ++ [x]) (a ++ [y]).
Proof. intros L. induction a; cbn; [left; exact L|right; auto]. Qed.

Lemma SS_app {A} (R : A -> A -> Prop) a b : (forall x y, In x a -> In y b -> R x y) ->
  StronglySorted R a -> StronglySorted R b -> StronglySorted R (a ++ b).
Proof.
  intros H SA SB. induction SA as [|x a SA IH F]; cbn; [exact SB|]. constructor.
  - apply IH. intros u v Hu Hv. apply H; [now right|exact Hv].
  - apply Forall_app; split; [exact F|]. apply Forall_forall. intros v Hv. apply H; [now left|exact Hv].
Qed.
Lemma SS_app_inv {A} (R : A -> A -> Prop) a b : StronglySorted R (a ++ b) ->
  StronglySorted R a /\ StronglySorted R b /\ forall x y, In x a -> In y b -> R x y.
Proof.
  induction a as [|x a IH]; cbn; intros H; [split; [constructor|split; [exact H|intros ? ? []]]|].
  inversion H as [|? ? H1 F]; subst. destruct (IH H1) as (I1 & I2 & I3). rewrite Forall_app, !Forall_forall in F. destruct F as [F1 F2].
  split; [constructor; [exact I1|now apply Forall_forall]|]. split; [exact I2|].
  intros u v [<-|Hu] Hv; [now apply F2|now apply I3].
Qed.
Lemma SS_sl_NoDup l : StronglySorted sl l -> NoDup l.
Proof.
  induction 1 as [|x l H IH F]; constructor; [|exact IH]. intros Hx. rewrite Forall_forall in F. exact (sl_irrefl _ (F _ Hx)).
Qed.
Lemma SS_filter {A} (R : A -> A -> Prop) f l : StronglySorted R l -> StronglySorted R (filter f l).
Proof.
  induction 1 as [|x l H IH F]; cbn; [constructor|]. destruct (f x); [|exact IH]. constructor; [exact IH|].
  rewrite Forall_forall in *. intros y Hy. apply filter_In in Hy. now apply F.
Qed.
Lemma SS_seq a k : StronglySorted lt (seq a k).
Proof.
  revert a. induction k; intros a; cbn; constructor; [apply IHk|]. apply Forall_forall. intros x Hx. apply in_seq in Hx. lia.
Qed.
Lemma SS_lt_ext a : forall b, StronglySorted lt a -> StronglySorted lt b -> (forall x, In x a <-> In x b) -> a = b.
Proof.
  induction a as [|x a IH]; intros b SA SB E.
  - destruct b as [|y b]; [reflexivity|]. destruct (proj2 (E y) (or_introl eq_refl)).
  - inversion SA as [|? ? SA' FA]; subst. rewrite Forall_forall in FA.
    destruct b as [|y b]; [destruct (proj1 (E x) (or_introl eq_refl))|].
    inversion SB as [|? ? SB' FB]; subst. rewrite Forall_forall in FB.
    assert (x = y).
    { destruct (proj1 (E x) (or_introl eq_refl)) as [|Q]; [congruence|]. destruct (proj2 (E y) (or_introl eq_refl)) as [|Q']; [congruence|].
      specialize (FB _ Q). specialize (FA _ Q'). lia. }
    subst y. f_equal. apply IH; auto. intros z. split; intros Hz.
    + destruct (proj1 (E z) (or_intror Hz)) as [<-|]; [|assumption]. specialize (FA _ Hz). lia.
    + destruct (proj2 (E z) (or_intror Hz)) as [<-|]; [|assumption]. specialize (FB _ Hz). lia.
Qed.

Section P.
Variables (n : nat) (adj : nat -> nat -> bool) (max_n : nat) (isolate : bool).
Notation nb := (nbrs adj).

Definition clq (c : list nat) : Prop :=
  StronglySorted lt c /\ (forall x, In x c -> x < n) /\ (forall x y, In x c -> In y c -> x < y -> adj x y = true).
Definition common (b : list nat) : list nat := filter (fun v => forallb (fun u => nb u v) b) (seq 0 n).
Definition okq (q : list nat * list nat) : Prop :=
  fst q <> [] /\ clq (fst q) /\ snd q = common (fst q) /\ (max_n = 0 \/ length (fst q) <= max_n).
Definition small (c : list nat) : Prop := max_n = 0 \/ length c <= max_n.

Lemma in_common b v : In v (common b) <-> v < n /\ forall u, In u b -> u < v /\ adj u v = true.
Proof.
  unfold common. rewrite filter_In, in_seq, forallb_forall. split.
  - intros [H1 H2]. split; [lia|]. intros u Hu. specialize (H2 _ Hu). unfold nbrs in H2.
    apply andb_true_iff in H2. destruct H2 as [H2 H3]. apply Nat.ltb_lt in H2. auto.
  - intros [H1 H2]. split; [lia|]. intros u Hu. destruct (H2 _ Hu). unfold nbrs. apply andb_true_iff. split; [now apply Nat.ltb_lt|assumption].
Qed.
Lemma clq_snoc b v : clq (b ++ [v]) <-> clq b /\ In v (common b) \/ (b = [] /\ v < n).
Proof.
  split.
  - intros (H1 & H2 & H3). destruct (SS_app_inv _ _ _ H1) as (I1 & _ & I3). left. split.
    + split; [exact I1|]. split; intros; [apply H2|apply H3]; rewrite ?in_app_iff; auto.
    + apply in_common. split; [apply H2, in_app_iff; right; now left|]. intros u Hu.
      assert (u < v) by (apply I3; [exact Hu|now left]). split; [assumption|].
      apply H3; rewrite ?in_app_iff; cbn; auto.
  - intros [((H1 & H2 & H3) & Hv)|[-> Hv]].
    + apply in_common in Hv. destruct Hv as [Hv1 Hv2]. split; [|split].
      * apply SS_app; [|exact H1|repeat constructor]. intros x y Hx [<-|[]]. now apply Hv2.
      * intros x Hx. apply in_app_iff in Hx. destruct Hx as [Hx|[<-|[]]]; auto.
      * intros x y Hx Hy L. apply in_app_iff in Hx, Hy. destruct Hx as [Hx|[<-|[]]], Hy as [Hy|[<-|[]]]; auto; [now apply Hv2| |lia].
        specialize (Hv2 _ Hy). lia.
    + cbn. split; [repeat constructor|]. split; [intros x [<-|[]]; exact Hv|]. intros x y [<-|[]] [<-|[]]. lia.
Qed.
Lemma clq_nil : clq [].
Proof. split; [constructor|]. split; [intros ? []|intros ? ? []]. Qed.
Lemma common_nil : common [] = seq 0 n.
Proof. unfold common. cbn. induction (seq 0 n); cbn; congruence. Qed.
Lemma clq_snoc' b v : clq (b ++ [v]) <-> clq b /\ In v (common b).
Proof.
  rewrite clq_snoc. split; [|tauto]. intros [H|[-> H]]; [exact H|]. split; [apply clq_nil|]. rewrite common_nil. apply in_seq. lia.
Qed.

Lemma filter_filter {A} (f g : A -> bool) l : filter f (filter g l) = filter (fun x => g x && f x) l.
Proof. induction l as [|x l IH]; cbn; [reflexivity|]. destruct (g x); cbn; [destruct (f x); congruence|exact IH]. Qed.
Lemma common_snoc b u : common (b ++ [u]) = filter (nb u) (common b).
Proof.
  unfold common. rewrite filter_filter. apply filter_ext. intros v. rewrite forallb_app. cbn. now rewrite andb_true_r.
Qed.
Lemma init_common u : init_cnbrs n adj u = common [u].
Proof. unfold init_cnbrs, common. apply filter_ext. intros v. cbn. now rewrite andb_true_r. Qed.

Lemma filter_drop u pre r : StronglySorted lt (pre ++ u :: r) -> filter (nb u) (pre ++ u :: r) = filter (nb u) r.
Proof.
  intros H. rewrite filter_app. cbn. unfold nbrs at 2. rewrite Nat.ltb_irrefl. cbn.
  replace (filter (nb u) pre) with (@nil nat); [reflexivity|].
  destruct (SS_app_inv _ _ _ H) as (_ & _ & H3). symmetry.
  assert (forall x, In x pre -> x < u) as Hp by (intros x Hx; apply H3; [exact Hx|now left]).
  clear - Hp. induction pre as [|x pre IH]; cbn; [reflexivity|].
  unfold nbrs at 1. assert (x < u) by (apply Hp; now left). replace (u <? x) with false by (symmetry; apply Nat.ltb_ge; lia).
  cbn. apply IH. intros y Hy. apply Hp. now right.
Qed.
Lemma children_in base : forall r pre, common base = pre ++ r -> 
  children adj base r = map (fun u => (base ++ [u], common (base ++ [u]))) r.
Proof.
  induction r as [|u r IH]; intros pre E; cbn [children map]; [reflexivity|]. f_equal.
  - rewrite common_snoc, E. f_equal. symmetry. apply filter_drop. rewrite <- E. apply SS_filter, SS_seq.
  - apply (IH (pre ++ [u])). rewrite <- app_assoc. exact E.
Qed.

(** ** The loop invariant *)
Definition can_grow (c : list nat) : Prop := max_n = 0 \/ length c < max_n.
Record inv (done : list (list nat)) (queue : list (list nat * list nat)) : Prop := {
  i_q : forall q, In q queue -> okq q;
  i_sorted : StronglySorted sl (done ++ map fst queue);
  i_done : forall d, In d done -> d <> [] /\ clq d /\ small d;
  i_par : forall q, In q queue -> forall p x y, fst q = p ++ [x; y] -> In (p ++ [x]) done;
  i_all : forall c, clq c -> c <> [] -> small c -> In c done \/ exists p s, In p (map fst queue) /\ c = p ++ s
}.
Lemma inv_init : inv [] (init_queue n adj).
Proof.
  split.
  - intros q Hq. unfold init_queue in Hq. apply in_map_iff in Hq. destruct Hq as (u & <- & Hu). apply in_seq in Hu. unfold okq. cbn [fst snd].
    split; [discriminate|]. split; [apply (clq_snoc' []); split; [apply clq_nil|rewrite common_nil; apply in_seq; lia]|]. split; [apply init_common|]. cbn; lia.
  - cbn. unfold init_queue. rewrite map_map. cbn. assert (SS := SS_seq 0 n). induction SS as [|x l H IH F]; cbn; constructor; [exact IH|].
    rewrite Forall_forall in *. intros y Hy. apply in_map_iff in Hy. destruct Hy as (z & <- & Hz). right. cbn. split; [reflexivity|]. left. now apply F.
  - intros ? [].
  - intros q Hq p x y E. unfold init_queue in Hq. apply in_map_iff in Hq. destruct Hq as (u & <- & _). cbn in E.
    apply (f_equal (@length nat)) in E. rewrite app_length in E. cbn in E. lia.
  - intros c Hc Hn _. destruct c as [|x c]; [congruence|]. right. exists [x], c. split; [|reflexivity].
    unfold init_queue. rewrite map_map. cbn. apply in_map_iff. exists x. split; [reflexivity|]. apply in_seq. destruct Hc as (_ & Hc & _). specialize (Hc x (or_introl eq_refl)). lia.
Qed.

Lemma snoc_cases {A} (l : list A) : l = [] \/ exists p x, l = p ++ [x].
Proof. destruct l as [|a l] using rev_ind; [now left|right; eauto]. Qed.

Lemma len_grow done base cn queue : inv done ((base, cn) :: queue) ->
  forall q, In q (map fst queue) -> length q <= S (length base) /\
   (length q = S (length base) -> forall u, sl q (base ++ [u])) .
Proof.
  intros I q Hq. apply in_map_iff in Hq. destruct Hq as ([q' cq] & Eq & Hq). cbn in Eq. subst q'.
  assert (NEb : base <> []) by (apply (i_q _ _ I (base, cn)); now left).
  assert (NEq : q <> []) by (apply (i_q _ _ I (q, cq)); now right).
  destruct (snoc_cases q) as [->|(p & y & ->)]; [congruence|].
  destruct (snoc_cases p) as [->|(p' & x & ->)].
  - cbn. split; [lia|]. destruct base; [congruence|cbn; lia].
  - rewrite <- app_assoc in *. cbn [app] in *. assert (D : In (p' ++ [x]) done) by (eapply (i_par _ _ I); [right; exact Hq|cbn; reflexivity]).
    assert (L : sl (p' ++ [x]) base).
    { destruct (SS_app_inv _ _ _ (i_sorted _ _ I)) as (_ & _ & H). apply H; [exact D|now left]. }
    pose proof (sl_len _ _ L) as LL. rewrite app_length in *. cbn in *. split; [lia|]. intros E u. right. rewrite !app_length. cbn. split; [lia|].
    replace (p' ++ [x; y]) with ((p' ++ [x]) ++ [y]) by (rewrite <- app_assoc; reflexivity). destruct L as [L|[L1 L2]]; [rewrite app_length in L; cbn in L; lia|]. now apply lx_app.
Qed.

Lemma inv_step_grow done base cn queue : inv done ((base, cn) :: queue) -> (cn = [] \/ can_grow base) ->
  inv (done ++ [base]) (queue ++ children adj base cn).
Proof.
  intros I G. destruct (i_q _ _ I _ (or_introl eq_refl)) as (NE & CB & EC & SB). cbn [fst snd] in *.
  assert (CH : children adj base cn = map (fun u => (base ++ [u], common (base ++ [u]))) cn) by (subst cn; apply (children_in base _ []); reflexivity).
  rewrite CH. pose proof (i_sorted _ _ I) as SO. cbn [map fst] in SO.
  split.
  - intros q Hq. apply in_app_iff in Hq. destruct Hq as [Hq|Hq]; [apply (i_q _ _ I); now right|].
    apply in_map_iff in Hq. destruct Hq as (u & <- & Hu). unfold okq. cbn [fst snd]. split; [destruct base; discriminate|].
    split; [apply clq_snoc'; subst cn; auto|]. split; [reflexivity|]. rewrite app_length. cbn [length]. destruct G as [->|[->|G]]; [destruct Hu|now left|right; lia].
  - rewrite map_app, map_map. cbn [fst]. rewrite <- app_assoc. cbn [app].
    replace (done ++ base :: map fst queue ++ map (fun x => base ++ [x]) cn) with ((done ++ base :: map fst queue) ++ map (fun x => base ++ [x]) cn) by (rewrite <- app_assoc; reflexivity).
    apply SS_app; [|exact SO|].
    + intros q c Hq Hc. apply in_map_iff in Hc. destruct Hc as (u & <- & Hu). apply in_app_iff in Hq.
      assert (B : sl base (base ++ [u])) by (left; rewrite app_length; cbn; lia).
      destruct Hq as [Hq|[<-|Hq]]; [|exact B|].
      * apply sl_trans with base; [|exact B]. destruct (SS_app_inv _ _ _ SO) as (_ & _ & H). apply H; [exact Hq|now left].
      * destruct (len_grow _ _ _ _ I q Hq) as [L1 L2]. destruct (Nat.eq_dec (length q) (S (length base))) as [E|E]; [now apply L2|].
        left. rewrite app_length. cbn. lia.
    + assert (SC : StronglySorted lt cn) by (subst cn; apply SS_filter, SS_seq). clear - SC. induction SC as [|x l H IH F]; cbn; constructor; [exact IH|].
      rewrite Forall_forall in *. intros c Hc. apply in_map_iff in Hc. destruct Hc as (z & <- & Hz). right. rewrite !app_length. cbn. split; [reflexivity|]. apply lx_last. now apply F.
  - intros d Hd. apply in_app_iff in Hd. destruct Hd as [Hd|[<-|[]]]; [now apply (i_done _ _ I)|]. auto.
  - intros q Hq p x y E. apply in_app_iff. apply in_app_iff in Hq. destruct Hq as [Hq|Hq].
    + left. eapply (i_par _ _ I); [right; exact Hq|exact E].
    + right. left. apply in_map_iff in Hq. destruct Hq as (u & <- & Hu). cbn in E.
      replace (p ++ [x; y]) with ((p ++ [x]) ++ [y]) in E by (rewrite <- app_assoc; reflexivity). apply app_inj_tail in E. tauto.
  - intros c Hc Hn Hs. destruct (i_all _ _ I c Hc Hn Hs) as [D|(p & s & Hp & E)]; [left; apply in_app_iff; now left|].
    cbn [map fst] in Hp. destruct Hp as [<-|Hp].
    + destruct s as [|u s]; [left; rewrite app_nil_r in E; subst c; apply in_app_iff; right; now left|].
      right. exists (base ++ [u]), s. split; [|subst c; rewrite <- app_assoc; reflexivity].
      rewrite map_app, map_map. apply in_app_iff. right. cbn. apply in_map_iff. exists u. split; [reflexivity|].
      subst cn. apply in_common. subst c. destruct Hc as (H1 & H2 & H3). split; [apply H2, in_app_iff; right; now left|].
      intros v Hv. assert (v < u) by (destruct (SS_app_inv _ _ _ H1) as (_ & _ & H); apply H; [exact Hv|now left]).
      split; [assumption|]. apply H3; rewrite ?in_app_iff; cbn; auto.
    + right. exists p, s. split; [|exact E]. rewrite map_app. apply in_app_iff. now left.
Qed.
Lemma inv_step_stop done base cn queue : inv done ((base, cn) :: queue) -> (cn = [] \/ ~ can_grow base) ->
  inv (done ++ [base]) queue.
Proof.
  intros I G. destruct cn as [|u0 cn0] eqn:EC0.
  - pose proof (inv_step_grow _ _ _ _ I (or_introl eq_refl)) as I'. cbn in I'. now rewrite app_nil_r in I'.
  - destruct G as [G|G]; [discriminate|]. rewrite <- EC0 in *. clear EC0 u0 cn0.
    destruct (i_q _ _ I _ (or_introl eq_refl)) as (NE & CB & EC & SB). cbn [fst snd] in *.
    split.
    + intros q Hq. apply (i_q _ _ I). now right.
    + rewrite <- app_assoc. apply (i_sorted _ _ I).
    + intros d Hd. apply in_app_iff in Hd. destruct Hd as [Hd|[<-|[]]]; [now apply (i_done _ _ I)|]. auto.
    + intros q Hq p x y E. apply in_app_iff. left. eapply (i_par _ _ I); [right; exact Hq|exact E].
    + intros c Hc Hn Hs. destruct (i_all _ _ I c Hc Hn Hs) as [D|(p & s & Hp & E)]; [left; apply in_app_iff; now left|].
      cbn [map fst] in Hp. destruct Hp as [<-|Hp]; [|right; eauto].
      left. apply in_app_iff. right. left. unfold can_grow in G. destruct Hs as [Hs|Hs]; [tauto|]. subst c. rewrite app_length in Hs.
      destruct s; [symmetry; apply app_nil_r|]. cbn in Hs. exfalso. apply G. right. lia.
Qed.

(** ** Maximality at the moment of leaving the queue *)
Definition extendable (c : list nat) : Prop := exists v, v < n /\ ~ In v c /\ forall x, In x c -> adj x v = true.
Hypothesis Hsym : undirected n adj.

Lemma insert_sorted v : forall b, StronglySorted lt b -> ~ In v b ->
  exists l r, b = l ++ r /\ StronglySorted lt (l ++ v :: r).
Proof.
  induction b as [|x b IH]; intros SB NI; [exists [], []; split; [reflexivity|repeat constructor]|].
  inversion SB as [|? ? SB' F]; subst. rewrite Forall_forall in F.
  destruct (Nat.lt_trichotomy v x) as [L|[->|L]]; [|exfalso; apply NI; now left|].
  - exists [], (x :: b). split; [reflexivity|]. cbn. constructor; [exact SB|]. constructor; [exact L|]. apply Forall_forall. intros y Hy. specialize (F _ Hy). lia.
  - destruct IH as (l & r & -> & S'); [exact SB'|intros H; apply NI; now right|]. exists (x :: l), r. split; [reflexivity|]. cbn. constructor; [exact S'|].
    apply Forall_forall. intros y Hy. apply in_app_iff in Hy. destruct Hy as [Hy|[<-|Hy]]; [apply F, in_app_iff; now left|exact L|apply F, in_app_iff; now right].
Qed.
Lemma extend_clq b v l r : clq b -> b = l ++ r -> StronglySorted lt (l ++ v :: r) -> v < n -> (forall x, In x b -> adj x v = true) -> clq (l ++ v :: r).
Proof.
  intros (C1 & C2 & C3) -> SO Hv HA.
  assert (IN : forall x, In x (l ++ v :: r) -> x = v \/ In x (l ++ r)) by (intros x; rewrite !in_app_iff; cbn; intuition).
  split; [exact SO|]. split.
  - intros x Hx. destruct (IN _ Hx) as [->|]; auto.
  - intros x y Hx Hy L. destruct (IN _ Hx) as [->|Hx'], (IN _ Hy) as [->|Hy']; [lia| | |auto].
    + rewrite Hsym by auto. auto.
    + auto.
Qed.
Lemma issubset_spec a b : issubset a b = true <-> incl a b.
Proof.
  unfold issubset. rewrite forallb_forall. split; intros H x Hx.
  - specialize (H _ Hx). apply existsb_exists in H. destruct H as (y & Hy & E). apply Nat.eqb_eq in E. congruence.
  - apply existsb_exists. exists x. split; [now apply H|apply Nat.eqb_refl].
Qed.

Lemma prefix_sl p s : s <> [] -> sl p (p ++ s).
Proof. intros H. left. rewrite app_length. destruct s; [congruence|cbn; lia]. Qed.

Lemma superset_iff done base queue : inv done ((base, []) :: queue) -> can_grow base ->
  existsb (fun q => issubset base (fst q)) queue = true <-> extendable base.
Proof.
  intros I G. destruct (i_q _ _ I _ (or_introl eq_refl)) as (NE & CB & EC & SB). cbn [fst snd] in *.
  pose proof (i_sorted _ _ I) as SO. cbn [map fst] in SO.
  destruct (SS_app_inv _ _ _ SO) as (_ & SO2 & SO3). inversion SO2 as [|? ? SO4 SO5]; subst. rewrite Forall_forall in SO5.
  rewrite existsb_exists. split.
  - intros ([t ct] & Ht & Sub). cbn [fst] in Sub. apply issubset_spec in Sub.
    destruct (i_q _ _ I (t, ct) (or_intror Ht)) as (_ & CT & _). cbn [fst] in CT.
    assert (NEQ : t <> base). { intros ->. apply (sl_irrefl base). apply SO5. apply in_map_iff. exists (base, ct). auto. }
    assert (EX : exists v, In v t /\ ~ In v base).
    { destruct (forallb (fun x => existsb (Nat.eqb x) base) t) eqn:E.
      - exfalso. apply NEQ. apply issubset_spec in E. apply SS_lt_ext; [apply CT|apply CB|]. intros x; split; auto.
      - clear - E. induction t as [|x t IH]; [discriminate|]. cbn in E. destruct (existsb (Nat.eqb x) base) eqn:E1.
        + destruct (IH E) as (v & Hv & Hn). exists v. split; [now right|exact Hn].
        + exists x. split; [now left|]. intros Hx. assert (existsb (Nat.eqb x) base = true) by (apply existsb_exists; exists x; split; [exact Hx|apply Nat.eqb_refl]). congruence. }
    destruct EX as (v & Hv & Hn). exists v. destruct CT as (_ & CT2 & CT3). split; [auto|]. split; [exact Hn|].
    intros x Hx. destruct (Nat.lt_trichotomy x v) as [L|[->|L]]; [auto|contradiction|]. rewrite Hsym by auto. auto.
  - intros (v & Hv & NI & HA).
    destruct (insert_sorted v base (proj1 CB) NI) as (l & r & E & SS').
    assert (CS : clq (l ++ v :: r)) by (eapply extend_clq; eauto).
    (* r is not empty, otherwise v would be a common neighbour *)
    destruct (snoc_cases r) as [->|(r' & y & ->)].
    { exfalso. rewrite app_nil_r in E. subst l. apply clq_snoc' in CS. rewrite <- EC in CS. apply CS. }
    set (T := l ++ v :: r' ++ [y]) in *. assert (LT : length T = S (length base)) by (subst T base; rewrite !app_length; cbn; rewrite !app_length; cbn; lia).
    assert (SMT : small T) by (destruct G as [G|G]; [now left|right; lia]).
    assert (BEF : sl (l ++ v :: r') base).
    { right. split; [subst base; rewrite !app_length; cbn; lia|]. subst base. apply (proj1 (SS_app_inv _ [] _ SS')) || idtac.
      clear - SS'. induction l as [|x l IH]; cbn in *; [|right; split; [reflexivity|apply IH; now inversion SS']].
      inversion SS' as [|? ? _ F]; subst. rewrite Forall_forall in F. destruct r' as [|z r']; cbn; left; apply F; now left. }
    assert (ET : T = (l ++ v :: r') ++ [y]) by (subst T; rewrite <- app_assoc; reflexivity).
    destruct (i_all _ _ I T CS) as [D|(p & s & Hp & Es)]; [subst T; destruct l; discriminate|exact SMT| |].
    + exfalso. assert (L : sl T base) by (apply SO3; [exact D|now left]). apply sl_len in L. lia.
    + cbn [map fst] in Hp.
      assert (LE : p = base \/ sl base p) by (destruct Hp as [<-|Hp]; [now left|right; now apply SO5]).
      destruct (snoc_cases s) as [->|(s' & z & ->)].
      * rewrite app_nil_r in Es. subst p. destruct Hp as [Hp|Hp].
        { exfalso. rewrite <- Hp in LT. lia. }
        apply in_map_iff in Hp. destruct Hp as ([t ct] & Et & Ht). cbn in Et. subst t. exists (T, ct). split; [exact Ht|]. cbn. apply issubset_spec.
        intros x Hx. subst T base. rewrite !in_app_iff in *. cbn. rewrite in_app_iff. cbn in *. tauto.
      * exfalso. rewrite ET in Es. rewrite app_assoc in Es. apply app_inj_tail in Es. destruct Es as [Es _].
        assert (PB : sl p base).
        { destruct s' as [|z' s']; [rewrite app_nil_r in Es; congruence|]. apply sl_trans with (l ++ v :: r'); [|exact BEF]. rewrite Es. apply prefix_sl. discriminate. }
        destruct LE as [->|LE]; [exact (sl_irrefl _ PB)|]. exact (sl_irrefl _ (sl_trans _ _ _ PB LE)).
Qed.

(** ** Termination and the result *)
Definition weight (queue : list (list nat * list nat)) : nat := fold_right (fun q s => 2 ^ length (snd q) + s) 0 queue.
Lemma weight_app a b : weight (a ++ b) = weight a + weight b.
Proof. induction a as [|q a IH]; cbn; [reflexivity|]. unfold weight in *. lia. Qed.
Lemma filter_len {A} (f : A -> bool) l : length (filter f l) <= length l.
Proof. induction l as [|x l IH]; cbn; [lia|]. destruct (f x); cbn; lia. Qed.
Lemma weight_children base cn : S (weight (children adj base cn)) <= 2 ^ length cn.
Proof.
  induction cn as [|u r IH]; cbn [children]; [cbn; lia|]. cbn [weight fold_right snd length]. fold (weight (children adj base r)).
  assert (2 ^ length (filter (nb u) r) <= 2 ^ length r) by (apply Nat.pow_le_mono_r; [lia|apply filter_len]). rewrite Nat.pow_succ_r'. lia.
Qed.
Lemma weight_init : weight (init_queue n adj) <= n * 2 ^ n.
Proof.
  unfold init_queue. assert (H : forall l, weight (map (fun u => ([u], init_cnbrs n adj u)) l) <= length l * 2 ^ n).
  { induction l as [|u l IH]; cbn; [lia|]. fold (weight (map (fun u => ([u], init_cnbrs n adj u)) l)).
    assert (2 ^ length (init_cnbrs n adj u) <= 2 ^ n) by (apply Nat.pow_le_mono_r; [lia|]; unfold init_cnbrs; rewrite <- (seq_length n 0) at 2; apply filter_len). unfold weight in *. lia. }
  specialize (H (seq 0 n)). now rewrite seq_length in H.
Qed.

(** what is known of the list of maximal cliques *)
Definition mx_ok (done maximal : list (list nat)) : Prop :=
  NoDup maximal /\ incl maximal done /\
  if isolate then (forall c, In c done -> can_grow c -> (In c maximal <-> ~ extendable c)) else maximal = [].

Lemma loop_correct fuel : forall done queue maximal, inv done queue -> mx_ok done maximal -> weight queue <= fuel ->
  exists done' maximal', clique_loop adj max_n isolate fuel queue ([] :: done) maximal = Some ([] :: done', maximal') /\
   inv done' [] /\ mx_ok done' maximal'.
Proof.
  induction fuel as [|fuel IH]; intros done queue maximal I M W.
  - destruct queue as [|[b cn] queue]; [cbn; eauto|]. cbn in W. pose proof (Nat.pow_nonzero 2 (length cn)). lia.
  - destruct queue as [|[base cn] queue]; [cbn; eauto|].
    cbn [weight fold_right snd] in W. fold (weight queue) in W. pose proof (Nat.pow_nonzero 2 (length cn)) as PN.
    cbn [clique_loop]. cbv zeta. replace (([] :: done) ++ [base]) with ([] :: (done ++ [base])) by reflexivity.
    assert (NB : ~ In base done).
    { pose proof (SS_sl_NoDup _ (i_sorted _ _ I)) as ND. cbn in ND. apply NoDup_remove_2 in ND. intros H. apply ND, in_app_iff. now left. }
    destruct M as (M1 & M2 & M3).
    assert (BX : cn <> [] -> extendable base).
    { intros Hc. destruct cn as [|v cn0]; [congruence|]. destruct (i_q _ _ I _ (or_introl eq_refl)) as (_ & CB & EC & _). cbn [fst snd] in *.
      assert (Hv : In v (common base)) by (rewrite <- EC; now left). apply in_common in Hv. destruct Hv as [V1 V2]. exists v. split; [exact V1|].
      split; [intros Hin; specialize (V2 _ Hin); lia|]. intros x Hx. now apply V2. }
    destruct (isolate && (length cn =? 0)) eqn:EI.
    + apply andb_true_iff in EI. destruct EI as [Ei El]. apply Nat.eqb_eq in El. destruct cn; [|discriminate].
      apply IH; [now apply inv_step_stop with (cn := []); [|left]| |cbn in W; lia].
      rewrite Ei in M3. unfold mx_ok. rewrite Ei.
      set (ex := existsb (fun q => issubset base (fst q)) queue).
      assert (SI := superset_iff done base queue I). fold ex in SI.
      destruct ex.
      * split; [exact M1|]. split; [intros x Hx; apply in_app_iff; left; now apply M2|].
        intros c Hc Gc. apply in_app_iff in Hc. destruct Hc as [Hc|[<-|[]]]; [now apply M3|]. split; [intros H; exfalso; now apply NB, M2|].
        intros H. exfalso. apply H, SI; auto.
      * split; [apply (Permutation_NoDup (l := base :: maximal)); [apply Permutation_cons_append|constructor; [intros H; now apply NB, M2|exact M1]]|].
        split; [intros x Hx; apply in_app_iff in Hx; apply in_app_iff; destruct Hx as [Hx|Hx]; [left; now apply M2|now right]|].
        intros c Hc Gc. rewrite in_app_iff in *. destruct Hc as [Hc|[<-|[]]].
        { rewrite <- M3 by assumption. split; [|tauto]. intros [H|[<-|[]]]; [exact H|contradiction]. }
        split; [|intros _; right; now left]. intros _ H. apply SI in H; [discriminate|exact Gc].
    + assert (MX' : mx_ok (done ++ [base]) maximal).
      { split; [exact M1|]. split; [intros x Hx; apply in_app_iff; left; now apply M2|]. destruct isolate; [|exact M3].
        cbn in EI. apply Nat.eqb_neq in EI. assert (X : extendable base) by (apply BX; intros ->; now apply EI).
        intros c Hc Gc. apply in_app_iff in Hc. destruct Hc as [Hc|[<-|[]]]; [now apply M3|]. split; [intros H; exfalso; now apply NB, M2|contradiction]. }
      destruct ((max_n <=? 0) || (length base <? max_n)) eqn:EG.
      * apply IH; [|exact MX'|rewrite weight_app; pose proof (weight_children base cn); lia].
        apply inv_step_grow; [exact I|right]. apply orb_true_iff in EG. destruct EG as [EG|EG]; [left; apply Nat.leb_le in EG; lia|right; now apply Nat.ltb_lt].
      * apply IH; [|exact MX'|lia]. apply inv_step_stop with cn; [exact I|right]. apply orb_false_iff in EG. destruct EG as [E1 E2].
        apply Nat.leb_gt in E1. apply Nat.ltb_ge in E2. unfold can_grow. lia.
Qed.

Lemma clq_iff c : clq c <-> is_clique n adj c.
Proof.
  unfold clq, is_clique. split; intros (H1 & H2 & H3); split; auto; split; auto; intros x y Hx Hy L.
  - destruct (Nat.lt_trichotomy x y) as [Q|[->|Q]]; [auto|congruence|]. rewrite Hsym by auto. auto.
  - apply H3; auto. lia.
Qed.
Lemma not_ext_iff c : clq c -> ~ extendable c <-> is_maximal n adj c.
Proof.
  intros C. split.
  - intros H. split; [now apply clq_iff|]. intros v Hv NI.
    destruct (forallb (fun x => adj x v) c) eqn:E.
    + exfalso. apply H. exists v. rewrite forallb_forall in E. auto.
    + clear - E. induction c as [|x c IH]; [discriminate|]. cbn in E. destruct (adj x v) eqn:Ex.
      * destruct (IH E) as (y & Hy & Ey). exists y. split; [now right|exact Ey].
      * exists x. split; [now left|exact Ex].
  - intros [_ H] (v & Hv & NI & HA). destruct (H v Hv NI) as (x & Hx & Ex). rewrite HA in Ex by assumption. discriminate.
Qed.

Theorem cliques_correct : exists all maximal, all_and_maximal_cliques n adj max_n isolate = Some (all, maximal) /\
  StronglySorted sl all /\ (forall c, In c all <-> is_clique n adj c /\ small c) /\
  NoDup maximal /\ incl maximal all /\ ~ In [] maximal /\
  (if isolate then forall c, c <> [] -> is_clique n adj c -> can_grow c -> (In c maximal <-> is_maximal n adj c) else maximal = []).
Proof.
  unfold all_and_maximal_cliques.
  destruct (loop_correct (n * 2 ^ n) [] (init_queue n adj) []) as (done & mx & E & I & M1 & M2 & M3).
  - apply inv_init.
  - split; [constructor|]. split; [intros ? []|]. destruct isolate; [intros ? []|reflexivity].
  - apply weight_init.
  - exists ([] :: done), mx. split; [exact E|]. pose proof (i_sorted _ _ I) as SO. cbn in SO. rewrite app_nil_r in SO.
    assert (DN : forall c, In c done <-> c <> [] /\ is_clique n adj c /\ small c).
    { intros c. split; [intros H; rewrite <- clq_iff; now apply (i_done _ _ I)|]. intros (H1 & H2 & H3). apply clq_iff in H2.
      destruct (i_all _ _ I c H2 H1 H3) as [|(p & s & [] & _)]. assumption. }
    split; [constructor; [exact SO|apply Forall_forall; intros c Hc; left; cbn; apply DN in Hc; destruct c; [tauto|cbn; lia]]|].
    split.
    { intros c. split.
      - intros [<-|Hc]; [|apply DN in Hc; tauto]. split; [apply clq_iff, clq_nil|]. unfold small; cbn; lia.
      - intros [H1 H2]. destruct c as [|x c]; [now left|]. right. apply DN. split; [discriminate|auto]. }
    split; [exact M1|]. split; [intros x Hx; right; now apply M2|]. split; [intros H; apply M2, DN in H; tauto|].
    destruct isolate; [|exact M3]. intros c Hn Hc G. rewrite <- not_ext_iff by now apply clq_iff. apply M3; [|exact G]. apply DN. split; [exact Hn|]. split; [exact Hc|].
    unfold can_grow, small in *. lia.
Qed.
End P.
