(** The means of the products of an inflation: invariance, and the product over the factors of a word. *)
From Coq Require Import Permutation Relation_Operators QArith Qcanon List Arith Bool Lia.
From Verif Require Import CanonModel CanonSpec CanonProofs CanonProofs2 ScenarioModel ScenarioSpec SymModel SymSpec FactorModel FactorSpec
  ScenarioProofs SymProofs UniqueProofs FactorProofs MargModel ColumnModel ColumnSpec MemoModel MemoSpec NormSpec QuantumSpec QuantumProofs QInflationSpec SoundProofs.
From Verif Require ColumnProofs ColumnProofs3 MemoProofs PropMemo PhysProofs2.
Import ListNotations.
Close Scope Q_scope. Close Scope Qc_scope. Open Scope nat_scope.

Add Ring Cring2 : C_ring.
Definition cprod (l : list C) : C := fold_right Cmult C1 l.
Lemma cprod_cons x l : cprod (x :: l) = Cmult x (cprod l). Proof. reflexivity. Qed.
Lemma cprod_nil : cprod [] = C1. Proof. reflexivity. Qed.
Lemma cprod_app a b : cprod (a ++ b) = Cmult (cprod a) (cprod b).
Proof. induction a as [|x a IH]; cbn [app]; [rewrite cprod_nil; ring|]. rewrite !cprod_cons, IH. ring. Qed.
Lemma cprod_perm a b : Permutation a b -> cprod a = cprod b.
Proof. induction 1; rewrite ?cprod_cons; try congruence. ring. Qed.
Lemma cprod_conj l : cprod (map Cconj l) = Cconj (cprod l).
Proof. induction l as [|x l IH]; cbn [map]; [symmetry; apply conj_1|]. rewrite !cprod_cons, IH. symmetry. apply conj_mult. Qed.
Lemma conj_fst z : fst (Cconj z) = fst z. Proof. reflexivity. Qed.
Definition real (z : C) : Prop := snd z = 0%Qc.
Lemma real_conj z : Cconj z = z -> real z.
Proof.
  destruct z as [a b]. unfold Cconj, real. cbn [fst snd]. intros E. assert (E' : (- b)%Qc = b) by congruence. clear E.
  assert (D : (b + b)%Qc = 0%Qc) by (rewrite <- E' at 1; ring). assert (F : (b * (1 + 1))%Qc = 0%Qc) by (rewrite <- D; ring). destruct (Qcmult_integral _ _ F) as [Q|Q]; [exact Q|discriminate Q].
Qed.
Lemma cmul_real a b : real a -> fst (Cmult a b) = (fst a * fst b)%Qc.
Proof. intros R. unfold Cmult. cbn [fst]. rewrite R. ring. Qed.
Lemma cprod_real l : (forall z, In z l -> real z) -> real (cprod l) /\ fst (cprod l) = prodQ (map fst l).
Proof.
  induction l as [|z l IH]; intros H; [split; reflexivity|]. destruct IH as [R E]; [intros y Hy; apply H; right; exact Hy|]. assert (Rz := H z (or_introl eq_refl)).
  cbn [cprod fold_right map prodQ]. fold (cprod l). fold (prodQ (map fst l)). split; [|rewrite (cmul_real z (cprod l) Rz), E; reflexivity].
  unfold real, Cmult in *. cbn [snd]. rewrite R, Rz. ring.
Qed.

(** ** Splitting a labelled word *)
Section Split.
Variable nc : table.
Hypothesis nc_sym : forall a b, nc a b = nc b a.
Notation "u ~ v" := (comm_eq nc u v) (at level 70).
Lemma ce_split (f : nat * nat -> bool) lw :
  (forall q q', In q lw -> In q' lw -> f q = true -> f q' = false -> nc (snd q) (snd q') = false) ->
  map snd lw ~ map snd (filter f lw) ++ map snd (filter (fun q => negb (f q)) lw).
Proof.
  induction lw as [|q lw IH]; intros H; [apply ce_refl|].
  assert (IH' := IH ltac:(intros; apply H; try (right; assumption); assumption)).
  cbn [map filter]. destruct (f q) eqn:E; cbn [negb map].
  - cbn [app]. apply ce_cons, IH'.
  - eapply ce_trans; [apply ce_cons, IH'|]. apply ce_sym, ce_move; [exact nc_sym|].
    intros b Hb. apply in_map_iff in Hb as (q' & <- & Hq'). apply filter_In in Hq' as [Hq' Ef].
    rewrite nc_sym. apply H; auto; [right; exact Hq'|left; reflexivity].
Qed.
End Split.

Section Values.
Variables (sc : scenario) (W : wf_scenario sc).
Notation n := (length (lexorder sc)).
Notation nc := (sdp_notcomm sc).
Notation ortho := (sdp_orthomat sc).
Notation syms := (sdp_lexorder_symmetries sc).
Lemma nc_sym a b : nc a b = nc b a. Proof. apply (gt_nc_sym _ _ (scenario_good_tables sc W)). Qed.
Lemma op_parts x : 1 <= x <= n -> exists p c s o, nth_error (lexorder sc) (pred x) = Some (mkrow (p + 1) c s o) /\ valid_operator sc p c s o /\ copies_of sc x = c.
Proof.
  intros R. destruct x as [|k]; [lia|]. destruct (lexorder_parts sc k W ltac:(lia)) as (p & c & s & o & E & V). exists p, c, s, o. cbn [pred]. split; [exact E|]. split; [exact V|].
  unfold copies_of, sdp_lexorder. cbn [nth]. rewrite (nth_error_nth _ _ _ E). apply mkrow_copies.
Qed.
Lemma unshared_commute x y : 1 <= x <= n -> 1 <= y <= n -> ~ share_copy (copies_of sc x) (copies_of sc y) -> nc x y = false.
Proof.
  intros Hx Hy N. destruct (op_parts x Hx) as (p & c & s & o & E & V & C). destruct (op_parts y Hy) as (q & c' & s' & o' & E' & V' & C'). rewrite C, C' in N.
  destruct x as [|k]; [lia|]. destruct y as [|k']; [lia|]. cbn [pred] in E, E'. cbn [sdp_notcomm]. apply (default_notcomm_spec sc k k' _ _ _ _ _ _ _ _ W E E'). left.
  intros a src Ha (Cl & J) Eq. apply N. exists a. split; [|exact Eq]. destruct V as (_ & _ & V & _). destruct (V a src Ha) as [V1 _].
  assert (R : reaches src p) by (destruct J as [[_ J]|(l & L1 & _ & L3 & _)]; [left; exact J|right; eauto]). specialize (V1 R). lia.
Qed.

(** labelled words whose different classes share no copies *)
Definition separated (lw : list (nat * nat)) : Prop :=
  forall q q', In q lw -> In q' lw -> fst q <> fst q' -> ~ share_copy (copies_of sc (snd q)) (copies_of sc (snd q')).
Definition part (lw : list (nat * nat)) (q : nat) : word := map snd (filter (fun x => fst x =? q) lw).
Lemma filter_twice {A} (f g : A -> bool) l : filter f (filter g l) = filter (fun x => f x && g x) l.
Proof. induction l as [|x l IH]; [reflexivity|]. cbn [filter]. destruct (g x) eqn:G; cbn [filter]; destruct (f x); cbn [andb]; rewrite ?IH; reflexivity. Qed.
Lemma part_rest lw q q' : q' <> q -> part (filter (fun x => negb (fst x =? q)) lw) q' = part lw q'.
Proof.
  intros N. unfold part. rewrite filter_twice. f_equal. apply filter_ext. intros x. destruct (Nat.eqb_spec (fst x) q'); [|reflexivity]. cbn [andb].
  destruct (Nat.eqb_spec (fst x) q); [congruence|reflexivity].
Qed.
Lemma split_part lw q : (forall x, In x lw -> 1 <= snd x <= n) -> separated lw ->
  comm_eq nc (map snd lw) (part lw q ++ map snd (filter (fun x => negb (fst x =? q)) lw)).
Proof.
  intros R S. apply (ce_split nc nc_sym). intros x y Hx Hy E E'. apply Nat.eqb_eq in E. apply Nat.eqb_neq in E'. apply unshared_commute; [apply R, Hx|apply R, Hy|]. apply S; auto. congruence.
Qed.
Section L.
Variables (arr : ndarray) (L : word -> C) (MQ : moments_of sc arr L).
Lemma L_ce u v : comm_eq nc u v -> L u = L v.
Proof. intros E. apply (mq_equal _ _ _ MQ). apply ce_pe; try exact E. Qed.
Lemma L_parts N : forall lw, (forall x, In x lw -> 1 <= snd x <= n /\ fst x < N) -> separated lw -> L (map snd lw) = cprod (map (fun q => L (part lw q)) (seq 0 N)).
Proof.
  induction N as [|N IH]; intros lw R S.
  - destruct lw as [|x lw]; [apply (mq_one _ _ _ MQ)|]. destruct (R x (or_introl eq_refl)). lia.
  - rewrite seq_S, map_app, cprod_app. cbn [map Nat.add]. rewrite (L_ce _ _ (split_part lw N (fun x Hx => proj1 (R x Hx)) S)).
    rewrite (mq_independent _ _ _ MQ).
    + rewrite (IH (filter (fun x => negb (fst x =? N)) lw)).
      * rewrite (map_ext_in _ (fun q => L (part lw q)) (seq 0 N)); [rewrite cprod_cons, cprod_nil; ring|]. intros q Hq. apply in_seq in Hq. rewrite part_rest by lia. reflexivity.
      * intros x Hx. apply filter_In in Hx as [Hx Hn]. destruct (R x Hx) as [R1 R2]. split; [exact R1|]. destruct (Nat.eqb_spec (fst x) N); [discriminate|]. lia.
      * intros x y Hx Hy. apply filter_In in Hx as [Hx _]. apply filter_In in Hy as [Hy _]. apply S; assumption.
    + intros x Hx. unfold part in Hx. apply in_map_iff in Hx as (y & <- & Hy). apply filter_In in Hy as [Hy _]. apply R, Hy.
    + intros x Hx. apply in_map_iff in Hx as (y & <- & Hy). apply filter_In in Hy as [Hy _]. apply R, Hy.
    + intros x y Hx Hy. unfold part in Hx. apply in_map_iff in Hx as (x' & <- & Hx'). apply in_map_iff in Hy as (y' & <- & Hy'). apply filter_In in Hx' as [Hx' E]. apply filter_In in Hy' as [Hy' E'].
      apply Nat.eqb_eq in E. apply negb_true_iff, Nat.eqb_neq in E'. apply S; auto. congruence.
Qed.
End L.
Lemma reduced_part lw q : (forall x, In x lw -> 1 <= snd x <= n) -> separated lw -> reduced nc ortho (map snd lw) -> reduced nc ortho (part lw q).
Proof.
  intros R S [Z D]. split.
  - intros I. apply Z. unfold part in I. apply in_map_iff in I as (y & E & Hy). apply filter_In in Hy as [Hy _]. apply in_map_iff. eauto.
  - intros u a b v E. set (rest := map snd (filter (fun x => negb (fst x =? q)) lw)). apply (D u a b (v ++ rest)).
    eapply ce_trans; [apply (split_part lw q R S)|]. fold rest. replace (u ++ a :: b :: v ++ rest) with ((u ++ a :: b :: v) ++ rest) by (rewrite <- app_assoc; reflexivity). apply ce_app_r, E.
Qed.

(** ** The factors of a word *)
Hypothesis FC : few_copies sc.
Lemma distinct_few mon : (forall k, In k mon -> k < n) -> distinct_copies sc mon <= 255.
Proof.
  intros R. etransitivity; [|exact FC]. unfold distinct_copies. apply NoDup_incl_length; [apply NoDup_nodup|]. intros c H. apply nodup_In in H. apply nodup_In. apply in_map_iff in H as (k & <- & Hk).
  apply (in_map (fun k => row_copies (nth k (lexorder sc) []))). apply in_seq. specialize (R k Hk). lia.
Qed.
Lemma pred_S w : operator_word sc w -> map S (map pred w) = w.
Proof. intros R. rewrite map_map. rewrite <- (map_id w) at 2. apply map_ext_in. intros x Hx. specialize (R x Hx). lia. Qed.
(** the factors, as words of operators counted from 1 *)
Lemma factors_are w : operator_word sc w -> exists fs lw N, factorize_monomial_1d sc (map pred w) = Some fs /\
  map snd lw = w /\ (forall x, In x lw -> 1 <= snd x <= n /\ fst x < N) /\ separated lw /\
  map (map S) (filter (fun f => negb (length f =? 0)) fs) = map (part lw) (seq 0 N) /\ forall q, q < N -> part lw q <> [].
Proof.
  intros R. destruct (list_eq_dec Nat.eq_dec w []) as [->|NE].
  { exists [[]], [], 0. split; [|split; [reflexivity|split; [intros x []|split; [intros x y []|split; [reflexivity|intros; lia]]]]].
    unfold factorize_monomial_1d. cbn [map length Nat.leb orb]. rewrite orb_true_r. reflexivity. }
  set (mon := map pred w). assert (V : forall k, In k mon -> k < n) by (intros k Hk; apply in_map_iff in Hk as (x & <- & Hx); specialize (R x Hx); lia).
  assert (LM : length mon = length w) by apply map_length.
  destruct (factorize_correct sc mon W V (distinct_few mon V)) as (fs & lab & E & LL & PS & LT & SU & LK). { unfold mon. destruct w; [contradiction|discriminate]. }
  set (lw := map (fun i => (nth i lab 0, S (nth i mon 0))) (seq 0 (length mon))). exists fs, lw, (length fs). split; [exact E|].
  assert (SN : map snd lw = w).
  { unfold lw. rewrite map_map. cbn [snd]. transitivity (map S mon); [|apply (pred_S w R)]. rewrite <- (map_map (fun i => nth i mon 0) S). f_equal. clear. induction mon as [|x l IH]; [reflexivity|]. cbn [length seq map nth]. f_equal. rewrite <- seq_shift, map_map. exact IH. }
  assert (PT : forall q, part lw q = map S (piece mon lab q)).
  { intros q. unfold part, piece, lw. rewrite map_map. generalize (seq 0 (length mon)). intros l. induction l as [|i l IH]; [reflexivity|]. cbn [map filter fst snd]. destruct (nth i lab 0 =? q); cbn [map]; rewrite IH; reflexivity. }
  assert (NP : forall q, q < length fs -> piece mon lab q <> []).
  { intros q Hq Ep. destruct (SU q Hq) as (i & Hi & Ei). unfold piece in Ep. apply map_eq_nil in Ep. assert (In i (filter (fun i => nth i lab 0 =? q) (seq 0 (length mon)))); [|rewrite Ep in *; contradiction].
    apply filter_In. split; [apply in_seq; lia|apply Nat.eqb_eq, Ei]. }
  split; [exact SN|]. split; [|split; [|split]].
  - intros x Hx. unfold lw in Hx. apply in_map_iff in Hx as (i & <- & Hi). apply in_seq in Hi. cbn [fst snd]. split; [|apply LT; lia].
    assert (Hi' : i < length mon) by lia. assert (K := V (nth i mon 0) (nth_In mon 0 Hi')). lia.
  - intros x y Hx Hy NEq SH. unfold lw in Hx, Hy. apply in_map_iff in Hx as (i & <- & Hi). apply in_map_iff in Hy as (j & <- & Hj). apply in_seq in Hi, Hj. cbn [fst snd] in *. apply NEq.
    apply LK; [lia|lia|]. apply rst_step. split; [lia|]. split; [lia|]. exact SH.
  - rewrite (map_ext _ _ PT). rewrite PS at 1. rewrite <- (map_map (piece mon lab) (map S)). f_equal.
    assert (G : forall l, (forall q, In q l -> q < length fs) -> filter (fun f : list nat => negb (length f =? 0)) (map (piece mon lab) l) = map (piece mon lab) l).
    { clear - NP. induction l as [|q l IH]; intros H; [reflexivity|]. cbn [map filter]. destruct (piece mon lab q) as [|z l'] eqn:Eq; [exfalso; apply (NP q (H q (or_introl eq_refl)) Eq)|]. cbn [length Nat.eqb negb].
      rewrite IH by (intros q' Hq'; apply H; right; exact Hq'). reflexivity. }
    apply G. intros q Hq. apply in_seq in Hq. lia.
  - intros q Hq. rewrite PT. intros Q. apply map_eq_nil in Q. apply (NP q Hq Q).
Qed.
End Values.
