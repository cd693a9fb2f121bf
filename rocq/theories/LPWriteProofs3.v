(** The files describe the programme in memory. *)
From Coq Require Import List Arith Bool Ascii String QArith Qcanon Permutation Lia.
From Verif Require Import MargModel QcSum QcArith SearchModel ProgramModel SDPSolveModel SDPSolveSpec SDPSolveProofs SdpaModel SdpaProofs LPWriteModel LPWriteSpec LPWriteProofs LPWriteProofs2.
Import ListNotations.
Open Scope nat_scope.

(** ** Renaming *)
Lemma index_from_Some k x l i : index_from k x l = Some i -> exists j, i = k + j /\ nth_error l j = Some x.
Proof.
  revert k. induction l as [|y l IH]; intros k E; [discriminate E|]. cbn [index_from] in E. destruct (String.eqb_spec x y) as [->|].
  - injection E as <-. exists 0. split; [lia|reflexivity].
  - apply IH in E as (j & -> & H). exists (S j). split; [lia|exact H].
Qed.
Lemma index_from_In k x l : In x l -> exists i, index_from k x l = Some i.
Proof.
  revert k. induction l as [|y l IH]; intros k H; [destruct H|]. cbn [index_from]. destruct (String.eqb_spec x y) as [->|N]; [eexists; reflexivity|].
  destruct H as [->|H]; [contradiction|]. apply IH. exact H.
Qed.
Definition iexpr (v : nat -> Qc) (e : idict Qc) : Qc := sumQ (map (fun q => (snd q * v (fst q))%Qc) e).

Section Programme.
Variable a : lp_args.
Hypothesis W : wf_lp a.

Definition same_entry (q : name * Qc) (r : nat * Qc) : Prop := nth_error (variables a) (fst r) = Some (fst q) /\ snd r = snd q.
Lemma rename_Forall2 d e : rename a d = Some e -> Forall2 same_entry d e.
Proof.
  revert e. induction d as [|[x c] d IH]; intros e E.
  - cbn [rename] in E. assert (e = []) by congruence. subst e. constructor.
  - cbn [rename] in E. destruct (var_idx a x) as [i|] eqn:V; [|discriminate E]. destruct (rename a d) as [e'|]; [|discriminate E].
    assert (e = (i, c) :: e') by congruence. subst e. constructor; [|apply IH; reflexivity].
    apply index_from_Some in V as (j & -> & H). split; [exact H|reflexivity].
Qed.
Lemma rename_total d : incl (keys d) (variables a) -> exists e, rename a d = Some e.
Proof.
  induction d as [|[x c] d IH]; intros I; [exists []; reflexivity|]. cbn [rename]. destruct (index_from_In 0 x (variables a)) as [i V]; [apply I; left; reflexivity|].
  unfold var_idx. rewrite V. destruct IH as [e ->]; [intros y Hy; apply I; right; exact Hy|]. eexists; reflexivity.
Qed.
Lemma rename_all_total l : (forall d, In d l -> incl (keys d) (variables a)) -> exists r, rename_all a l = Some r.
Proof.
  induction l as [|d l IH]; intros H; [exists []; reflexivity|]. cbn [rename_all]. destruct (rename_total d) as [e ->]; [apply H; left; reflexivity|].
  destruct IH as [r ->]; [intros d' Hd; apply H; right; exact Hd|]. eexists; reflexivity.
Qed.
Lemma rename_all_Forall2 l r : rename_all a l = Some r -> Forall2 (fun d e => Forall2 same_entry d e) l r.
Proof.
  revert r. induction l as [|d l IH]; intros r E.
  - cbn in E. assert (r = []) by congruence. subst r. constructor.
  - cbn [rename_all] in E. destruct (rename a d) as [e|] eqn:D; [|discriminate E]. destruct (rename_all a l) as [r'|]; [|discriminate E]. assert (r = e :: r') by congruence. subst r.
    constructor; [apply rename_Forall2; exact D|apply IH; reflexivity].
Qed.
Definition val (w : name -> Qc) (i : nat) : Qc := w (nth i (variables a) ""%string).
Lemma val_nth w i k : nth_error (variables a) i = Some k -> val w i = w k.
Proof. intros H. unfold val. rewrite (nth_error_nth _ _ _ H). reflexivity. Qed.
Lemma same_expr w d e : Forall2 same_entry d e -> expr w d = iexpr (val w) e.
Proof.
  induction 1 as [|[k c] [i c'] d e [H1 H2] _ IH]; [reflexivity|]. rewrite expr_cons. unfold iexpr. cbn [map]. rewrite sumQ_cons. cbn [fst snd] in *. rewrite (val_nth w i k H1), H2, IH. reflexivity.
Qed.
Lemma nth_inj i j k : nth_error (variables a) i = Some k -> nth_error (variables a) j = Some k -> i = j.
Proof. intros H1 H2. apply (proj1 (NoDup_nth_error (variables a)) (wl_variables a W)); [apply nth_error_Some; congruence|congruence]. Qed.
Lemma same_keys d e i k : Forall2 same_entry d e -> nth_error (variables a) i = Some k -> In i (keys e) <-> In k (keys d).
Proof.
  intros S H. induction S as [|[k' c] [i' c'] d e [H1 H2] _ IH]; [reflexivity|]. cbn [keys map In fst snd] in *. rewrite <- IH. split; intros [E|E]; [left|right; exact E|left|right; exact E].
  - subst i'. congruence.
  - subst k'. eapply nth_inj; eassumption.
Qed.
Lemma same_keys_nth d e i : Forall2 same_entry d e -> In i (keys e) -> exists k, nth_error (variables a) i = Some k /\ In k (keys d).
Proof.
  intros S. induction S as [|[k' c] [i' c'] d e [H1 H2] _ IH]; intros H; [destruct H|]. cbn [keys map In fst snd] in *. destruct H as [<-|H].
  - exists k'. split; [exact H1|left; reflexivity].
  - destruct (IH H) as (k & ? & ?). exists k. split; [assumption|right; assumption].
Qed.
Lemma same_NoDup d e : Forall2 same_entry d e -> NoDup (keys d) -> NoDup (keys e).
Proof.
  intros S. induction S as [|[k c] [i c'] d e [H1 H2] S IH]; intros N; [constructor|]. cbn [keys map fst] in *. apply NoDup_cons_iff in N as [N1 N2]. constructor; [|apply IH; exact N2].
  intros H. apply N1. apply (same_keys d e i k S H1). exact H.
Qed.

(** ** Known and unknown parts *)
Lemma iget_In (d : idict Qc) i c : NoDup (keys d) -> In (i, c) d -> iget i d = Some c.
Proof.
  induction d as [|[j e] d IH]; intros N H; [destruct H|]. cbn [keys map fst] in N. apply NoDup_cons_iff in N as [N1 N2]. unfold iget. cbn [get]. destruct (Nat.eq_dec i j) as [->|NE].
  - destruct H as [H|H]; [congruence|]. exfalso. apply N1. apply in_map_iff. exists (j, c). split; [reflexivity|exact H].
  - destruct H as [H|H]; [congruence|]. apply IH; assumption.
Qed.
Lemma iexpr_keys v (d : idict Qc) : NoDup (keys d) -> iexpr v d = sumQ (map (fun i => (igetd i d * v i)%Qc) (keys d)).
Proof.
  intros N. unfold iexpr, keys. rewrite map_map. apply sumQ_ext. intros [i c] H. cbn [fst snd]. unfold igetd. rewrite (iget_In d i c N H). reflexivity.
Qed.
Lemma sum_split {A} (p : A -> bool) (l : list A) (f : A -> Qc) : sumQ (map f l) = (sumQ (map f (filter p l)) + sumQ (map f (filter (fun x => negb (p x)) l)))%Qc.
Proof. induction l as [|x l IH]; [cbn; ring|]. cbn [map filter]. rewrite sumQ_cons, IH. destruct (p x); cbn [negb map]; rewrite ?sumQ_cons; ring. Qed.
Lemma iexpr_split v known d : NoDup (keys d) -> iexpr v d =
  (sumQ (map (fun i => igetd i d * v i) (known_part known d)) + sumQ (map (fun i => igetd i d * v i) (unknown_part known d)))%Qc.
Proof. intros N. rewrite iexpr_keys by exact N. apply (sum_split (fun k => imem k (keys known))). Qed.

Section Order.
Variable order : list nat -> list nat.
Hypothesis O : forall l, Permutation (order l) l.
Lemma fold_sum {A} (f : A -> Qc) l : forall c, fold_left (fun c x => (c + f x)%Qc) l c = (c + sumQ (map f l))%Qc.
Proof. induction l as [|x l IH]; intros c; [cbn; ring|]. cbn [fold_left map]. rewrite IH, sumQ_cons. ring. Qed.
Lemma known_sum_is known d : known_sum order known d = sumQ (map (fun i => (igetd i d * igetd i known)%Qc) (known_part known d)).
Proof.
  unfold known_sum. rewrite (fold_sum (fun i => (igetd i d * igetd i known)%Qc)). rewrite (sumQ_perm _ (map (fun i => (igetd i d * igetd i known)%Qc) (known_part known d))); [ring|].
  apply Permutation_map, O.
Qed.
Lemma minus_known_is known d : minus_known order known d = (- known_sum order known d)%Qc.
Proof.
  unfold minus_known. rewrite known_sum_is.
  assert (G : forall l c, fold_left (fun r x => (r - igetd x d * igetd x known)%Qc) l c = (c - sumQ (map (fun i => igetd i d * igetd i known) l))%Qc).
  { induction l as [|x l IH]; intros c; [cbn; ring|]. cbn [fold_left map]. rewrite IH, sumQ_cons. ring. }
  rewrite G. rewrite (sumQ_perm _ (map (fun i => (igetd i d * igetd i known)%Qc) (known_part known d))); [ring|]. apply Permutation_map, O.
Qed.

(** what process_arguments returns *)
Definition rel_lists (l : list (ndict Qc)) (r : list (idict Qc)) : Prop := Forall2 (fun d e => Forall2 same_entry d e) l r.
Definition eqs_of : list (ndict Qc) := a_equalities a ++ map semiknown_equality (a_semiknown a).
Record processed_ok (p : processed) : Prop := {
  po_variables : p_variables p = seq 0 (length (variables a));
  po_objective : Forall2 same_entry (a_objective a) (p_objective p);
  po_known : Forall2 same_entry (a_known a) (p_known p);
  po_eqs : rel_lists eqs_of (p_equalities p);
  po_ineqs : rel_lists (a_inequalities a) (p_inequalities p);
  po_lower : Forall2 same_entry (a_lower a) (p_lower p);
  po_upper : Forall2 same_entry (a_upper a) (p_upper p)
}.
Lemma semiknown_keys k c k2 : k <> k2 -> keys (semiknown_equality (k, (c, k2))) = [k; k2].
Proof. intros N. unfold semiknown_equality, nset. cbn [fst snd set]. destruct (string_dec k2 k); [congruence|reflexivity]. Qed.
Lemma eqs_of_wf d : In d eqs_of -> NoDup (keys d) /\ incl (keys d) (variables a).
Proof.
  intros H. unfold eqs_of in H. apply in_app_iff in H as [H|H]; [apply (wl_constraints a W); left; exact H|].
  apply in_map_iff in H as ([k [c k2]] & <- & H). destruct (wl_semiknown a W k c k2 H) as (H1 & H2 & N). rewrite semiknown_keys by exact N. split.
  - constructor; [intros [E|[]]; congruence|constructor; [intros []|constructor]].
  - intros y [<-|[<-|[]]]; assumption.
Qed.
Lemma process_total : exists p, process_arguments a = Some p.
Proof.
  unfold process_arguments. destruct (rename_all_total eqs_of) as [r1 E1]; [intros d H; apply eqs_of_wf; exact H|]. fold eqs_of. rewrite E1.
  destruct (rename_all_total (a_inequalities a)) as [r2 ->]; [intros d H; apply (wl_constraints a W); right; exact H|].
  destruct (rename_total (a_known a)) as [r3 ->]; [apply (wl_known a W)|]. destruct (rename_total (a_lower a)) as [r4 ->]; [apply (wl_bounds a W)|].
  destruct (rename_total (a_upper a)) as [r5 ->]; [apply (wl_bounds a W)|]. destruct (rename_total (a_objective a)) as [r6 ->]; [apply (wl_objective a W)|]. eexists; reflexivity.
Qed.
Lemma process_ok p : process_arguments a = Some p -> processed_ok p.
Proof.
  unfold process_arguments. fold eqs_of. destruct (rename_all a eqs_of) as [r1|] eqn:E1; [|discriminate]. destruct (rename_all a (a_inequalities a)) as [r2|] eqn:E2; [|discriminate].
  destruct (rename a (a_known a)) as [r3|] eqn:E3; [|discriminate]. destruct (rename a (a_lower a)) as [r4|] eqn:E4; [|discriminate]. destruct (rename a (a_upper a)) as [r5|] eqn:E5; [|discriminate].
  destruct (rename a (a_objective a)) as [r6|] eqn:E6; [|discriminate]. intros E. match type of E with Some ?q = Some p => assert (q = p) by congruence end. subst p.
  constructor; cbn [p_variables p_objective p_known p_equalities p_inequalities p_lower p_upper]; [reflexivity| | | | | |];
    first [apply rename_Forall2; assumption | apply rename_all_Forall2; assumption].
Qed.

Section Point.
Variables (p : processed) (w : name -> Qc).
Hypothesis P : processed_ok p.
Hypothesis R : respects_lp a w.

Lemma known_value i : In i (keys (p_known p)) -> igetd i (p_known p) = val w i.
Proof.
  intros H. pose proof (po_known p P) as S. assert (N : NoDup (keys (p_known p))) by (eapply same_NoDup; [exact S|apply (wl_known a W)]).
  apply in_map_iff in H as ([j c] & E & H). cbn [fst] in E. subst j. unfold igetd. rewrite (iget_In _ i c N H). clear N. revert R. unfold respects_lp.
  revert H. induction S as [|[k c0] [i0 c1] l l' [H1 H2] S IH]; intros H R; [destruct H|]. cbn [fst snd] in *. destruct H as [H|H].
  - assert (i0 = i /\ c1 = c) as [-> ->] by (split; congruence). rewrite (val_nth w i k H1). symmetry. rewrite H2. apply R. left; reflexivity.
  - apply IH; [exact H|]. intros k' c' H'. apply R. right; exact H'.
Qed.
Lemma known_sum_val d : known_sum order (p_known p) d = sumQ (map (fun i => (igetd i d * val w i)%Qc) (known_part (p_known p) d)).
Proof.
  rewrite known_sum_is. apply sumQ_ext. intros i H. unfold known_part in H. apply filter_In in H as [_ H]. apply imem_iff in H. rewrite known_value by exact H. reflexivity.
Qed.
Lemma constraint_value d e : Forall2 same_entry d e -> NoDup (keys d) ->
  expr w d = (known_sum order (p_known p) e + sumQ (map (fun i => igetd i e * val w i) (unknown_part (p_known p) e)))%Qc.
Proof. intros S N. rewrite (same_expr w d e S), (iexpr_split _ (p_known p)) by (eapply same_NoDup; eassumption). rewrite known_sum_val. reflexivity. Qed.
Lemma unknown_unknown d e i : Forall2 same_entry d e -> In i (unknown_part (p_known p) e) -> exists k, unknown_at a i k /\ In k (keys d).
Proof.
  intros S H. unfold unknown_part in H. apply filter_In in H as [H1 H2]. destruct (same_keys_nth d e i S H1) as (k & Hk & Hd). exists k. split; [split; [exact Hk|]|exact Hd].
  intros H. apply (same_keys _ _ i k (po_known p P) Hk) in H. apply imem_iff in H. rewrite H in H2. discriminate H2.
Qed.
Lemma unknown_part_In d e i k : Forall2 same_entry d e -> unknown_at a i k -> In k (keys d) -> In i (unknown_part (p_known p) e).
Proof.
  intros S [H1 H2] H. apply filter_In. split; [apply (same_keys d e i k S H1); exact H|]. apply negb_true_iff. destruct (imem i (keys (p_known p))) eqn:E; [|reflexivity].
  apply imem_iff in E. apply (same_keys _ _ i k (po_known p P) H1) in E. contradiction.
Qed.
Lemma only_known_iff d e : Forall2 same_entry d e -> unknown_part (p_known p) e = [] <-> only_known a d.
Proof.
  intros S. split.
  - intros E k H. destruct (in_dec string_dec k (keys (a_known a))) as [I|I]; [exact I|]. exfalso. 
    assert (X : exists i, nth_error (variables a) i = Some k).
    { clear E I. induction S as [|[k0 c0] [i0 c1] l l' [H1 H2] S IH]; [destruct H|]. destruct H as [<-|H]; [exists i0; exact H1|apply IH; exact H]. }
    destruct X as [i Hi]. assert (In i (unknown_part (p_known p) e)) as X by (eapply unknown_part_In; [exact S|split; eassumption|exact H]). rewrite E in X. destruct X.
  - intros K. destruct (unknown_part (p_known p) e) as [|i l] eqn:E; [reflexivity|]. exfalso. destruct (unknown_unknown d e i S) as (k & [_ Hk] & Hd); [rewrite E; left; reflexivity|]. apply Hk, K, Hd.
Qed.
Lemma written_iff d e : Forall2 same_entry d e -> written order (p_known p) e = false <-> only_known a d.
Proof.
  intros S. rewrite <- (only_known_iff d e S). unfold written, unknowns. pose proof (O (unknown_part (p_known p) e)) as Q. split.
  - destruct (order (unknown_part (p_known p) e)) as [|i l]; [|discriminate]. intros _. apply Permutation_nil. exact Q.
  - intros E. rewrite E in Q |- *. apply Permutation_sym, Permutation_nil in Q. rewrite Q. reflexivity.
Qed.
Lemma semiknown_expr k c k2 : k <> k2 -> expr w (semiknown_equality (k, (c, k2))) = (w k - c * w k2)%Qc.
Proof. intros N. unfold semiknown_equality. cbn [fst snd]. unfold nset. cbn [set]. destruct (string_dec k2 k); [congruence|]. cbn [set]. rewrite !expr_cons, expr_nil. ring. Qed.
(** semiknown relations and equalities together *)
Lemma eqs_of_iff : (forall d, In d eqs_of -> expr w d = 0%Qc) <->
  ((forall k c k2, In (k, (c, k2)) (a_semiknown a) -> w k = (c * w k2)%Qc) /\ (forall d, In d (a_equalities a) -> expr w d = 0%Qc)).
Proof.
  split.
  - intros H. split.
    + intros k c k2 I. specialize (H (semiknown_equality (k, (c, k2)))). rewrite semiknown_expr in H by (apply (wl_semiknown a W) in I; apply I).
      assert (E : (w k - c * w k2)%Qc = 0%Qc) by (apply H; apply in_app_iff; right; apply in_map; exact I). replace (w k) with (w k - c * w k2 + c * w k2)%Qc by ring. rewrite E. ring.
    + intros d I. apply H. apply in_app_iff. left; exact I.
  - intros [H1 H2] d H. apply in_app_iff in H as [H|H]; [apply H2; exact H|]. apply in_map_iff in H as ([k [c k2]] & <- & H).
    rewrite semiknown_expr by (apply (wl_semiknown a W) in H; apply H). rewrite (H1 k c k2 H). ring.
Qed.
End Point.
End Order.
End Programme.
