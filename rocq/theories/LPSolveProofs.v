From Coq Require Import List Arith Bool QArith Qcanon Lia Lqa Permutation Sorting.Sorted.
From Verif Require Import MargModel FactorModel QcSum QcArith UniqueProofs Duality LPSolveModel LPSolveSpec.
Import ListNotations.
Open Scope nat_scope.
From Verif Require CliqueProofs LPProofs.
Set Default Proof Using "All".

(** ** Sparse matrices as lists of row values *)
Definition act (m : coo) (x : nat -> Qc) : list Qc := map (fun i => entry_sum m i x) (seq 0 (c_rows m)).
Lemma act_length m x : length (act m x) = c_rows m.
Proof. unfold act. rewrite map_length, seq_length. reflexivity. Qed.
Lemma nth_act m x i : i < c_rows m -> nth i (act m x) 0%Qc = entry_sum m i x.
Proof. intros I. unfold act. rewrite nth_indep with (d' := entry_sum m 0 x) by (rewrite map_length, seq_length; assumption).
  rewrite (map_nth (fun i => entry_sum m i x)), seq_nth by assumption. reflexivity. Qed.
Definition in_shape (m : coo) : Prop := forall e, In e (c_ent m) -> e_row e < c_rows m /\ e_col e < c_cols m.
Definition rows_ok (m : coo) : Prop := forall e, In e (c_ent m) -> e_row e < c_rows m.

Lemma entry_sum_perm r c r' c' es es' i x : Permutation es es' -> entry_sum (Coo r c es) i x = entry_sum (Coo r' c' es') i x.
Proof. intros P. unfold entry_sum. cbn [c_ent]. apply sumQ_perm, Permutation_map, P. Qed.
Lemma entry_sum_app r c es es' i x : entry_sum (Coo r c (es ++ es')) i x = (entry_sum (Coo r c es) i x + entry_sum (Coo r c es') i x)%Qc.
Proof. unfold entry_sum. cbn [c_ent]. rewrite map_app, sumQ_app. reflexivity. Qed.
Lemma entry_sum_none r c es i x : (forall e, In e es -> e_row e <> i) -> entry_sum (Coo r c es) i x = 0%Qc.
Proof. intros N. unfold entry_sum. apply sumQ_zero. cbn [c_ent]. intros e I. rewrite (proj2 (Nat.eqb_neq _ _)) by auto. reflexivity. Qed.
Lemma entry_sum_shape r c r' c' es i x : entry_sum (Coo r c es) i x = entry_sum (Coo r' c' es) i x.
Proof. reflexivity. Qed.
Lemma entry_sum_shift r c k es i x : entry_sum (Coo r c (map (fun e => (e_row e + k, e_col e, e_val e)) es)) (k + i) x = entry_sum (Coo r c es) i x.
Proof. unfold entry_sum. cbn [c_ent]. rewrite map_map. f_equal. apply map_ext. intros e. unfold e_row at 1, e_col at 1, e_val at 1. cbn [fst snd].
  replace (e_row e + k =? k + i) with (e_row e =? i); [reflexivity|]. destruct (Nat.eqb_spec (e_row e) i), (Nat.eqb_spec (e_row e + k) (k + i)); lia. Qed.

Lemma e_insert_perm a l : Permutation (a :: l) (e_insert a l).
Proof. induction l as [|b l IH]; [reflexivity|]. cbn [e_insert]. destruct (e_le a b); [reflexivity|]. rewrite perm_swap. constructor. assumption. Qed.
Lemma e_sort_perm l : Permutation l (e_sort l).
Proof. induction l as [|a l IH]; [constructor|]. cbn [e_sort fold_right]. rewrite <- e_insert_perm. constructor. assumption. Qed.
Lemma canonical_entries m : Permutation (c_ent m) (c_ent (canonical_order m)).
Proof. apply e_sort_perm. Qed.

(** ** drop_zero_rows is the identity on matrices without empty rows *)
Lemma drop_zero_rows_ok n m : matrix_ok n m -> drop_zero_rows m = Some m.
Proof.
  intros [W R F]. unfold drop_zero_rows.
  assert (NZ : np_unique Nat.compare (map e_row (c_ent m)) = seq 0 (c_rows m)).
  { apply CliqueProofs.SS_lt_ext.
    - pose proof (np_unique_sorted Nat.compare nat_good_cmp (map e_row (c_ent m))) as SS.
      clear - SS. induction SS as [|a l SS IH F]; constructor; [assumption|]. eapply Forall_impl; [|exact F]. intros b B. cbn in B. apply Nat.compare_lt_iff in B. assumption.
    - apply CliqueProofs.SS_seq.
    - intros i. rewrite (np_unique_in Nat.compare nat_good_cmp). rewrite in_map_iff, in_seq. split.
      + intros (e & <- & I). apply R in I. lia.
      + intros I. destruct (F i ltac:(lia)) as (e & I1 & I2). eauto. }
  rewrite NZ, seq_length, Nat.eqb_refl. destruct m as [r c es]. cbn [c_rows c_cols c_ent] in *. f_equal. f_equal.
  rewrite <- (map_id es) at 2. apply map_ext_in. intros e I. apply R in I as (I & _).
  pose proof (index_of_nth Nat.eqb Nat.eqb_eq (seq 0 r) 0 (e_row e) (seq_NoDup r 0)) as X. rewrite seq_length, seq_nth in X by assumption. cbn [Nat.add] in X.
  rewrite X by assumption. destruct e as [[i j] v]. reflexivity. Qed.

(** ** vstack *)
Definition stack_fold (bl : list coo) (acc : nat * nat * list entry) : nat * nat * list entry :=
  fold_left (fun '(r, c, es) m =>
        (r + c_rows m, Nat.max c (c_cols m), es ++ map (fun e => (e_row e + r, e_col e, e_val e)) (c_ent m))) bl acc.
Lemma stack_fold_spec bl : Forall rows_ok bl -> forall r c es, (forall e, In e es -> e_row e < r) ->
  exists r' c' es', stack_fold bl (r, c, es) = (r', c', es') /\ r' = r + fold_right (fun m k => c_rows m + k) 0 bl /\
    c' = fold_right (fun m k => Nat.max (c_cols m) k) c bl /\ (forall e, In e es' -> e_row e < r') /\
    (forall x, act (Coo r' c' es') x = act (Coo r c es) x ++ concat (map (fun m => act m x) bl)) /\
    (forall e, In e es' -> (exists e', In e' es /\ e_col e = e_col e') \/ exists m e', In m bl /\ In e' (c_ent m) /\ e_col e = e_col e').
Proof.
  induction bl as [|m bl IH]; intros OK r c es R.
  - exists r, c, es. split; [reflexivity|]. cbn. split; [lia|]. split; [reflexivity|]. split; [assumption|]. split; [intros; rewrite app_nil_r; reflexivity|]. eauto.
  - inversion OK as [|? ? OKm OKb]; subst. cbn [stack_fold fold_left].
    set (es1 := es ++ map (fun e => (e_row e + r, e_col e, e_val e)) (c_ent m)).
    assert (R1 : forall e, In e es1 -> e_row e < r + c_rows m).
    { intros e I. unfold es1 in I. apply in_app_or in I as [I|I]; [apply R in I; lia|]. apply in_map_iff in I as (e' & <- & I). apply OKm in I. unfold e_row at 1. cbn. lia. }
    destruct (IH OKb (r + c_rows m) (Nat.max c (c_cols m)) es1 R1) as (r' & c' & es' & E & Er & Ec & R' & A & C).
    exists r', c', es'. split; [assumption|]. split; [cbn [fold_right]; lia|]. split.
    { rewrite Ec. cbn [fold_right]. clear. induction bl as [|b bl IH]; cbn [fold_right]; lia. }
    split; [assumption|]. split.
    + intros x. rewrite A. cbn [map concat]. rewrite app_assoc. f_equal.
      unfold act. cbn [c_rows]. rewrite seq_app, map_app. f_equal.
      * apply map_ext_in. intros i I. apply in_seq in I. unfold es1. rewrite entry_sum_app. rewrite (entry_sum_none _ _ (map _ _)).
        { rewrite (entry_sum_shape _ _ r c). ring. }
        intros e K. apply in_map_iff in K as (e' & <- & K). unfold e_row at 1. cbn. lia.
      * cbn [Nat.add]. rewrite <- (map_id (seq r (c_rows m))). replace (seq r (c_rows m)) with (map (fun i => r + i) (seq 0 (c_rows m))).
        2: { clear. generalize (c_rows m). intros k. assert (G : forall s, map (fun i => r + i) (seq s k) = seq (r + s) k). { induction k; intros s; [reflexivity|]. cbn. rewrite IHk. do 2 f_equal. lia. } rewrite G. f_equal. lia. }
        rewrite !map_map. apply map_ext. intros i. unfold es1. rewrite entry_sum_app, entry_sum_none, entry_sum_shift.
        { destruct m as [mr mc me]. cbn [c_ent]. rewrite (entry_sum_shape _ _ mr mc). ring. }
        intros e K. apply R in K. lia.
    + intros e I. apply C in I as [(e' & I & E')|(m' & e' & I1 & I2 & E')].
      * unfold es1 in I. apply in_app_or in I as [I|I]; [left; eauto|]. apply in_map_iff in I as (e'' & <- & I). right. exists m, e''.
        split; [left; reflexivity|]. split; [assumption|]. rewrite E'. reflexivity.
      * right. exists m', e'. split; [right; assumption|]. auto. Qed.

Lemma vstack_spec bl w : Forall rows_ok bl -> Forall (fun m => c_cols m <= w) bl -> (exists m, In m bl /\ 0 < c_rows m /\ c_cols m = w) ->
  exists m, vstack bl = Some m /\ c_rows m = fold_right (fun b k => c_rows b + k) 0 bl /\ c_cols m = w /\ rows_ok m /\
    (forall x, act m x = concat (map (fun b => act b x) bl)) /\
    (forall e, In e (c_ent m) -> exists b e', In b bl /\ In e' (c_ent b) /\ e_col e = e_col e').
Proof.
  intros OK W (m0 & I0 & P0 & W0). unfold vstack.
  destruct (filter (fun m => negb (c_rows m =? 0)) bl) as [|m1 [|m2 L]] eqn:F.
  - exfalso. assert (In m0 (filter (fun m => negb (c_rows m =? 0)) bl)) as X. { apply filter_In. split; [assumption|]. apply negb_true_iff, Nat.eqb_neq. lia. }
    rewrite F in X. destruct X.
  - exists m1. split; [reflexivity|].
    assert (m1 = m0). { assert (In m0 [m1]) as X. { rewrite <- F. apply filter_In. split; [assumption|]. apply negb_true_iff, Nat.eqb_neq. lia. } destruct X as [X|[]]; assumption. }
    subst m1. split; [|split; [assumption|split; [rewrite Forall_forall in OK; auto|split]]].
    + clear - F. revert F. generalize dependent m0. induction bl as [|b bl IH]; intros m0 F; cbn [filter] in F; [discriminate|]. cbn [fold_right].
      destruct (Nat.eqb_spec (c_rows b) 0) as [Z|Z]; cbn in F.
      * rewrite (IH _ F), Z. reflexivity.
      * inversion F; subst b. assert (fold_right (fun b k => c_rows b + k) 0 bl = 0) as ->; [|lia].
        clear - H1. induction bl as [|b bl IH]; [reflexivity|]. cbn [filter] in H1. destruct (Nat.eqb_spec (c_rows b) 0) as [Z|Z]; cbn in H1; [|discriminate]. cbn. rewrite Z. auto.
    + intros x. clear - F. revert F. generalize dependent m0. induction bl as [|b bl IH]; intros m0 F; cbn [filter] in F; [discriminate|]. cbn [map concat].
      destruct (Nat.eqb_spec (c_rows b) 0) as [Z|Z]; cbn in F.
      * rewrite <- (IH _ F). unfold act at 2. rewrite Z. reflexivity.
      * inversion F; subst b. assert (concat (map (fun b => act b x) bl) = []) as ->; [|rewrite app_nil_r; reflexivity].
        clear - H1. induction bl as [|b bl IH]; [reflexivity|]. cbn [filter] in H1. destruct (Nat.eqb_spec (c_rows b) 0) as [Z|Z]; cbn in H1; [|discriminate]. cbn. unfold act at 1. rewrite Z. cbn. auto.
    + intros e I. exists m0, e. auto.
  - destruct (stack_fold_spec bl OK 0 0 [] ltac:(intros ? [])) as (r & c & es & E & Er & Ec & R & A & C).
    match goal with |- context [fold_left ?f bl ?z] => change (fold_left f bl z) with (stack_fold bl (0, 0, [])) end. rewrite E. exists (Coo r c es). split; [reflexivity|]. cbn [c_rows c_cols]. split; [lia|]. split; [|split; [exact R|split]].
    + rewrite Ec. clear - W I0 W0. induction bl as [|b bl IH]; [destruct I0|]. inversion W; subst. cbn [fold_right]. destruct I0 as [->|I0].
      * assert (fold_right (fun m k => Nat.max (c_cols m) k) 0 bl <= c_cols m0); [|lia]. clear - H2. induction bl; cbn; [lia|]. inversion H2; subst. specialize (IHbl H3). lia.
      * rewrite IH by auto. lia.
    + intros x. rewrite A. reflexivity.
    + intros e I. apply C in I as [(? & [] & _)|X]. exact X. Qed.

(** ** expand_sparse_vec and the relaxed rows *)
Lemma entry_sum_combine r c (cs : list nat) (vs : list Qc) x : forall k L s, length cs = L -> length vs = L -> k < L ->
  entry_sum (Coo r c (combine (combine (seq s L) cs) vs)) (s + k) x = (nth k vs 0 * x (nth k cs 0%nat))%Qc.
Proof.
  revert vs. induction cs as [|j cs IH]; intros vs k L s; cbn [length]; intros <- EV K; [lia|]. destruct vs as [|v vs]; [discriminate|].
  cbn [length] in EV. injection EV as EV. cbn [seq combine]. change ((s, j, v) :: ?l) with ([(s, j, v)] ++ l). rewrite entry_sum_app. destruct k as [|k].
  - rewrite Nat.add_0_r. rewrite entry_sum_none with (es := combine _ vs).
    + unfold entry_sum. cbn. rewrite Nat.eqb_refl. cbn [e_col e_val fst snd]. cbn. ring.
    + intros e I. destruct e as [[i' j'] v']. apply in_combine_l in I. apply in_combine_l in I. apply in_seq in I. unfold e_row. cbn. lia.
  - rewrite entry_sum_none with (es := [(s, j, v)]) by (intros e [<-|[]]; unfold e_row; cbn; lia).
    replace (s + S k) with (S s + k) by lia. rewrite IH by (auto; lia). cbn [nth]. ring. Qed.

Lemma expand_eq_entries v : c_ent (expand_sparse_vec style_eq v) = combine (combine (seq 0 (nnz v)) (vec_cols v)) (repeat 1%Qc (nnz v)).
Proof.
  cbn [expand_sparse_vec c_ent]. unfold nnz, vec_cols. generalize (c_ent v). intros es. generalize 0 at 1 2 as s. induction es as [|e es IH]; intros s; [reflexivity|].
  cbn [length seq combine map repeat]. rewrite IH. reflexivity. Qed.
Lemma act_expand_eq v x : act (expand_sparse_vec style_eq v) x = map (fun e => x (e_col e)) (c_ent v).
Proof.
  assert (L : c_rows (expand_sparse_vec style_eq v) = nnz v) by reflexivity.
  apply nth_ext with (d := 0%Qc) (d' := 0%Qc); [rewrite act_length, map_length; exact L|].
  intros i I. rewrite act_length in I. rewrite nth_act by assumption. rewrite L in I.
  change (entry_sum (expand_sparse_vec style_eq v) i x) with (entry_sum (Coo 0 0 (c_ent (expand_sparse_vec style_eq v))) i x). rewrite expand_eq_entries. change i with (0 + i) at 1. rewrite (entry_sum_combine 0 0 (vec_cols v) (repeat 1%Qc (nnz v)) x i (nnz v) 0).
  - unfold vec_cols. rewrite (nth_indep (map (fun e => x (e_col e)) (c_ent v)) 0%Qc (x 0)) by (rewrite map_length; exact I).
    rewrite <- (map_map e_col x), map_nth. replace (nth i (repeat 1%Qc (nnz v)) 0%Qc) with 1%Qc; [ring|].
    rewrite (nth_indep _ 0%Qc 1%Qc) by (rewrite repeat_length; assumption). symmetry. apply nth_repeat.
  - unfold vec_cols. apply map_length.
  - apply repeat_length.
  - assumption. Qed.
