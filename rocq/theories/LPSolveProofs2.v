From Coq Require Import List Arith Bool QArith Qcanon Lia Lqa Permutation.
From Verif Require Import MargModel FactorModel QcSum QcArith UniqueProofs Duality LPSolveModel LPSolveSpec LPSolveProofs.
Import ListNotations.
Open Scope nat_scope.
From Verif Require LPProofs.
Set Default Proof Using "All".

Lemma nth_map_d {A B} (f : A -> B) l i d d' : i < length l -> nth i (map f l) d = f (nth i l d').
Proof. intros I. rewrite (nth_indep (map f l) d (f d')) by (rewrite map_length; assumption). apply map_nth. Qed.

Lemma combine3_app (r1 r2 c1 c2 : list nat) (v1 v2 : list Qc) : length r1 = length c1 -> length r1 = length v1 ->
  combine (combine (r1 ++ r2) (c1 ++ c2)) (v1 ++ v2) = combine (combine r1 c1) v1 ++ combine (combine r2 c2) v2.
Proof. intros E1 E2. rewrite LPProofs.combine_app by assumption. apply LPProofs.combine_app. rewrite combine_length. lia. Qed.

Lemma kv_relaxed_rows n v : c_rows (kv_relaxed n v) = 2 * nnz v.
Proof. reflexivity. Qed.
Lemma vec_cols_length v : length (vec_cols v) = nnz v.
Proof. apply map_length. Qed.
Lemma vec_data_length v : length (vec_data v) = nnz v.
Proof. apply map_length. Qed.
Lemma kv_relaxed_ent n v : Permutation (c_ent (kv_relaxed n v))
  (combine (combine (seq 0 (2 * nnz v)) (vec_cols v ++ vec_cols v)) (repeat 1%Qc (2 * nnz v)) ++
   combine (combine (seq 0 (2 * nnz v)) (repeat n (2 * nnz v))) (repeat 1%Qc (nnz v) ++ repeat (- (1))%Qc (nnz v))).
Proof.
  unfold kv_relaxed. symmetry. rewrite <- (canonical_entries (Coo _ _ _)). cbn [c_ent].
  rewrite <- combine3_app.
  - rewrite <- app_assoc. rewrite (app_assoc (repeat 1%Qc (2 * nnz v))), <- repeat_app. replace (2 * nnz v + nnz v) with (3 * nnz v) by lia. reflexivity.
  - rewrite seq_length, app_length, vec_cols_length. lia.
  - rewrite seq_length, repeat_length. reflexivity. Qed.
Lemma nth_repeat_lt {A} (a : A) k i d : i < k -> nth i (repeat a k) d = a.
Proof. intros I. rewrite (nth_indep _ d a) by (rewrite repeat_length; assumption). apply nth_repeat. Qed.
Lemma act_kv_relaxed n v x : act (kv_relaxed n v) x = map (fun e => x (e_col e) + x n)%Qc (c_ent v) ++ map (fun e => x (e_col e) - x n)%Qc (c_ent v).
Proof.
  apply nth_ext with (d := 0%Qc) (d' := 0%Qc); [rewrite act_length, kv_relaxed_rows, app_length, !map_length; unfold nnz; lia|].
  intros i I. rewrite act_length in I. rewrite nth_act by assumption. rewrite kv_relaxed_rows in I.
  change (entry_sum (kv_relaxed n v) i x) with (entry_sum (Coo 0 0 (c_ent (kv_relaxed n v))) i x).
  rewrite (entry_sum_perm 0 0 0 0 _ _ i x (kv_relaxed_ent n v)), entry_sum_app.
  change i with (0 + i) at 1 2. rewrite !entry_sum_combine; rewrite ?app_length, ?repeat_length, ?vec_cols_length; try lia.
  rewrite !nth_repeat_lt by lia. assert (N : nnz v = length (c_ent v)) by reflexivity.
  set (d := (0, 0, 0%Qc) : entry).
  destruct (Nat.lt_ge_cases i (nnz v)) as [L|L].
  - rewrite !app_nth1 by (rewrite ?repeat_length, ?vec_cols_length, ?map_length; lia). rewrite nth_repeat_lt by assumption.
    unfold vec_cols. rewrite (nth_map_d e_col _ _ _ d) by lia. rewrite (nth_map_d _ _ _ _ d) by lia. ring.
  - rewrite !app_nth2 by (rewrite ?repeat_length, ?vec_cols_length, ?map_length; lia). rewrite repeat_length, vec_cols_length, map_length, <- N.
    rewrite nth_repeat_lt by lia.
    unfold vec_cols. rewrite (nth_map_d e_col _ _ _ d) by lia. rewrite (nth_map_d _ _ _ _ d) by lia. ring. Qed.
Lemma kv_relaxed_shape n v : (forall e, In e (c_ent v) -> e_col e < n) -> forall e, In e (c_ent (kv_relaxed n v)) -> e_row e < 2 * nnz v /\ e_col e < n + 1.
Proof.
  intros V e I. apply (Permutation_in _ (kv_relaxed_ent n v)) in I. apply in_app_or in I as [I|I]; destruct e as [[i j] u]; apply in_combine_l in I.
  - assert (I1 := in_combine_l _ _ _ _ I). assert (I2 := in_combine_r _ _ _ _ I). apply in_seq in I1. unfold e_row, e_col. cbn [fst snd].
    apply in_app_or in I2. assert (In j (vec_cols v)) as I2' by tauto. unfold vec_cols in I2'. apply in_map_iff in I2' as (e & <- & I2'). apply V in I2'. lia.
  - assert (I1 := in_combine_l _ _ _ _ I). assert (I2 := in_combine_r _ _ _ _ I). apply in_seq in I1. apply repeat_spec in I2. unfold e_row, e_col. cbn [fst snd]. lia. Qed.
Lemma expand_eq_shape n v : (forall e, In e (c_ent v) -> e_col e < n) -> forall e, In e (c_ent (expand_sparse_vec style_eq v)) -> e_row e < nnz v /\ e_col e < n.
Proof.
  intros V e I. rewrite expand_eq_entries in I. destruct e as [[i j] u]. apply in_combine_l in I.
  assert (I1 := in_combine_l _ _ _ _ I). assert (I2 := in_combine_r _ _ _ _ I). apply in_seq in I1. unfold e_row, e_col. cbn [fst snd].
  unfold vec_cols in I2. apply in_map_iff in I2 as (e & <- & I2). apply V in I2. lia. Qed.

(** ** what the preparation produces *)
Section Prepare.
Variables (n : nat) (a : lp_args).
Hypothesis OK : args_ok n a.
Let nv := if relaxed a then n + 1 else n.
Let ri := c_rows (inequalities a).
Let re := c_rows (equalities a).

Lemma blank_rows m : matrix_ok n m -> 0 < c_rows m -> c_cols m = n.
Proof. intros [[W|W] _ _] P; [assumption|]. subst m. cbn in P. lia. Qed.
Lemma mo_width_le m : matrix_ok n m -> c_cols m <= n.
Proof. intros [[W|W] _ _]; [lia|]. subst m. cbn. lia. Qed.

Record prepared (s : setup) : Prop := {
  p_cols : c_cols (s_matrix s) = nv;
  p_rows : c_rows (s_matrix s) = ri + re + (if relax_known_vars a then 2 * nnz (known_vars a) else nnz (known_vars a));
  p_shape : in_shape (s_matrix s);
  p_act : forall x, act (s_matrix s) x =
    map (fun i => entry_sum (inequalities a) i x + (if relax_inequalities a then x n else 0))%Qc (seq 0 ri) ++
    act (equalities a) x ++
    (if relax_known_vars a then map (fun e => x (e_col e) + x n)%Qc (c_ent (s_known s)) ++ map (fun e => x (e_col e) - x n)%Qc (c_ent (s_known s))
     else map (fun e => x (e_col e)) (c_ent (s_known s)));
  p_b : s_b s = repeat 0%Qc (ri + re) ++ (if relax_known_vars a then vec_data (s_known s) ++ vec_data (s_known s) else vec_data (s_known s));
  p_ineq : s_ineq s = ri;
  p_eq : s_eq s = if relax_known_vars a then re else re + nnz (known_vars a);
  p_known : s_known s = canonical_order (known_vars a);
  p_lower : s_lower s = canonical_order (lower_bounds a);
  p_upper : s_upper s = canonical_order (upper_bounds a);
  p_obj : Permutation (c_ent (s_obj s)) (c_ent (objective a)) /\ (c_cols (s_obj s) = n \/ (c_ent (s_obj s) = [] /\ c_cols (s_obj s) = nv))
}.

Lemma nnz_canonical v : nnz (canonical_order v) = nnz v.
Proof. unfold nnz. symmetry. apply Permutation_length, canonical_entries. Qed.

Theorem prepare_ok : exists s, prepare a = Some s /\ prepared s.
Proof.
  destruct OK as [NP OI OE SOME OKn OL OU OO].
  unfold prepare. rewrite (drop_zero_rows_ok n _ OI), (drop_zero_rows_ok n _ OE). cbn [bind].
  destruct (vstack_spec [inequalities a; equalities a] n) as (m0 & E0 & R0 & W0 & RO0 & A0 & C0).
  { repeat apply Forall_cons; [intros e I; apply (mo_rows _ _ OI e I)|intros e I; apply (mo_rows _ _ OE e I)|constructor]. }
  { repeat apply Forall_cons; [apply mo_width_le, OI|apply mo_width_le, OE|constructor]. }
  { destruct (Nat.eq_dec (c_rows (inequalities a)) 0) as [Z|Z].
    - exists (equalities a). split; [right; left; reflexivity|]. split; [lia|]. apply blank_rows; [assumption|lia].
    - exists (inequalities a). split; [left; reflexivity|]. split; [lia|]. apply blank_rows; [assumption|lia]. }
  rewrite E0. cbn [bind]. cbn [fold_right] in R0. fold ri re in R0. fold ri re. rewrite W0.
  assert (C0' : forall e, In e (c_ent m0) -> e_col e < n).
  { intros e I. apply C0 in I as (b & e' & [<-|[<-|[]]] & I & ->); [apply (mo_rows _ _ OI)|apply (mo_rows _ _ OE)]; assumption. }
  set (c1 := if relax_inequalities a then add_slack ri m0 else m0).
  assert (R1 : c_rows c1 = ri + re) by (unfold c1; destruct (relax_inequalities a); cbn; lia).
  assert (W1 : c_cols c1 = if relax_inequalities a then n + 1 else n) by (unfold c1; destruct (relax_inequalities a); cbn; lia).
  assert (S1 : forall e, In e (c_ent c1) -> e_row e < ri + re /\ e_col e < (if relax_inequalities a then n + 1 else n)).
  { intros e I. unfold c1 in I. destruct (relax_inequalities a).
    - cbn in I. apply in_app_or in I as [I|I]; [split; [apply RO0 in I; lia|apply C0' in I; lia]|].
      apply in_map_iff in I as (i & <- & I). apply in_seq in I. unfold e_row, e_col. cbn. lia.
    - split; [apply RO0 in I; lia|apply C0' in I; lia]. }
  assert (A1 : forall x, act c1 x = map (fun i => entry_sum (inequalities a) i x + (if relax_inequalities a then x n else 0))%Qc (seq 0 ri) ++ act (equalities a) x).
  { intros x. assert (AM := A0 x). cbn [map concat] in AM. rewrite app_nil_r in AM. unfold c1. destruct (relax_inequalities a).
    - unfold add_slack. unfold act at 1. cbn [c_rows]. rewrite R0. replace (ri + (re + 0)) with (ri + re) by lia. rewrite seq_app, map_app.
      assert (LI : length (act (inequalities a) x) = ri) by apply act_length.
      f_equal.
      + apply map_ext_in. intros i I. apply in_seq in I. rewrite entry_sum_app.
        rewrite (entry_sum_shape _ _ (c_rows m0) (c_cols m0) (c_ent m0)). destruct m0 as [mr mc me] eqn:EM. cbn [c_rows c_cols c_ent]. rewrite <- EM in *.
        replace (entry_sum m0 i x) with (entry_sum (inequalities a) i x).
        2: { rewrite <- (nth_act m0) by lia. rewrite AM, app_nth1 by lia. rewrite nth_act by (unfold ri in *; lia). reflexivity. }
        f_equal. assert (mc = n) by (rewrite EM in W0; exact W0). subst mc.
        unfold entry_sum. cbn [c_ent]. rewrite map_map. unfold e_row, e_val, e_col. cbn [fst snd].
        rewrite (sumQ_single Nat.eq_dec (seq 0 ri) i).
        * rewrite Nat.eqb_refl. ring.
        * apply seq_NoDup.
        * apply in_seq. lia.
        * intros k _ N. rewrite (proj2 (Nat.eqb_neq k i)) by auto. reflexivity.
      + cbn [Nat.add]. unfold act. fold re. replace (seq ri re) with (map (fun i => ri + i) (seq 0 re)).
        2: { clear. generalize re. intros k. assert (G : forall s, map (fun i => ri + i) (seq s k) = seq (ri + s) k). { induction k; intros s; [reflexivity|]. cbn. rewrite IHk. do 2 f_equal. lia. } rewrite G. f_equal. lia. }
        rewrite map_map. apply map_ext_in. intros i I. apply in_seq in I. rewrite entry_sum_app.
        rewrite (entry_sum_none _ _ (map _ _)) by (intros e K; apply in_map_iff in K as (k & <- & K); apply in_seq in K; unfold e_row; cbn; lia).
        rewrite (entry_sum_shape _ _ (c_rows m0) (c_cols m0) (c_ent m0)). destruct m0 as [mr mc me] eqn:EM. cbn [c_rows c_cols c_ent]. rewrite <- EM in *.
        replace (entry_sum m0 (ri + i) x) with (entry_sum (equalities a) i x); [ring|].
        rewrite <- (nth_act m0) by lia. rewrite AM, app_nth2 by lia. rewrite LI. replace (ri + i - ri) with i by lia. rewrite nth_act by (unfold re in *; lia). reflexivity.
    - rewrite AM. f_equal. unfold act. apply map_ext. intros. ring. }
  set (c2 := if relax_known_vars a then Coo (c_rows m0) (n + 1) (c_ent c1) else c1).
  assert (R2 : c_rows c2 = ri + re) by (unfold c2; destruct (relax_known_vars a); cbn [c_rows]; lia).
  assert (W2 : c_cols c2 = nv).
  { unfold c2, nv, relaxed. destruct (relax_known_vars a); cbn [orb c_cols]; [reflexivity|assumption]. }
  assert (S2 : forall e, In e (c_ent c2) -> e_row e < ri + re /\ e_col e < nv).
  { intros e I. assert (I' : In e (c_ent c1)) by (unfold c2 in I; destruct (relax_known_vars a); exact I). apply S1 in I'. unfold nv, relaxed. destruct (relax_known_vars a), (relax_inequalities a); cbn [orb]; lia. }
  assert (A2 : forall x, act c2 x = act c1 x).
  { intros x. unfold c2. destruct (relax_known_vars a); [|reflexivity]. unfold act. cbn [c_rows]. rewrite R1, R0. replace (ri + (re + 0)) with (ri + re) by lia. reflexivity. }
  set (known := canonical_order (known_vars a)).
  assert (KC : forall e, In e (c_ent known) -> e_col e < n).
  { intros e I. apply (Permutation_in _ (Permutation_sym (canonical_entries _))) in I. apply (vo_rows _ _ OKn e I). }
  set (kv := if relax_known_vars a then kv_relaxed n known else expand_sparse_vec style_eq known).
  assert (RK : c_rows kv = if relax_known_vars a then 2 * nnz (known_vars a) else nnz (known_vars a)).
  { unfold kv. destruct (relax_known_vars a); [rewrite kv_relaxed_rows|cbn [expand_sparse_vec c_rows]]; unfold known; rewrite nnz_canonical; reflexivity. }
  assert (WK : c_cols kv <= nv).
  { unfold kv, nv, relaxed. destruct (relax_known_vars a); cbn [orb]; [cbn; lia|]. cbn. destruct (vo_width _ _ OKn) as [W|W]; [rewrite W; destruct (relax_inequalities a); lia|].
    rewrite W. cbn. lia. }
  assert (SK : forall e, In e (c_ent kv) -> e_row e < c_rows kv /\ e_col e < nv).
  { intros e I. unfold kv, nv, relaxed in *. destruct (relax_known_vars a); cbn [orb].
    - apply (kv_relaxed_shape n known KC) in I. assumption.
    - apply (expand_eq_shape n known KC) in I. change (c_rows (expand_sparse_vec style_eq known)) with (nnz known). destruct (relax_inequalities a); lia. }
  destruct (vstack_spec [c2; kv] nv) as (full & EF & RF & WF & ROF & AF & CF).
  { repeat apply Forall_cons; [intros e I; apply S2 in I; lia|intros e I; apply SK in I; lia|constructor]. }
  { repeat apply Forall_cons; [lia|assumption|constructor]. }
  { exists c2. split; [left; reflexivity|]. split; [|assumption]. unfold ri, re in *. lia. }
  rewrite EF. cbn [bind]. eexists. split; [reflexivity|]. constructor; cbn [s_matrix s_b s_ineq s_eq s_known s_lower s_upper s_obj].
  - assumption.
  - rewrite RF. cbn [fold_right]. lia.
  - intros e I. split; [apply ROF; assumption|]. rewrite WF. apply CF in I as (b & e' & [<-|[<-|[]]] & I & ->); [apply S2|apply SK]; assumption.
  - intros x. rewrite AF. cbn [map concat]. rewrite app_nil_r, A2, A1, <- app_assoc. do 2 f_equal.
    unfold kv. destruct (relax_known_vars a); [apply act_kv_relaxed|apply act_expand_eq].
  - rewrite R0. replace (ri + (re + 0)) with (ri + re) by lia. destruct (relax_known_vars a); reflexivity.
  - reflexivity.
  - unfold known. rewrite nnz_canonical. reflexivity.
  - reflexivity.
  - reflexivity.
  - reflexivity.
  - destruct (vo_width _ _ OO) as [W|W].
    + assert (CC : c_cols (canonical_order (objective a)) = n) by exact W. rewrite CC. rewrite (proj2 (Nat.eqb_neq n 0)) by lia.
      split; [symmetry; apply canonical_entries|left; assumption].
    + rewrite W. cbn. split; [constructor|right; split; [reflexivity|assumption]]. Qed.
End Prepare.
