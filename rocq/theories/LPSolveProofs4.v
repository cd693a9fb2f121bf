From Coq Require Import List Arith Bool QArith Qcanon Lia Lqa Permutation.
From Verif Require Import MargModel FactorModel QcSum QcArith UniqueProofs Duality LPSolveModel LPSolveSpec LPSolveProofs LPSolveProofs2 LPSolveProofs3.
Import ListNotations.
Open Scope nat_scope.
From Verif Require LPProofs.
Set Default Proof Using "All".

Section Solve.
Variables (n : nat) (a : lp_args) (s : setup).
Hypothesis OK : args_ok n a.
Hypothesis P : prepared n a s.
Let nv := if relaxed a then n + 1 else n.
Let ri := c_rows (inequalities a).
Let re := c_rows (equalities a).

(** kind and right-hand side of each row of the constraints, and of the rows for bounds *)
Definition main_rows : list (kind * Qc) :=
  repeat (AtLeast, 0%Qc) ri ++ repeat (Equal, 0%Qc) re ++
  (if relax_known_vars a then map (fun e => (AtLeast, e_val e)) (c_ent (s_known s)) ++ map (fun e => (AtMost, e_val e)) (c_ent (s_known s))
   else map (fun e => (Equal, e_val e)) (c_ent (s_known s))).
Definition bound_rows : list (kind * Qc) :=
  map (fun e => (AtLeast, e_val e)) (c_ent (s_lower s)) ++ map (fun e => (AtLeast, - e_val e)%Qc) (c_ent (s_upper s)).
Definition holds_row (r : kind * Qc) (v : Qc) : Prop := holds (fst r) v (snd r).

Lemma in_known e : In e (c_ent (s_known s)) <-> In e (c_ent (known_vars a)).
Proof. rewrite (p_known _ _ _ P). split; apply Permutation_in; [symmetry|]; apply canonical_entries. Qed.
Lemma in_lower e : In e (c_ent (s_lower s)) <-> In e (c_ent (lower_bounds a)).
Proof. rewrite (p_lower _ _ _ P). split; apply Permutation_in; [symmetry|]; apply canonical_entries. Qed.
Lemma in_upper e : In e (c_ent (s_upper s)) <-> In e (c_ent (upper_bounds a)).
Proof. rewrite (p_upper _ _ _ P). split; apply Permutation_in; [symmetry|]; apply canonical_entries. Qed.
Lemma nd_known : NoDup (vec_cols (s_known s)).
Proof. rewrite (p_known _ _ _ P). eapply Permutation_NoDup; [apply Permutation_map, canonical_entries|]. apply (vo_nodup _ _ (ao_known _ _ OK)). Qed.
Lemma nd_lower : NoDup (vec_cols (s_lower s)).
Proof. rewrite (p_lower _ _ _ P). eapply Permutation_NoDup; [apply Permutation_map, canonical_entries|]. apply (vo_nodup _ _ (ao_lower _ _ OK)). Qed.
Lemma nd_upper : NoDup (vec_cols (s_upper s)).
Proof. rewrite (p_upper _ _ _ P). eapply Permutation_NoDup; [apply Permutation_map, canonical_entries|]. apply (vo_nodup _ _ (ao_upper _ _ OK)). Qed.
Lemma nnz_known : nnz (s_known s) = nnz (known_vars a).
Proof. rewrite (p_known _ _ _ P). apply (nnz_canonical n a OK). Qed.

Lemma main_rows_length : length main_rows = c_rows (s_matrix s).
Proof. rewrite (p_rows _ _ _ P). unfold main_rows. rewrite !app_length, !repeat_length. fold ri re.
  destruct (relax_known_vars a); rewrite ?app_length, !map_length; change (length (c_ent (s_known s))) with (nnz (s_known s)); rewrite nnz_known; lia. Qed.

(** the constraint rows say what the arguments say *)
Lemma main_rows_meaning x : Forall2 holds_row main_rows (act (s_matrix s) x) <->
  (forall i, i < ri -> (0 <= entry_sum (inequalities a) i x + (if relax_inequalities a then x n else 0))%Qc) /\
  (forall i, i < re -> entry_sum (equalities a) i x = 0%Qc) /\
  (forall e, In e (c_ent (known_vars a)) -> if relax_known_vars a then (e_val e <= x (e_col e) + x n)%Qc /\ (x (e_col e) - x n <= e_val e)%Qc else x (e_col e) = e_val e).
Proof.
  rewrite (p_act _ _ _ P). unfold main_rows. fold ri.
  rewrite Forall2_app_iff by (rewrite repeat_length, map_length, seq_length; reflexivity).
  rewrite Forall2_app_iff by (rewrite repeat_length, act_length; reflexivity).
  rewrite Forall2_repeat_iff. unfold act. fold re. rewrite Forall2_repeat_iff. unfold holds_row. cbn [fst snd holds].
  assert (G : Forall2 holds_row (if relax_known_vars a then map (fun e => (AtLeast, e_val e)) (c_ent (s_known s)) ++ map (fun e => (AtMost, e_val e)) (c_ent (s_known s)) else map (fun e => (Equal, e_val e)) (c_ent (s_known s)))
      (if relax_known_vars a then map (fun e => (x (e_col e) + x n)%Qc) (c_ent (s_known s)) ++ map (fun e => (x (e_col e) - x n)%Qc) (c_ent (s_known s)) else map (fun e => x (e_col e)) (c_ent (s_known s))) <->
    (forall e, In e (c_ent (known_vars a)) -> if relax_known_vars a then (e_val e <= x (e_col e) + x n)%Qc /\ (x (e_col e) - x n <= e_val e)%Qc else x (e_col e) = e_val e)).
  { destruct (relax_known_vars a).
    - rewrite Forall2_app_iff by (rewrite !map_length; reflexivity). rewrite !Forall2_map_iff. unfold holds_row. cbn [fst snd holds]. split.
      + intros (H1 & H2) e I. apply in_known in I. auto.
      + intros H. split; intros e I; apply in_known in I; apply (H e I).
    - rewrite Forall2_map_iff. unfold holds_row. cbn [fst snd holds]. split; intros H e I; apply H, in_known, I. }
  unfold holds_row in G. rewrite G. tauto. Qed.

(** ** the dual task *)
Definition costs : list Qc := if relaxed a then set_last (repeat 0%Qc nv) (- (1))%Qc else dense (s_obj s).
Definition key_of (k : kind) : boundkey := match k with AtLeast => up | Equal => fr | AtMost => lo end.

Lemma dual_matrix_ok : exists dm,
  (if 0 <? nnz (s_lower s) + nnz (s_upper s)
   then vstack [s_matrix s; expand_sparse_vec style_eq (s_lower s); neg_data (expand_sparse_vec style_eq (s_upper s))]
   else Some (s_matrix s)) = Some dm /\ in_shape dm /\ c_cols dm = nv /\ c_rows dm = c_rows (s_matrix s) + (nnz (s_lower s) + nnz (s_upper s)) /\
  forall x, act dm x = act (s_matrix s) x ++ map (fun e => x (e_col e)) (c_ent (s_lower s)) ++ map (fun e => - x (e_col e))%Qc (c_ent (s_upper s)).
Proof.
  assert (NVn : n <= nv) by (unfold nv; destruct (relaxed a); lia).
  destruct (Nat.ltb_spec 0 (nnz (s_lower s) + nnz (s_upper s))) as [B|B].
  - set (lm := expand_sparse_vec style_eq (s_lower s)). set (um := neg_data (expand_sparse_vec style_eq (s_upper s))).
    assert (LC : forall e, In e (c_ent (s_lower s)) -> e_col e < n) by (intros e I; apply in_lower in I; apply (vo_rows _ _ (ao_lower _ _ OK) e I)).
    assert (UC : forall e, In e (c_ent (s_upper s)) -> e_col e < n) by (intros e I; apply in_upper in I; apply (vo_rows _ _ (ao_upper _ _ OK) e I)).
    assert (SL : forall e, In e (c_ent lm) -> e_row e < nnz (s_lower s) /\ e_col e < n) by (apply expand_eq_shape, LC).
    assert (SU : forall e, In e (c_ent um) -> e_row e < nnz (s_upper s) /\ e_col e < n).
    { intros e I. unfold um, neg_data in I. cbn [c_ent] in I. apply in_map_iff in I as (e' & <- & I). apply (expand_eq_shape n _ UC) in I. exact I. }
    assert (WL : forall v, vector_ok n v -> c_cols v <= n) by (intros v [[W|W] _ _]; [lia|subst v; cbn; lia]).
    destruct (vstack_spec [s_matrix s; lm; um] nv) as (dm & E & R & W & RO & AC & CO).
    + apply Forall_cons; [intros e I; apply (p_shape _ _ _ P e I)|]. apply Forall_cons; [intros e I; apply SL in I; exact (proj1 I)|]. apply Forall_cons; [intros e I; apply SU in I; exact (proj1 I)|constructor].
    + apply Forall_cons; [rewrite (p_cols _ _ _ P); fold nv; lia|]. apply Forall_cons; [|apply Forall_cons; [|constructor]].
      * unfold lm. cbn [expand_sparse_vec c_cols]. rewrite (p_lower _ _ _ P). cbn [canonical_order c_cols]. specialize (WL _ (ao_lower _ _ OK)). lia.
      * unfold um, neg_data. cbn [expand_sparse_vec c_cols]. rewrite (p_upper _ _ _ P). cbn [canonical_order c_cols]. specialize (WL _ (ao_upper _ _ OK)). lia.
    + exists (s_matrix s). split; [left; reflexivity|]. split; [rewrite (p_rows _ _ _ P); pose proof (ao_some _ _ OK); lia|apply (p_cols _ _ _ P)].
    + exists dm. split; [assumption|]. split; [|split; [assumption|split]].
      * intros e I. split; [apply RO, I|]. rewrite W. apply CO in I as (b & e' & [<-|[<-|[<-|[]]]] & I & ->).
        -- destruct (p_shape _ _ _ P _ I) as (_ & C). rewrite (p_cols _ _ _ P) in C. exact C.
        -- apply SL in I. lia.
        -- apply SU in I. lia.
      * rewrite R. cbn [fold_right]. change (c_rows lm) with (nnz (s_lower s)). change (c_rows um) with (nnz (s_upper s)). lia.
      * intros x. rewrite AC. cbn [map concat]. rewrite app_nil_r. f_equal. unfold lm. rewrite act_expand_eq. f_equal.
        transitivity (map Qcopp (act (expand_sparse_vec style_eq (s_upper s)) x)).
        -- unfold um, neg_data, act. cbn [c_rows]. rewrite map_map. apply map_ext. intros i. unfold entry_sum. cbn [c_ent]. rewrite map_map.
           transitivity (- (1) * sumQ (map (fun e => if e_row e =? i then e_val e * x (e_col e) else 0) (c_ent (expand_sparse_vec style_eq (s_upper s)))))%Qc; [|ring].
           rewrite <- sumQ_scale. apply sumQ_ext. intros [[r c] u] _. unfold e_row, e_col, e_val. cbn [fst snd]. destruct (r =? i); ring.
        -- rewrite act_expand_eq, map_map. reflexivity.
  - exists (s_matrix s). split; [reflexivity|]. split; [apply (p_shape _ _ _ P)|]. split; [apply (p_cols _ _ _ P)|]. split; [lia|].
    intros x. unfold nnz in B. destruct (c_ent (s_lower s)), (c_ent (s_upper s)); cbn in B; try lia. cbn. rewrite app_nil_r. reflexivity. Qed.

Lemma nv_pos : 0 < nv.
Proof. pose proof (ao_pos _ _ OK). unfold nv. destruct (relaxed a); lia. Qed.
Lemma costs_length : length costs = nv.
Proof. unfold costs, nv. destruct (relaxed a) eqn:R; [unfold set_last; rewrite set_nth_length, repeat_length; reflexivity|]. unfold dense. rewrite map_length, seq_length.
  destruct (proj2 (p_obj _ _ _ P)) as [W|(_ & W)]; [assumption|]. rewrite R in W. assumption. Qed.

(** the relaxed cost vector picks the slack; otherwise it is the objective *)
Lemma costs_value x : sumn nv (fun j => nth j costs 0 * x j)%Qc = problem_value a x (x n).
Proof.
  unfold problem_value, costs. destruct (relaxed a) eqn:R.
  - assert (NV : nv = n + 1) by (unfold nv; rewrite ?R; reflexivity). rewrite (sumn_single nv n); [|lia|].
    + unfold set_last. rewrite repeat_length, nth_set_nth by (rewrite repeat_length; lia). rewrite NV. replace (n + 1 - 1) with n by lia. rewrite Nat.eqb_refl. ring.
    + intros i I N. unfold set_last. rewrite repeat_length, nth_set_nth by (rewrite repeat_length; lia). rewrite NV. replace (n + 1 - 1) with n by lia.
      rewrite (proj2 (Nat.eqb_neq n i)) by auto. rewrite nth_repeat. ring.
  - assert (NV : nv = n) by (unfold nv; rewrite ?R; reflexivity). destruct (p_obj _ _ _ P) as (PO & W). assert (CW : c_cols (s_obj s) = n).
    { destruct W as [W|(_ & W)]; [assumption|]. rewrite R in W. assumption. }
    unfold objective_at. rewrite <- (sumQ_perm _ _ (Permutation_map (fun e => e_val e * x (e_col e))%Qc PO)).
    assert (OC : forall e, In e (c_ent (s_obj s)) -> e_col e < n).
    { intros e I. apply (Permutation_in _ PO) in I. apply (vo_rows _ _ (ao_obj _ _ OK) e I). }
    rewrite NV. transitivity (sumn n (fun j => sumQ (map (fun e => (if e_col e =? j then e_val e else 0) * x j) (c_ent (s_obj s)))))%Qc.
    + apply sumn_ext. intros j J. unfold dense. rewrite CW, nth_map_seq_d by assumption. rewrite Qcmult_comm, <- sumQ_scale. apply sumQ_ext. intros. ring.
    + clear - OC. unfold sumn. rewrite sumQ_swap with (f := fun j e => ((if e_col e =? j then e_val e else 0) * x j)%Qc). apply sumQ_ext. intros e I.
      apply OC in I. fold (sumn n (fun j => (if e_col e =? j then e_val e else 0) * x j)%Qc). rewrite (sumn_single n (e_col e)); [rewrite Nat.eqb_refl; reflexivity|assumption|].
      intros j _ N. rewrite (proj2 (Nat.eqb_neq (e_col e) j)) by auto. ring. Qed.

Definition all_rows : list (kind * Qc) := main_rows ++ bound_rows.
Definition row_kind (i : nat) : kind := fst (nth i all_rows (Equal, 0%Qc)).
Definition row_rhs (i : nat) : Qc := snd (nth i all_rows (Equal, 0%Qc)).
Definition cost (j : nat) : Qc := nth j costs 0%Qc.

Lemma all_rows_length : length all_rows = c_rows (s_matrix s) + (nnz (s_lower s) + nnz (s_upper s)).
Proof. unfold all_rows, bound_rows. rewrite !app_length, main_rows_length, !map_length. reflexivity. Qed.

Lemma map_repeat {A B} (f : A -> B) v k : map f (repeat v k) = repeat (f v) k.
Proof. clear. induction k; cbn; congruence. Qed.
Lemma map_const {A B} (f : A -> B) v l : (forall u, In u l -> f u = v) -> map f l = repeat v (length l).
Proof. clear. induction l; cbn; intros H; [reflexivity|]. rewrite H by auto. f_equal. auto. Qed.

Theorem dual_task_ok : exists t dm, dual_task a s = Some t /\ in_shape dm /\ c_cols dm = nv /\ c_rows dm = length all_rows /\
  (forall x, act dm x = act (s_matrix s) x ++ map (fun e => x (e_col e)) (c_ent (s_lower s)) ++ map (fun e => - x (e_col e))%Qc (c_ent (s_upper s))) /\
  (forall y, task_feasible t y <-> dual_feasible (length all_rows) nv (mat dm) row_kind cost (non_negative a) y) /\
  (forall y, task_value t y = dual_value (length all_rows) row_rhs y) /\ t_maximize t = false /\ t_numvar t = length all_rows.
Proof.
  destruct dual_matrix_ok as (dm & E & SH & W & R & AC). unfold dual_task. rewrite E. cbn [bind].
  eexists. exists dm. split; [reflexivity|]. split; [assumption|]. split; [assumption|]. rewrite all_rows_length. split; [assumption|]. split; [assumption|].
  assert (KEYS : repeat up (s_ineq s) ++ repeat fr (s_eq s) ++ (if relax_known_vars a then repeat up (nnz (s_known s)) ++ repeat lo (nnz (s_known s)) else []) ++ repeat up (nnz (s_lower s) + nnz (s_upper s))
     = map (fun r => key_of (fst r)) all_rows).
  { unfold all_rows, main_rows, bound_rows. rewrite !map_app, !map_repeat. cbn [fst key_of]. rewrite (p_ineq _ _ _ P), (p_eq _ _ _ P). fold ri re.
    rewrite !map_map. cbn [fst key_of]. rewrite !(map_const (fun _ : entry => up) up) by reflexivity. unfold nnz. rewrite repeat_app.
    rewrite <- !app_assoc. f_equal. destruct (relax_known_vars a).
    - rewrite !map_app, !map_map. cbn [fst key_of]. rewrite (map_const (fun _ : entry => up) up), (map_const (fun _ : entry => lo) lo) by reflexivity. rewrite <- !app_assoc. reflexivity.
    - rewrite !map_map. cbn [fst key_of]. rewrite (map_const (fun _ : entry => fr) fr) by reflexivity.
      change (length (c_ent (known_vars a))) with (nnz (known_vars a)). rewrite repeat_app, <- app_assoc. do 2 f_equal. rewrite <- nnz_known. reflexivity. }
  assert (RHS : (if 0 <? nnz (s_lower s) + nnz (s_upper s) then s_b s ++ vec_data (s_lower s) ++ map Qcopp (vec_data (s_upper s)) else s_b s) = map snd all_rows).
  { transitivity (s_b s ++ vec_data (s_lower s) ++ map Qcopp (vec_data (s_upper s))).
    - destruct (Nat.ltb_spec 0 (nnz (s_lower s) + nnz (s_upper s))) as [B|B]; [reflexivity|]. unfold nnz, vec_data in *. destruct (c_ent (s_lower s)), (c_ent (s_upper s)); cbn in B; try lia. cbn. rewrite app_nil_r. reflexivity.
    - rewrite (p_b _ _ _ P). unfold all_rows, main_rows, bound_rows. fold ri re. rewrite !map_app, !map_repeat, !map_map. cbn [snd]. rewrite repeat_app, <- !app_assoc. do 2 f_equal.
      unfold vec_data. rewrite map_map. f_equal. destruct (relax_known_vars a); rewrite ?map_app, !map_map; reflexivity. }
  assert (NB := all_rows_length).
  split; [|split; [|split; [reflexivity|]]].
  - intros y. unfold task_feasible, dual_feasible. cbn [t_numcon t_numvar t_con t_var t_cols]. rewrite (p_cols _ _ _ P). fold nv.
    rewrite <- NB, KEYS.
    assert (ACT : forall t, t_numvar t = length all_rows -> t_cols t = csr dm -> forall j, activity t j y = sumn (length all_rows) (fun i => mat dm i j * y i)%Qc).
    { intros t T1 T2 j. rewrite (activity_csr _ dm); [rewrite R, NB; reflexivity|assumption|rewrite R, <- NB; assumption|assumption]. }
    assert (VAR : forall i, i < length all_rows -> within (nth i (map (fun key => (key, 0%Qc, 0%Qc)) (map (fun r => key_of (fst r)) all_rows)) (fr, 0%Qc, 0%Qc)) (y i) <-> multiplier (row_kind i) (y i)).
    { intros i I. rewrite map_map, (nth_map_d _ _ _ _ (Equal, 0%Qc)) by assumption. unfold row_kind. destruct (fst (nth i all_rows (Equal, 0%Qc))); cbn; tauto. }
    assert (CON : forall j, j < nv -> forall v, within (nth j (combine (combine (if non_negative a then repeat lo nv else repeat fx nv) costs) costs) (fr, 0%Qc, 0%Qc)) v <-> if non_negative a then (cost j <= v)%Qc else v = cost j).
    { intros j J v. rewrite !combine_nth; [|destruct (non_negative a); rewrite repeat_length, costs_length; reflexivity|rewrite combine_length, costs_length; destruct (non_negative a); rewrite repeat_length; lia].
      fold (cost j). destruct (non_negative a); rewrite nth_repeat_lt by assumption; cbn [within]; tauto. }
    split.
    + intros (C & V). split.
      * intros i I. rewrite <- NB in *. apply VAR; [assumption|]. apply V. assumption.
      * intros j J. specialize (C j J). apply (proj1 (CON j J _)) in C. rewrite ACT in C by reflexivity. exact C.
    + intros (D1 & D2). split.
      * intros j J. apply (proj2 (CON j J _)). rewrite ACT by reflexivity. apply D2. assumption.
      * intros i I. apply (VAR i I). apply D1. assumption.
  - intros y. unfold task_value, dual_value. cbn [t_numvar t_c]. rewrite RHS. rewrite <- NB. apply sumn_ext. intros i I. unfold row_rhs. rewrite (nth_map_d _ _ _ _ (Equal, 0%Qc)) by assumption. reflexivity.
  - cbn [t_numvar]. reflexivity. Qed.

(** ** the programme of which it is the dual is the problem of the arguments *)
Lemma holds_row_neg v b : holds AtLeast (- v)%Qc (- b)%Qc <-> (v <= b)%Qc.
Proof. clear. cbn. split; intros; qclra. Qed.
Theorem form_is_problem dm x : in_shape dm -> c_cols dm = nv -> c_rows dm = length all_rows ->
  (forall x, act dm x = act (s_matrix s) x ++ map (fun e => x (e_col e)) (c_ent (s_lower s)) ++ map (fun e => - x (e_col e))%Qc (c_ent (s_upper s))) ->
  primal_feasible (length all_rows) nv (mat dm) row_rhs row_kind (non_negative a) x <-> problem_point n a x (x n).
Proof.
  intros SH W R AC.
  assert (ROWS : (forall i, i < length all_rows -> holds (row_kind i) (sumn nv (fun j => mat dm i j * x j)%Qc) (row_rhs i)) <-> Forall2 holds_row all_rows (act dm x)).
  { rewrite (Forall2_nth_iff holds_row all_rows (act dm x) (Equal, 0%Qc) 0%Qc) by (rewrite act_length; auto). split; intros F i I; specialize (F i I).
    - rewrite nth_act by lia. rewrite entry_sum_mat, W by assumption. exact F.
    - rewrite nth_act in F by lia. rewrite entry_sum_mat, W in F by assumption. exact F. }
  assert (BR : Forall2 holds_row bound_rows (map (fun e => x (e_col e)) (c_ent (s_lower s)) ++ map (fun e => - x (e_col e))%Qc (c_ent (s_upper s))) <->
    (forall e, In e (c_ent (lower_bounds a)) -> (e_val e <= x (e_col e))%Qc) /\ (forall e, In e (c_ent (upper_bounds a)) -> (x (e_col e) <= e_val e)%Qc)).
  { unfold bound_rows. rewrite Forall2_app_iff by (rewrite !map_length; reflexivity). rewrite !Forall2_map_iff. unfold holds_row. cbn [fst snd]. split.
    - intros (H1 & H2). split; intros e I; [apply H1, in_lower, I|apply holds_row_neg, H2, in_upper, I].
    - intros (H1 & H2). split; intros e I; [apply H1, in_lower, I|apply holds_row_neg, H2, in_upper, I]. }
  unfold primal_feasible. rewrite ROWS, AC. unfold all_rows. rewrite Forall2_app_iff by (rewrite act_length; apply main_rows_length).
  rewrite main_rows_meaning, BR. split.
  - intros (((H1 & H2 & H3) & H4 & H5) & H6). constructor; auto. intros RX DN j J. apply H6; [unfold non_negative; rewrite RX; assumption|]. unfold nv. rewrite RX. assumption.
  - intros [H1 H2 H3 H4 H5 H6]. split; [tauto|]. unfold non_negative, nv in *. destruct (relaxed a); [discriminate|]. intros DN j J. apply H6; auto. Qed.

(** ** the primal task *)
Lemma vec_bound (v : coo) (Rl : Qc -> Qc -> Prop) j z : NoDup (vec_cols v) ->
  (forall e, In e (c_ent v) -> e_col e = j -> Rl (e_val e) z) <-> match find (fun e => e_col e =? j) (c_ent v) with Some e => Rl (e_val e) z | None => True end.
Proof.
  clear. intros ND. pose proof (find_vec_spec v j ND) as F. destruct (find _ (c_ent v)) as [e0|].
  - destruct F as (I & E & U). split; [auto|]. intros H e I' E'. rewrite (U e I' E'). assumption.
  - split; [auto|]. intros _ e I E. exfalso. exact (F e I E). Qed.

Lemma filter_nodup_marks {A} (v : A) p (l : list nat) : NoDup l -> NoDup (map fst (map (fun j => (j, v)) (filter p l))).
Proof. clear. intros ND. rewrite map_map. cbn. rewrite map_id. apply NoDup_filter, ND. Qed.
Lemma combine_fst_cols (v : coo) : map fst (combine (vec_cols v) (vec_data v)) = vec_cols v.
Proof. clear. unfold vec_cols, vec_data. induction (c_ent v); cbn; congruence. Qed.

Theorem primal_task_ok x : lower_bounds_nonneg a ->
  (task_feasible (primal_task a s) x <-> problem_point n a x (x n)) /\
  task_value (primal_task a s) x = problem_value a x (x n) /\ t_maximize (primal_task a s) = true.
Proof.
  intros LBN. split; [|split; [|reflexivity]].
  2: { unfold task_value. cbn [primal_task t_numvar t_c]. rewrite (p_cols _ _ _ P). fold nv. fold costs. apply costs_value. }
  unfold task_feasible.
  assert (CON : (forall i, i < t_numcon (primal_task a s) -> within (nth i (t_con (primal_task a s)) (fr, 0, 0)%Qc) (activity (primal_task a s) i x)) <-> Forall2 holds_row main_rows (act (s_matrix s) x)).
  { rewrite (Forall2_nth_iff holds_row main_rows (act (s_matrix s) x) (Equal, 0%Qc) 0%Qc) by (rewrite act_length; apply main_rows_length).
    rewrite main_rows_length. cbn [primal_task t_numcon].
    assert (KEYS : repeat lo (s_ineq s) ++ repeat fx (s_eq s) ++ (if relax_known_vars a then repeat lo (nnz (s_known s)) ++ repeat up (nnz (s_known s)) else []) = map (fun r => match fst r with AtLeast => lo | Equal => fx | AtMost => up end) main_rows).
    { unfold main_rows. rewrite !map_app, !map_repeat. cbn [fst]. rewrite (p_ineq _ _ _ P), (p_eq _ _ _ P). fold ri re. f_equal. destruct (relax_known_vars a).
      - rewrite !map_app, !map_map. cbn [fst]. rewrite (map_const (fun _ : entry => lo) lo), (map_const (fun _ : entry => up) up) by reflexivity. reflexivity.
      - rewrite !map_map. cbn [fst]. rewrite (map_const (fun _ : entry => fx) fx) by reflexivity. change (length (c_ent (s_known s))) with (nnz (s_known s)). rewrite nnz_known, repeat_app, app_nil_r. reflexivity. }
    assert (RHS : s_b s = map snd main_rows).
    { rewrite (p_b _ _ _ P). unfold main_rows. fold ri re. rewrite !map_app, !map_repeat. cbn [snd]. rewrite repeat_app, <- !app_assoc. do 2 f_equal.
      unfold vec_data. destruct (relax_known_vars a); rewrite ?map_app, !map_map; reflexivity. }
    assert (EL : forall i, i < c_rows (s_matrix s) -> within (nth i (t_con (primal_task a s)) (fr, 0, 0)%Qc) (activity (primal_task a s) i x) <-> holds_row (nth i main_rows (Equal, 0%Qc)) (nth i (act (s_matrix s) x) 0%Qc)).
    { intros i I. rewrite (activity_csc _ (s_matrix s)); [|apply (p_shape _ _ _ P)|reflexivity|reflexivity]. rewrite nth_act by assumption.
      cbn [primal_task t_con]. rewrite KEYS, RHS. unfold bound. rewrite !combine_nth by (rewrite ?combine_length, !map_length; lia).
      rewrite !(nth_map_d _ main_rows _ _ (Equal, 0%Qc)) by (rewrite main_rows_length; assumption). destruct (nth i main_rows (Equal, 0%Qc)) as [k b]. cbn [fst snd]. unfold holds_row. cbn [fst snd].
      destruct k; cbn; tauto. }
    split; intros F i I; apply (EL i I), F, I. }
  rewrite CON, main_rows_meaning.
  assert (VAR : (forall j, j < t_numvar (primal_task a s) -> within (nth j (t_var (primal_task a s)) (fr, 0, 0)%Qc) (x j)) <->
    (forall e, In e (c_ent (lower_bounds a)) -> (e_val e <= x (e_col e))%Qc) /\ (forall e, In e (c_ent (upper_bounds a)) -> (x (e_col e) <= e_val e)%Qc) /\
    (relaxed a = false -> default_non_negative a = true -> forall j, j < n -> (0 <= x j)%Qc)).
  { cbn [primal_task t_numvar t_var]. rewrite (p_cols _ _ _ P). fold nv.
    match goal with |- context [combine (combine ?k ?bl) ?bu] => set (KX := k); set (BL := bl); set (BU := bu) end.
    assert (LKX : length KX = nv).
    { unfold KX. destruct (relaxed a); unfold set_last; rewrite ?set_nth_length; destruct (non_negative a); rewrite !put_length, repeat_length; reflexivity. }
    assert (LBL : length BL = nv) by (unfold BL; rewrite put_length, repeat_length; reflexivity).
    assert (LBU : length BU = nv) by (unfold BU; rewrite put_length, repeat_length; reflexivity).
    set (fl := fun j => find (fun e => e_col e =? j) (c_ent (s_lower s))). set (fu := fun j => find (fun e => e_col e =? j) (c_ent (s_upper s))).
    assert (NBL : forall j, j < nv -> nth j BL 0%Qc = match fl j with Some e => e_val e | None => 0%Qc end).
    { intros j J. unfold BL. rewrite nth_put; [|rewrite combine_fst_cols; apply nd_lower|rewrite repeat_length; assumption]. rewrite lookup_vec. fold (fl j). destruct (fl j); [reflexivity|apply nth_repeat]. }
    assert (NBU : forall j, j < nv -> nth j BU 0%Qc = match fu j with Some e => e_val e | None => 0%Qc end).
    { intros j J. unfold BU. rewrite nth_put; [|rewrite combine_fst_cols; apply nd_upper|rewrite repeat_length; assumption]. rewrite lookup_vec. fold (fu j). destruct (fu j); [reflexivity|apply nth_repeat]. }
    assert (NKX : forall j, j < nv -> nth j KX fr = if relaxed a && (j =? n) then fr else
        if non_negative a then match fu j with Some _ => ra | None => lo end
        else match fl j, fu j with None, None => fr | Some _, None => lo | None, Some _ => up | Some _, Some _ => ra end).
    { intros j J. unfold KX.
      set (K0 := if non_negative a then _ else _).
      assert (LK0 : length K0 = nv) by (unfold K0; destruct (non_negative a); rewrite !put_length, repeat_length; reflexivity).
      assert (N0 : nth j K0 fr = if non_negative a then match fu j with Some _ => ra | None => lo end
        else match fl j, fu j with None, None => fr | Some _, None => lo | None, Some _ => up | Some _, Some _ => ra end).
      { unfold K0. destruct (non_negative a).
        - rewrite nth_put; [|rewrite map_map; cbn; rewrite map_id; apply nd_upper|rewrite repeat_length; assumption].
          rewrite lookup_mark, memb_vec. fold (fu j). destruct (fu j); [reflexivity|]. apply nth_repeat_lt. assumption.
        - rewrite !nth_put; rewrite ?put_length, ?repeat_length; try assumption; try (apply filter_nodup_marks; first [apply nd_lower|apply nd_upper]).
          rewrite !lookup_mark, !memb_filter, !memb_vec. fold (fl j) (fu j). destruct (fl j), (fu j); cbn [andb negb]; try reflexivity. apply nth_repeat. }
      destruct (relaxed a) eqn:RX; cbn [andb]; [|exact N0]. unfold set_last. rewrite nth_set_nth by lia. rewrite LK0.
      assert (NV : nv = n + 1) by (unfold nv; reflexivity). rewrite NV. replace (n + 1 - 1) with n by lia. rewrite Nat.eqb_sym. destruct (j =? n); [reflexivity|exact N0]. }
    assert (LOW : forall j, (forall e, In e (c_ent (lower_bounds a)) -> e_col e = j -> (e_val e <= x j)%Qc) <-> match fl j with Some e => (e_val e <= x j)%Qc | None => True end).
    { intros j. unfold fl. rewrite <- (vec_bound (s_lower s) (fun b z => (b <= z)%Qc) j (x j) nd_lower). split; intros H e I; apply H, in_lower, I. }
    assert (UPP : forall j, (forall e, In e (c_ent (upper_bounds a)) -> e_col e = j -> (x j <= e_val e)%Qc) <-> match fu j with Some e => (x j <= e_val e)%Qc | None => True end).
    { intros j. unfold fu. rewrite <- (vec_bound (s_upper s) (fun b z => (z <= b)%Qc) j (x j) nd_upper). split; intros H e I; apply H, in_upper, I. }
    assert (FL : forall j e, fl j = Some e -> j < n /\ In e (c_ent (lower_bounds a))).
    { intros j e F. unfold fl in F. apply find_some in F as (I & E). apply Nat.eqb_eq in E. apply in_lower in I. split; [|assumption]. rewrite <- E. apply (vo_rows _ _ (ao_lower _ _ OK) e I). }
    assert (FU : forall j e, fu j = Some e -> j < n).
    { intros j e F. unfold fu in F. apply find_some in F as (I & E). apply Nat.eqb_eq in E. apply in_upper in I. rewrite <- E. apply (vo_rows _ _ (ao_upper _ _ OK) e I). }
    assert (EL : forall j, j < nv -> within (nth j (combine (combine KX BL) BU) (fr, 0, 0)%Qc) (x j) <->
       match fl j with Some e => (e_val e <= x j)%Qc | None => True end /\ match fu j with Some e => (x j <= e_val e)%Qc | None => True end /\ (relaxed a = false -> default_non_negative a = true -> (0 <= x j)%Qc)).
    { intros j J. rewrite !combine_nth by (rewrite ?combine_length; lia). rewrite NKX, NBL, NBU by assumption. unfold non_negative. destruct (relaxed a) eqn:RX; cbn [andb].
      - destruct (Nat.eqb_spec j n) as [->|N].
        + destruct (fl n) eqn:EL; [exfalso; apply FL in EL; lia|]. destruct (fu n) eqn:EU; [exfalso; apply FU in EU; lia|]. cbn. split; [intros _; repeat split; auto; discriminate|auto].
        + destruct (fl j), (fu j); cbn; intuition discriminate.
      - destruct (default_non_negative a) eqn:DN.
        + assert (LP : forall e, fl j = Some e -> (0 <= e_val e)%Qc) by (intros e F; apply FL in F; apply (LBN RX DN e), F).
          destruct (fl j) as [el|], (fu j) as [eu|]; cbn; split; intros H; repeat split; try tauto; intros _ _; try tauto.
          * specialize (LP el eq_refl). destruct H as (H & _). qclra.
          * specialize (LP el eq_refl). qclra.
        + destruct (fl j), (fu j); cbn; intuition discriminate. }
    assert (NVn : n <= nv) by (unfold nv; destruct (relaxed a); lia).
    split.
    - intros F. split; [|split].
      + intros e I. assert (J : e_col e < n) by apply (vo_rows _ _ (ao_lower _ _ OK) e I). apply (proj2 (LOW (e_col e))); auto. apply (proj1 (EL (e_col e) ltac:(lia)) (F (e_col e) ltac:(lia))).
      + intros e I. assert (J : e_col e < n) by apply (vo_rows _ _ (ao_upper _ _ OK) e I). apply (proj2 (UPP (e_col e))); auto. apply (proj1 (EL (e_col e) ltac:(lia)) (F (e_col e) ltac:(lia))).
      + intros RX DN j J. apply (proj1 (EL j ltac:(lia)) (F j ltac:(lia))); assumption.
    - intros (H1 & H2 & H3) j J. apply (EL j J). split; [apply LOW; intros e I <-; auto|]. split; [apply UPP; intros e I <-; auto|].
      intros RX DN. apply H3; auto. unfold nv in J. rewrite RX in J. assumption. }
  rewrite VAR. split.
  - intros ((H1 & H2 & H3) & H4 & H5 & H6). constructor; auto.
  - intros [H1 H2 H3 H4 H5 H6]. tauto. Qed.
End Solve.
