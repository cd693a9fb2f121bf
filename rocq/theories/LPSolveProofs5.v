From Coq Require Import List Arith Bool QArith Qcanon Lia Lqa Permutation.
From Verif Require Import MargModel FactorModel QcSum QcArith UniqueProofs Duality LPSolveModel LPSolveSpec LPSolveProofs LPSolveProofs2 LPSolveProofs3 LPSolveProofs4.
Import ListNotations.
Open Scope nat_scope.
From Verif Require LPProofs ScenarioProofs.
Set Default Proof Using "All".

Lemma sumn_lookup n cols (z : nat -> Qc) : NoDup cols -> (forall j, In j cols -> j < n) -> forall ys,
  sumn n (fun j => (match lookup j (combine cols ys) with Some v => v | None => 0 end) * z j)%Qc = sumQ (map (fun q => snd q * z (fst q))%Qc (combine cols ys)).
Proof.
  induction cols as [|c cols IH]; intros ND IN ys.
  - cbn. rewrite <- (sumn_0 n) at 1. apply sumn_ext. intros. ring.
  - destruct ys as [|v ys]; [cbn; rewrite <- (sumn_0 n) at 1; apply sumn_ext; intros; ring|].
    apply NoDup_cons_iff in ND as (NI & ND). cbn [combine map fst snd]. rewrite sumQ_cons, <- IH; [|assumption|intros; apply IN; right; assumption].
    transitivity (sumn n (fun j => (if c =? j then v else 0) * z j + (match lookup j (combine cols ys) with Some v => v | None => 0 end) * z j))%Qc.
    + apply sumn_ext. intros j J. cbn [lookup]. destruct (Nat.eqb_spec c j) as [->|N]; [|ring]. rewrite lookup_none; [ring|].
      intros I. apply NI. clear - I. revert ys I. induction cols; intros [|y ys] I; cbn in *; auto; try tauto. destruct I; auto. right. eauto.
    + rewrite sumn_add. f_equal. rewrite (sumn_single n c); [rewrite Nat.eqb_refl; ring|apply IN; left; reflexivity|].
      intros j _ N. rewrite (proj2 (Nat.eqb_neq c j)) by auto. ring. Qed.

Lemma firstn_seq_map {A} (f : nat -> A) s k m : k <= m -> firstn k (map f (seq s m)) = map f (seq s k).
Proof. revert s m. induction k; intros s m L; [reflexivity|]. destruct m; [lia|]. cbn. rewrite IHk by lia. reflexivity. Qed.
Lemma skipn_seq_map {A} (f : nat -> A) s k m : skipn k (map f (seq s m)) = map f (seq (s + k) (m - k)).
Proof. revert s m. induction k; intros s m; [rewrite Nat.add_0_r, Nat.sub_0_r; reflexivity|]. destruct m; [reflexivity|]. cbn. rewrite IHk. f_equal. f_equal. lia. Qed.

Section Certificate.
Variables (n : nat) (a : lp_args) (s : setup) (y : nat -> Qc) (len : nat).
Hypothesis OK : args_ok n a.
Hypothesis P : prepared n a s.
Let nv := if relaxed a then n + 1 else n.
Let ri := c_rows (inequalities a).
Let re := c_rows (equalities a).
Let K := nnz (s_known s).
Hypothesis LEN : c_rows (s_matrix s) <= len.

(** multiplier of the i-th known value *)
Definition kmult (i : nat) : Qc := (y (ri + re + i) + (if relax_known_vars a then y (ri + re + K + i)%nat else 0))%Qc.
Definition cert : list Qc := certificate a s (map y (seq 0 len)).
Definition obj_coeff (j : nat) : Qc := sumQ (map (fun e => if e_col e =? j then e_val e else 0%Qc) (c_ent (objective a))).

Lemma known_lt j : In j (vec_cols (s_known s)) -> j < n.
Proof. unfold vec_cols. intros I. apply in_map_iff in I as (e & <- & I). apply (in_known n a s OK P) in I. apply (vo_rows _ _ (ao_known _ _ OK) e I). Qed.
Lemma nnzk : K = nnz (known_vars a).
Proof. apply (nnz_known n a s OK P). Qed.
Lemma n_le_nv : n <= nv.
Proof. unfold nv. destruct (relaxed a); lia. Qed.
Lemma yk_eq : skipn (c_rows (s_matrix s) - (if relax_known_vars a then K * 2 else K)) (map y (seq 0 len)) = map y (seq (ri + re) (len - (ri + re))).
Proof.
  rewrite skipn_seq_map. pose proof (p_rows _ _ _ P) as R. rewrite <- nnzk in R. fold ri re in R.
  replace (c_rows (s_matrix s) - (if relax_known_vars a then K * 2 else K)) with (ri + re); [reflexivity|].
  rewrite R. destruct (relax_known_vars a); lia. Qed.
Lemma dense_coeff j : j < n -> nth j (dense (s_obj s)) 0%Qc = obj_coeff j.
Proof.
  intros J. destruct (p_obj _ _ _ P) as (PO & W). unfold dense.
  rewrite nth_map_seq_d by (destruct W as [->|(_ & ->)]; [assumption|destruct (relaxed a); lia]).
  unfold obj_coeff. apply sumQ_perm, Permutation_map, PO. Qed.
Lemma in_combine_map_fst {A} (l : list nat) (m : list A) : length l = length m -> map fst (combine l m) = l.
Proof. clear. revert m. induction l; intros [|u m]; cbn; intros E; try discriminate; [reflexivity|]. f_equal. auto. Qed.

Lemma nth_cert j : j < n -> nth j cert 0%Qc =
  ((match lookup j (combine (vec_cols (s_known s)) (map kmult (seq 0 K))) with Some v => v | None => 0 end) +
   (if memb j (vec_cols (s_known s)) then 0 else - obj_coeff j))%Qc.
Proof.
  intros J. pose proof n_le_nv as NV. unfold cert, certificate. fold K. rewrite yk_eq.
  pose proof (p_cols _ _ _ P) as W. fold nv in W. rewrite W.
  pose proof (p_rows _ _ _ P) as R. rewrite <- nnzk in R. fold ri re in R.
  set (kc := vec_cols (s_known s)).
  assert (NDK : NoDup kc) by apply (nd_known n a s OK P).
  assert (LK : length kc = K) by apply vec_cols_length.
  set (unk := filter (fun j => negb (memb j kc)) (vec_cols (s_obj s))).
  assert (NDU : NoDup unk).
  { apply NoDup_filter. eapply Permutation_NoDup; [apply Permutation_map, Permutation_sym, (proj1 (p_obj _ _ _ P))|]. apply (vo_nodup _ _ (ao_obj _ _ OK)). }
  set (c1 := put (repeat 0%Qc nv) (map (fun j => (j, (- nth j (dense (s_obj s)) 0)%Qc)) unk)).
  assert (LC1 : length c1 = nv) by (unfold c1; rewrite put_length, repeat_length; reflexivity).
  assert (NC1 : nth j c1 0%Qc = if memb j kc then 0%Qc else (- obj_coeff j)%Qc).
  { unfold c1. rewrite nth_put; [|rewrite map_map; cbn [fst]; rewrite map_id; assumption|rewrite repeat_length; lia]. rewrite nth_repeat.
    assert (LU : forall l, lookup j (map (fun j => (j, (- nth j (dense (s_obj s)) 0)%Qc)) l) = if memb j l then Some (- obj_coeff j)%Qc else None).
    { induction l as [|i l IH]; [reflexivity|]. cbn [map lookup memb existsb]. rewrite (Nat.eqb_sym j i). destruct (Nat.eqb_spec i j) as [->|N]; [rewrite dense_coeff by assumption; reflexivity|exact IH]. }
    rewrite LU. unfold unk. rewrite memb_filter. destruct (memb j kc); cbn [negb]; [rewrite andb_false_r; reflexivity|]. rewrite andb_true_r.
    destruct (memb j (vec_cols (s_obj s))) eqn:M; [reflexivity|].
    assert (obj_coeff j = 0%Qc) as ->; [|ring]. unfold obj_coeff. apply sumQ_zero. intros e I. destruct (Nat.eqb_spec (e_col e) j) as [E|]; [|reflexivity]. exfalso.
    apply (Permutation_in _ (Permutation_sym (proj1 (p_obj _ _ _ P)))) in I. assert (memb j (vec_cols (s_obj s)) = true); [|congruence]. apply ScenarioProofs.memb_in. unfold vec_cols. rewrite <- E. apply in_map, I. }
  assert (LLEN : ri + re + K <= len) by (destruct (relax_known_vars a); lia).
  rewrite firstn_seq_map by lia.
  set (c2 := put c1 (combine kc (map y (seq (ri + re) K)))).
  assert (LC2 : length c2 = nv) by (unfold c2; rewrite put_length; assumption).
  assert (EQL : forall (f : nat -> Qc) s0, length kc = length (map f (seq s0 K))) by (intros; rewrite map_length, seq_length; assumption).
  assert (NC2 : forall i, i < nv -> nth i c2 0%Qc = match lookup i (combine kc (map y (seq (ri + re) K))) with Some v => v | None => nth i c1 0%Qc end).
  { intros i I. unfold c2. rewrite nth_put; [reflexivity|rewrite in_combine_map_fst by apply EQL; assumption|lia]. }
  (* when j is known *)
  assert (LKP : forall (f g : nat -> Qc) (h : nat -> Qc -> Qc -> Qc) s1 s2 l k, length l = k ->
     lookup j (combine l (map (fun '(i, (u, v)) => h i u v) (combine l (combine (map f (seq s1 k)) (map g (seq s2 k)))))) =
     match lookup j (combine l (combine (map f (seq s1 k)) (map g (seq s2 k)))) with Some (u, v) => Some (h j u v) | None => None end).
  { clear. intros f g h s1 s2 l. revert s1 s2. induction l as [|i l IH]; intros s1 s2 [|k] E; try discriminate; [reflexivity|]. cbn [seq map combine lookup].
    destruct (Nat.eqb_spec i j) as [->|N]; [reflexivity|]. apply IH. cbn in E. congruence. }
  assert (LKM : forall (f g : nat -> Qc) (h : Qc -> Qc -> Qc) s1 s2 l k, length l = k ->
     lookup j (combine l (map (fun i => h (f (s1 + i)) (g (s2 + i))) (seq 0 k))) =
     match lookup j (combine l (combine (map f (seq s1 k)) (map g (seq s2 k)))) with Some (u, v) => Some (h u v) | None => None end).
  { clear. intros f g h s1 s2 l. revert s1 s2. induction l as [|i l IH]; intros s1 s2 [|k] E; try discriminate; [reflexivity|]. cbn [seq map combine lookup].
    destruct (Nat.eqb_spec i j) as [->|N]; [rewrite !Nat.add_0_r; reflexivity|]. cbn in E. rewrite <- (IH (S s1) (S s2) k) by congruence.
    f_equal. f_equal. rewrite <- seq_shift, map_map. apply map_ext. intros x. do 2 f_equal; lia. }
  assert (LKF : forall (f g : nat -> Qc) s1 s2 l k, length l = k -> lookup j (combine l (map f (seq s1 k))) =
     match lookup j (combine l (combine (map f (seq s1 k)) (map g (seq s2 k)))) with Some (u, v) => Some u | None => None end).
  { clear. intros f g s1 s2 l. revert s1 s2. induction l as [|i l IH]; intros s1 s2 [|k] E; try discriminate; [reflexivity|]. cbn [seq map combine lookup].
    destruct (Nat.eqb_spec i j) as [->|N]; [reflexivity|]. apply IH. cbn in E. congruence. }
  assert (LKN : forall A (l : list nat) (m : list A), length l = length m -> (lookup j (combine l m) = None <-> memb j l = false)).
  { clear. intros A l. induction l as [|i l IH]; intros [|u m] E; try discriminate; [cbn; tauto|]. cbn [combine lookup memb existsb]. rewrite (Nat.eqb_sym j i). cbn in E.
    destruct (i =? j); cbn [orb]; [split; discriminate|]. apply IH. congruence. }
  set (two := combine kc (combine (map y (seq (ri + re) K)) (map y (seq (ri + re + K) K)))).
  assert (LT : length kc = length (combine (map y (seq (ri + re) K)) (map y (seq (ri + re + K) K)))) by (rewrite combine_length, !map_length, !seq_length; lia).
  assert (KM : lookup j (combine kc (map kmult (seq 0 K))) = match lookup j two with Some (u, v) => Some (u + (if relax_known_vars a then v else 0))%Qc | None => None end).
  { unfold two. rewrite <- (LKM y y (fun u v => u + (if relax_known_vars a then v else 0))%Qc (ri + re) (ri + re + K) kc K LK). reflexivity. }
  rewrite KM. specialize (LKN _ kc _ LT). fold two in LKN. unfold memb in *. fold (memb j kc) in *.
  destruct (relax_known_vars a) eqn:RK.
  - rewrite skipn_seq_map, firstn_seq_map by lia.
    assert (EQ3 : map (fun '(j, v) => (nth j c2 0 + v)%Qc) (combine kc (map y (seq (ri + re + K) K))) = map (fun '(i, (u, v)) => (u + v)%Qc) two).
    { unfold two. assert (KLT : forall i, In i kc -> i < nv) by (intros i I; apply known_lt in I; lia).
      assert (G : forall l pre s1 s2 k, length l = k -> NoDup (pre ++ l) -> (forall i, In i l -> i < nv) ->
         (forall i, In i l -> nth i c2 0%Qc = match lookup i (combine l (map y (seq s1 k))) with Some v => v | None => nth i c1 0%Qc end) ->
         map (fun '(j, v) => (nth j c2 0 + v)%Qc) (combine l (map y (seq s2 k))) = map (fun '(_, (u, v)) => (u + v)%Qc) (combine l (combine (map y (seq s1 k)) (map y (seq s2 k))))).
      { clear. induction l as [|i l IH]; intros pre s1 s2 [|k] E ND KLT H; try discriminate; [reflexivity|]. cbn [seq map combine]. f_equal.
        - rewrite (H i (or_introl eq_refl)). cbn [seq map combine lookup]. rewrite Nat.eqb_refl. reflexivity.
        - apply (IH (pre ++ [i])); [cbn in E; congruence|rewrite <- app_assoc; exact ND|intros; apply KLT; right; assumption|].
          intros i' I'. rewrite (H i' (or_intror I')). cbn [seq map combine lookup]. destruct (Nat.eqb_spec i i') as [->|N]; [|reflexivity]. exfalso.
          apply NoDup_remove_2 in ND. apply ND. apply in_or_app. right. assumption. }
      apply (G kc [] (ri + re) (ri + re + K) K); auto. }
    rewrite EQ3. rewrite nth_put; [|rewrite in_combine_map_fst by (rewrite map_length; unfold two; rewrite combine_length, <- LT; lia); assumption|lia].
    unfold two at 1. rewrite (LKP y y (fun _ u v => u + v)%Qc (ri + re) (ri + re + K) kc K LK). fold two.
    rewrite NC2 by lia. rewrite (LKF y y (ri + re) (ri + re + K) kc K LK). fold two. rewrite NC1.
    destruct (lookup j two) as [(u, v)|].
    + destruct (memb j kc); [ring|]. exfalso. destruct LKN as (_ & LKN). specialize (LKN eq_refl). discriminate.
    + rewrite (proj1 LKN eq_refl). ring.
  - rewrite NC2 by lia. rewrite (LKF y y (ri + re) (ri + re + K) kc K LK). fold two. rewrite NC1.
    destruct (lookup j two) as [(u, v)|].
    + destruct (memb j kc); [ring|]. exfalso. destruct LKN as (_ & LKN). specialize (LKN eq_refl). discriminate.
    + rewrite (proj1 LKN eq_refl). ring. Qed.

(** the certificate at a point *)
Lemma cert_value x : certificate_at n cert x =
  (sumQ (map (fun q => kmult (fst q) * x (e_col (snd q))) (combine (seq 0 K) (c_ent (s_known s)))) -
   sumQ (map (fun e => if memb (e_col e) (vec_cols (s_known s)) then 0 else e_val e * x (e_col e)) (c_ent (objective a))))%Qc.
Proof.
  unfold certificate_at. rewrite total_sumn.
  transitivity (sumn n (fun j => (match lookup j (combine (vec_cols (s_known s)) (map kmult (seq 0 K))) with Some v => v | None => 0 end) * x j + - (if memb j (vec_cols (s_known s)) then 0 else obj_coeff j * x j)))%Qc.
  { apply sumn_ext. intros j J. rewrite nth_cert by assumption. destruct (memb j (vec_cols (s_known s))); ring. }
  rewrite sumn_add, sumn_opp. unfold Qcminus. f_equal.
  - rewrite sumn_lookup; [|apply (nd_known n a s OK P)|apply known_lt]. unfold K, nnz, vec_cols. generalize 0. generalize (c_ent (s_known s)). intros es. clear.
    induction es as [|e es IH]; intros k; [reflexivity|]. cbn [length seq map combine fst snd]. rewrite !sumQ_cons, <- IH. reflexivity.
  - f_equal. unfold obj_coeff.
    assert (OC : forall e, In e (c_ent (objective a)) -> e_col e < n) by (intros e I; apply (vo_rows _ _ (ao_obj _ _ OK) e I)).
    transitivity (sumn n (fun j => sumQ (map (fun e => if e_col e =? j then (if memb j (vec_cols (s_known s)) then 0 else e_val e * x j) else 0) (c_ent (objective a)))))%Qc.
    + apply sumn_ext. intros j J. destruct (memb j (vec_cols (s_known s))).
      * symmetry. apply sumQ_zero. intros e _. destruct (e_col e =? j); reflexivity.
      * rewrite Qcmult_comm, <- sumQ_scale. apply sumQ_ext. intros e _. destruct (e_col e =? j); ring.
    + unfold sumn. rewrite sumQ_swap with (f := fun j e => (if e_col e =? j then (if memb j (vec_cols (s_known s)) then 0 else e_val e * x j) else 0)%Qc). apply sumQ_ext. intros e I. apply OC in I.
      fold (sumn n (fun j => (if e_col e =? j then (if memb j (vec_cols (s_known s)) then 0 else e_val e * x j) else 0)%Qc)).
      rewrite (sumn_single n (e_col e)); [rewrite Nat.eqb_refl; reflexivity|assumption|]. intros j _ N. rewrite (proj2 (Nat.eqb_neq (e_col e) j)) by auto. reflexivity. Qed.
Lemma objective_all_unknown x : objective_unknown a ->
  sumQ (map (fun e => if memb (e_col e) (vec_cols (s_known s)) then 0 else e_val e * x (e_col e)) (c_ent (objective a)))%Qc = objective_at a x.
Proof.
  intros OU. apply sumQ_ext. intros e I. destruct (memb (e_col e) (vec_cols (s_known s))) eqn:M; [|reflexivity]. exfalso.
  apply ScenarioProofs.memb_in in M. unfold vec_cols in M. apply in_map_iff in M as (e' & E & I'). apply (in_known n a s OK P) in I'. exact (OU e e' I I' (eq_sym E)). Qed.

(** ** soundness *)
Hypothesis NB : no_bounds a.
Lemma no_bound_rows : c_ent (s_lower s) = [] /\ c_ent (s_upper s) = [].
Proof. destruct NB as (N1 & N2). rewrite (p_lower _ _ _ P), (p_upper _ _ _ P). unfold canonical_order. cbn [c_ent]. rewrite N1, N2. split; reflexivity. Qed.

Theorem certificate_sound dm : in_shape dm -> c_cols dm = nv -> c_rows dm = length (all_rows a s) ->
  (forall x, act dm x = act (s_matrix s) x ++ map (fun e => x (e_col e)) (c_ent (s_lower s)) ++ map (fun e => - x (e_col e))%Qc (c_ent (s_upper s))) ->
  dual_feasible (length (all_rows a s)) nv (mat dm) (row_kind a s) (cost n a s) (non_negative a) y ->
  forall x, possible n a x -> (problem_value a x 0 <= sumQ (map (fun q => kmult (fst q) * x (e_col (snd q))) (combine (seq 0 K) (c_ent (s_known s)))))%Qc.
Proof.
  intros SH W R AC DF x PO.
  set (x' := fun j => if relaxed a then (if j =? n then 0%Qc else x j) else x j).
  assert (XN : forall j, j < n -> x' j = x j).
  { intros j J. unfold x'. destruct (relaxed a); [|reflexivity]. rewrite (proj2 (Nat.eqb_neq j n)) by lia. reflexivity. }
  assert (ESN : forall m, (forall e, In e (c_ent m) -> e_col e < n) -> forall i, entry_sum m i x' = entry_sum m i x).
  { intros m C i. unfold entry_sum. apply sumQ_ext. intros e I. rewrite XN by auto. reflexivity. }
  set (hom := fun i => if i <? ri + re then 0%Qc else nth i (act dm x') 0%Qc).
  destruct no_bound_rows as (NL & NU). 
  assert (ALL : all_rows a s = main_rows a s) by (unfold all_rows, bound_rows; rewrite NL, NU; cbn; apply app_nil_r).
  pose proof (main_rows_length n a s OK P) as ML. pose proof (p_rows _ _ _ P) as R0. rewrite <- nnzk in R0. fold ri re in R0.
  assert (PF : primal_feasible (length (all_rows a s)) nv (mat dm) hom (row_kind a s) (non_negative a) x').
  { split.
    - intros i I. rewrite <- W, <- entry_sum_mat by assumption. rewrite ALL in I. unfold hom. destruct (Nat.ltb_spec i (ri + re)) as [L|L].
      + assert (NTH : entry_sum dm i x' = nth i (act (s_matrix s) x') 0%Qc).
        { rewrite <- nth_act by (rewrite R, ALL; assumption). rewrite AC, NL, NU. cbn. rewrite app_nil_r. reflexivity. }
        rewrite NTH, (p_act _ _ _ P). fold ri. unfold row_kind. rewrite ALL. unfold main_rows. fold ri re. destruct (Nat.lt_ge_cases i ri) as [LI|LI].
        * rewrite !app_nth1 by (rewrite ?repeat_length, ?map_length, ?seq_length; assumption). rewrite nth_repeat_lt by assumption. cbn [fst holds].
          rewrite nth_map_seq_d by assumption. rewrite ESN by (intros e Ie; apply (mo_rows _ _ (ao_ineq _ _ OK) e Ie)).
          pose proof (po_ineq _ _ _ PO i LI) as H. unfold x'. destruct (relax_inequalities a) eqn:RI; [|qclra].
          unfold relaxed. rewrite RI, orb_true_r, Nat.eqb_refl. qclra.
        * rewrite (app_nth2 (repeat _ ri)), (app_nth2 (map _ (seq 0 ri))) by (rewrite ?repeat_length, ?map_length, ?seq_length; assumption).
          rewrite repeat_length, map_length, seq_length. rewrite !app_nth1 by (rewrite ?repeat_length, ?act_length; fold re; lia). rewrite nth_repeat_lt by lia. cbn [fst holds].
          rewrite nth_act by (fold re; lia). rewrite ESN by (intros e Ie; apply (mo_rows _ _ (ao_eq _ _ OK) e Ie)). apply (po_eq _ _ _ PO). fold re. lia.
      + rewrite nth_act by (rewrite R, ALL; assumption). destruct (row_kind a s i); cbn; [apply Qcle_refl|reflexivity|apply Qcle_refl].
    - intros NN j J. unfold non_negative in NN. destruct (relaxed a) eqn:RX; [discriminate|]. unfold nv in J. unfold x'. apply (po_nonneg _ _ _ PO RX NN). assumption. }
  pose proof (weak_duality _ _ _ _ _ _ _ _ _ PF DF) as WD.
  assert (PV : primal_value nv (cost n a s) x' = problem_value a x 0).
  { unfold primal_value, cost. pose proof (costs_value n a s OK P x') as CV. fold nv in CV. rewrite CV. unfold problem_value. destruct (relaxed a) eqn:RX.
    - unfold x'. rewrite Nat.eqb_refl. ring.
    - reflexivity. }
  rewrite PV in WD. eapply Qcle_trans; [exact WD|]. clear WD PF PV.
  unfold dual_value. rewrite ALL, ML, R0.
  assert (Z : sumn (ri + re) (fun i => hom i * y i)%Qc = 0%Qc).
  { transitivity (sumn (ri + re) (fun _ => 0%Qc)); [|apply sumn_0]. apply sumn_ext. intros i I. unfold hom. rewrite (proj2 (Nat.ltb_lt i (ri + re))) by assumption. ring. }
  rewrite sumn_app, Z.
  assert (HOM : forall i, ri + re + i < c_rows (s_matrix s) -> hom (ri + re + i) = nth i (if relax_known_vars a then map (fun e => x' (e_col e) + x' n)%Qc (c_ent (s_known s)) ++ map (fun e => x' (e_col e) - x' n)%Qc (c_ent (s_known s)) else map (fun e => x' (e_col e)) (c_ent (s_known s))) 0%Qc).
  { intros i I. unfold hom. rewrite (proj2 (Nat.ltb_ge _ _)) by lia. rewrite AC, NL, NU. cbn [map app]. rewrite app_nil_r, (p_act _ _ _ P). fold ri.
    rewrite (app_nth2 (map _ (seq 0 ri))) by (rewrite map_length, seq_length; lia). rewrite map_length, seq_length. rewrite app_nth2 by (rewrite act_length; fold re; lia). rewrite act_length. fold re.
    f_equal. lia. }
  assert (KX : forall (f : entry -> Qc) (g : nat -> Qc) , sumn K (fun i => nth i (map f (c_ent (s_known s))) 0 * g i)%Qc = sumQ (map (fun q => g (fst q) * f (snd q))%Qc (combine (seq 0 K) (c_ent (s_known s))))).
  { intros f g. unfold sumn, K, nnz. generalize (c_ent (s_known s)). intros es. clear.
    assert (G : forall k, sumQ (map (fun i => nth (i - k) (map f es) 0 * g i)%Qc (seq k (length es))) = sumQ (map (fun q => g (fst q) * f (snd q))%Qc (combine (seq k (length es)) es))).
    { induction es as [|e es IH]; intros k; [reflexivity|]. cbn [length seq map combine fst snd]. rewrite !sumQ_cons, Nat.sub_diag. cbn [nth]. rewrite <- IH.
      f_equal; [ring|]. apply sumQ_ext. intros i I. apply in_seq in I. replace (i - k) with (S (i - S k)) by lia. reflexivity. }
    rewrite <- G. apply sumQ_ext. intros i _. rewrite Nat.sub_0_r. reflexivity. }
  assert (KXN : forall e, In e (c_ent (s_known s)) -> x' (e_col e) = x (e_col e)) by (intros e I; apply XN, known_lt, in_map, I).
  destruct (relax_known_vars a) eqn:RK.
  - assert (X0 : x' n = 0%Qc) by (unfold x', relaxed; rewrite RK; cbn [orb]; rewrite Nat.eqb_refl; reflexivity).
    replace (2 * K) with (K + K) by lia. rewrite sumn_app.
    rewrite (sumn_ext K _ (fun i => nth i (map (fun e => x (e_col e)) (c_ent (s_known s))) 0 * y (ri + re + i)%nat)%Qc).
    2: { intros i I. rewrite HOM by lia. rewrite app_nth1 by (rewrite map_length; exact I). f_equal. f_equal. apply map_ext_in. intros e Ie. rewrite X0, KXN by assumption. ring. }
    rewrite (sumn_ext K (fun i => hom (ri + re + (K + i))%nat * _)%Qc (fun i => nth i (map (fun e => x (e_col e)) (c_ent (s_known s))) 0 * y (ri + re + K + i)%nat)%Qc).
    2: { intros i I. rewrite HOM by lia. rewrite app_nth2 by (rewrite map_length; unfold K, nnz; lia). rewrite map_length. replace (K + i - length (c_ent (s_known s))) with i by (unfold K, nnz; lia).
         replace (ri + re + (K + i)) with (ri + re + K + i) by lia. f_equal. f_equal. apply map_ext_in. intros e Ie. rewrite X0, KXN by assumption. ring. }
    rewrite (KX _ (fun i => y (ri + re + i))), (KX _ (fun i => y (ri + re + K + i))). rewrite Qcplus_0_l, <- sumQ_add.
    match goal with |- (?l <= ?r)%Qc => assert (l = r) as ->; [|apply Qcle_refl] end. apply sumQ_ext. intros q _. unfold kmult. rewrite RK. ring.
  - rewrite (sumn_ext K _ (fun i => nth i (map (fun e => x (e_col e)) (c_ent (s_known s))) 0 * y (ri + re + i)%nat)%Qc).
    2: { intros i I. rewrite HOM by lia. f_equal. f_equal. apply map_ext_in. intros e Ie. apply KXN. assumption. }
    rewrite (KX _ (fun i => y (ri + re + i))), Qcplus_0_l.
    match goal with |- (?l <= ?r)%Qc => assert (l = r) as ->; [|apply Qcle_refl] end. apply sumQ_ext. intros q _. unfold kmult. rewrite RK. ring. Qed.

(** ** at the known values it takes the dual value *)
Theorem certificate_dual_value :
  dual_value (length (all_rows a s)) (row_rhs a s) y = sumQ (map (fun q => kmult (fst q) * e_val (snd q))%Qc (combine (seq 0 K) (c_ent (s_known s)))).
Proof.
  destruct no_bound_rows as (NL & NU).
  assert (ALL : all_rows a s = main_rows a s) by (unfold all_rows, bound_rows; rewrite NL, NU; cbn; apply app_nil_r).
  pose proof (main_rows_length n a s OK P) as ML. pose proof (p_rows _ _ _ P) as R0. rewrite <- nnzk in R0. fold ri re in R0.
  unfold dual_value, row_rhs. rewrite ALL, ML, R0. rewrite sumn_app.
  assert (Z : sumn (ri + re) (fun i => snd (nth i (main_rows a s) (Equal, 0)) * y i)%Qc = 0%Qc).
  { transitivity (sumn (ri + re) (fun _ => 0%Qc)); [|apply sumn_0]. apply sumn_ext. intros i I. unfold main_rows. fold ri re. rewrite app_assoc, app_nth1 by (rewrite app_length, !repeat_length; assumption).
    destruct (Nat.lt_ge_cases i ri) as [LI|LI].
    - rewrite app_nth1 by (rewrite repeat_length; assumption). rewrite nth_repeat_lt by assumption. cbn. ring.
    - rewrite app_nth2 by (rewrite repeat_length; assumption). rewrite repeat_length, nth_repeat_lt by lia. cbn. ring. }
  rewrite Z, Qcplus_0_l.
  assert (NTH : forall i, nth (ri + re + i) (main_rows a s) (Equal, 0%Qc) = nth i (if relax_known_vars a then map (fun e => (AtLeast, e_val e)) (c_ent (s_known s)) ++ map (fun e => (AtMost, e_val e)) (c_ent (s_known s)) else map (fun e => (Equal, e_val e)) (c_ent (s_known s))) (Equal, 0%Qc)).
  { intros i. unfold main_rows. fold ri re. rewrite app_assoc, app_nth2 by (rewrite app_length, !repeat_length; lia). rewrite app_length, !repeat_length. f_equal. lia. }
  assert (KX : forall (k : kind) (g : nat -> Qc) , sumn K (fun i => snd (nth i (map (fun e => (k, e_val e)) (c_ent (s_known s))) (Equal, 0)) * g i)%Qc = sumQ (map (fun q => g (fst q) * e_val (snd q))%Qc (combine (seq 0 K) (c_ent (s_known s))))).
  { intros k g. unfold sumn, K, nnz. generalize (c_ent (s_known s)). intros es. clear.
    assert (G : forall k0, sumQ (map (fun i => snd (nth (i - k0) (map (fun e => (k, e_val e)) es) (Equal, 0)) * g i)%Qc (seq k0 (length es))) = sumQ (map (fun q => g (fst q) * e_val (snd q))%Qc (combine (seq k0 (length es)) es))).
    { induction es as [|e es IH]; intros k0; [reflexivity|]. cbn [length seq map combine fst snd]. rewrite !sumQ_cons, Nat.sub_diag. cbn [nth snd]. rewrite <- IH.
      f_equal; [ring|]. apply sumQ_ext. intros i I. apply in_seq in I. replace (i - k0) with (S (i - S k0)) by lia. reflexivity. }
    rewrite <- G. apply sumQ_ext. intros i _. rewrite Nat.sub_0_r. reflexivity. }
  destruct (relax_known_vars a) eqn:RK.
  - replace (2 * K) with (K + K) by lia. rewrite sumn_app.
    rewrite (sumn_ext K _ (fun i => snd (nth i (map (fun e => (AtLeast, e_val e)) (c_ent (s_known s))) (Equal, 0)) * y (ri + re + i)%nat)%Qc).
    2: { intros i I. rewrite NTH. rewrite app_nth1 by (rewrite map_length; exact I). reflexivity. }
    rewrite (sumn_ext K (fun i => snd (nth (ri + re + (K + i))%nat _ _) * _)%Qc (fun i => snd (nth i (map (fun e => (AtMost, e_val e)) (c_ent (s_known s))) (Equal, 0)) * y (ri + re + K + i)%nat)%Qc).
    2: { intros i I. rewrite NTH. rewrite app_nth2 by (rewrite map_length; unfold K, nnz; lia). rewrite map_length. replace (K + i - length (c_ent (s_known s))) with i by (unfold K, nnz; lia).
         replace (ri + re + (K + i)) with (ri + re + K + i) by lia. reflexivity. }
    rewrite (KX _ (fun i => y (ri + re + i))), (KX _ (fun i => y (ri + re + K + i))). rewrite <- sumQ_add.
    apply sumQ_ext. intros q _. unfold kmult. rewrite RK. ring.
  - rewrite (sumn_ext K _ (fun i => snd (nth i (map (fun e => (Equal, e_val e)) (c_ent (s_known s))) (Equal, 0)) * y (ri + re + i)%nat)%Qc).
    2: { intros i I. rewrite NTH. reflexivity. }
    rewrite (KX _ (fun i => y (ri + re + i))). apply sumQ_ext. intros q _. unfold kmult. rewrite RK. ring. Qed.
End Certificate.
