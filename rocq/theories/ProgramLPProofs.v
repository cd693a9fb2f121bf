From Coq Require Import List Arith Bool QArith Qcanon Lia.
From Verif Require Import MargModel QcSum FactorModel UniqueProofs LPSolveModel LPSolveSpec LPSolveProofs PropSolve SearchModel ProgramModel ProgramSpec ProgramProofs ProgramProofs2 ProgramProofs3 ProgramLP.
Import ListNotations.
Open Scope nat_scope.

Lemma m_eqb_eq a b : m_eqb a b = true <-> a = b.
Proof. unfold m_eqb. destruct (meq a b); intuition; congruence. Qed.
Lemma all_columns_in P ms m : all_columns P ms = true -> In m ms -> In m (columns P).
Proof. unfold all_columns. rewrite forallb_forall. intros H I. apply mmem_iff. auto. Qed.
Lemma column_ok P m : In m (columns P) -> column P m < length (columns P) /\ nth (column P m) (columns P) [] = m.
Proof. intros I. unfold column. apply (index_of_in m_eqb m_eqb_eq). assumption. Qed.

(** ** stack *)
Definition full (m : coo) : Prop := forall i, i < c_rows m -> exists e, In e (c_ent m) /\ e_row e = i.
Lemma stack_fold_full bl : Forall full bl -> forall r c es, (forall i, i < r -> exists e, In e es /\ e_row e = i) ->
  let '(r', c', es') := stack_fold bl (r, c, es) in forall i, i < r' -> exists e, In e es' /\ e_row e = i.
Proof.
  induction bl as [|b bl IH]; intros F r c es H; cbn [stack_fold fold_left]; [assumption|]. inversion F as [|? ? F1 F2]; subst.
  apply IH; [assumption|]. intros i I. destruct (Nat.lt_ge_cases i r) as [L|L].
  - destruct (H i L) as (e & E1 & E2). exists e. split; [apply in_or_app; left|]; assumption.
  - destruct (F1 (i - r)) as (e & E1 & E2); [lia|]. exists (e_row e + r, e_col e, e_val e). split; [apply in_or_app; right; apply in_map_iff; exists e; auto|]. unfold e_row at 1. cbn. lia. Qed.
Lemma stack_ok n bl : Forall (matrix_ok n) bl ->
  matrix_ok n (stack bl) /\ (forall x, act (stack bl) x = concat (map (fun b => act b x) bl)) /\ c_rows (stack bl) = fold_right (fun b k => c_rows b + k) 0 bl.
Proof.
  intros F.
  assert (RO : Forall rows_ok bl) by (eapply Forall_impl; [|exact F]; intros m M e I; apply (mo_rows _ _ M e I)).
  assert (W : Forall (fun m => c_cols m <= n) bl) by (eapply Forall_impl; [|exact F]; intros m M; destruct (mo_width _ _ M) as [-> | ->]; cbn; lia).
  destruct (filter (fun m => negb (c_rows m =? 0)) bl) as [|m1 L] eqn:E.
  - assert (Z : forall m, In m bl -> c_rows m = 0).
    { intros m I. destruct (Nat.eq_dec (c_rows m) 0) as [|NZ]; [assumption|]. exfalso. assert (I' : In m (filter (fun m => negb (c_rows m =? 0)) bl)) by (apply filter_In; split; [assumption|apply negb_true_iff, Nat.eqb_neq; assumption]). rewrite E in I'. destruct I'. }
    unfold stack, vstack. rewrite E. split; [|split].
    + constructor; [right; reflexivity|intros e []|cbn; intros; lia].
    + intros x. unfold act at 1. cbn. clear - Z. induction bl as [|b bl IH]; [reflexivity|]. cbn [map concat]. unfold act at 1. rewrite (Z b) by (left; reflexivity). cbn. apply IH. intros m I. apply Z. right. assumption.
    + cbn. clear - Z. induction bl as [|b bl IH]; [reflexivity|]. cbn. rewrite (Z b) by (left; reflexivity). apply IH. intros m I. apply Z. right. assumption.
  - assert (I1 : In m1 bl /\ 0 < c_rows m1).
    { assert (I : In m1 (filter (fun m => negb (c_rows m =? 0)) bl)) by (rewrite E; left; reflexivity). apply filter_In in I as (I & N). apply negb_true_iff, Nat.eqb_neq in N. split; [assumption|lia]. }
    destruct I1 as (I1 & P1). assert (W1 : c_cols m1 = n).
    { rewrite Forall_forall in F. destruct (mo_width _ _ (F m1 I1)) as [|B]; [assumption|]. rewrite B in P1. cbn in P1. lia. }
    destruct (vstack_spec bl n RO W) as (m & EV & R & WM & ROM & A & C); [eauto|].
    assert (FU : full m).
    { assert (FB : Forall full bl) by (eapply Forall_impl; [|exact F]; intros b B; exact (mo_full _ _ B)).
      unfold vstack in EV. rewrite E in EV. destruct L as [|m2 L].
      - assert (m = m1) as -> by congruence. rewrite Forall_forall in FB. auto.
      - pose proof (stack_fold_full bl FB 0 0 []) as SF. match type of EV with (let '(_, _) := ?X in _) = _ => change X with (stack_fold bl (0, 0, [])) in EV end.
        destruct (stack_fold bl (0, 0, [])) as ((r & c) & es). injection EV as <-. unfold full. cbn [c_rows c_ent]. apply SF. intros; lia. }
    unfold stack. rewrite EV. split; [|split; assumption].
    constructor; [left; assumption| |exact FU]. intros e I. split; [apply ROM; assumption|].
    destruct (C e I) as (b & e' & B1 & B2 & ->). rewrite Forall_forall in F. apply (mo_rows _ _ (F b B1) e' B2). Qed.

(** ** Rows *)
Lemma rows_act n l x : act (rows_matrix n l) x = map (fun r => sumQ (map (fun q => snd q * x (fst q))%Qc r)) l.
Proof.
  apply (nth_ext _ _ 0%Qc 0%Qc); [rewrite act_length, map_length; reflexivity|]. intros i I. rewrite act_length in I. cbn [rows_matrix c_rows] in I.
  rewrite nth_act by assumption. change i with (0 + i) at 1.
  rewrite (entry_sum_indexed (fun r => r) [] l 0 i x (rows_matrix n l)) by (try assumption; reflexivity).
  rewrite (nth_indep _ 0%Qc (sumQ (map (fun q => snd q * x (fst q))%Qc []))) by (rewrite map_length; assumption).
  symmetry. apply (map_nth (fun r => sumQ (map (fun q => (snd q * x (fst q))%Qc) r)) l [] i). Qed.
Lemma rows_matrix_ok n l : (forall r, In r l -> r <> [] /\ forall q, In q r -> fst q < n) -> matrix_ok n (rows_matrix n l).
Proof.
  intros H. constructor; [left; reflexivity| |]; cbn [rows_matrix c_rows c_ent].
  - intros e I. apply in_flat_map in I as ((i & r) & IC & I). apply in_map_iff in I as (q & <- & I). cbn [fst snd] in *. unfold e_row, e_col. cbn [fst snd].
    split; [apply in_combine_l, in_seq in IC; lia|]. apply in_combine_r in IC. apply (H r IC). assumption.
  - intros i I. pose proof (nth_In l [] I) as IN. destruct (H _ IN) as (NE & _). destruct (nth i l []) as [|q r] eqn:E; [congruence|].
    exists (i, fst q, snd q). split; [|reflexivity]. apply in_flat_map. exists (i, q :: r). split; [|left; reflexivity].
    assert (L : i < length (combine (seq 0 (length l)) l)) by (rewrite combine_length, seq_length; lia).
    pose proof (nth_In _ (0, []) L) as X. rewrite combine_nth in X by apply seq_length. rewrite seq_nth, E in X by assumption. exact X. Qed.
Lemma semiknown_rows n semi : semiknown_matrix n semi = rows_matrix n (map (fun p => [(fst p, 1%Qc); (snd (snd p), (- fst (snd p))%Qc)]) semi).
Proof.
  unfold semiknown_matrix, rows_matrix. rewrite map_length. f_equal. generalize 0 as k. induction semi as [|(j & (c & j2)) semi IH]; intros k; [reflexivity|]. cbn [length seq combine flat_map map fst snd app]. f_equal. f_equal. apply IH. Qed.
Lemma Forall_act (Q : Qc -> Prop) m x : Forall Q (act m x) <-> forall i, i < c_rows m -> Q (entry_sum m i x).
Proof.
  unfold act. rewrite Forall_map, Forall_forall. split; intros H i I; apply H; [apply in_seq; lia|apply in_seq in I; lia]. Qed.
Lemma indexed_sum P (x : nat -> Qc) d : sumQ (map (fun q => snd q * x (fst q))%Qc (indexed P d)) = expr_at (fun m => x (column P m)) d.
Proof. unfold expr_at, indexed. rewrite map_map. reflexivity. Qed.
Lemma entry_sum_cols n m i x x' : matrix_ok n m -> (forall j, j < n -> x j = x' j) -> entry_sum m i x = entry_sum m i x'.
Proof. intros M E. unfold entry_sum. apply sumQ_ext. intros e I. rewrite E by apply (mo_rows _ _ M e I). reflexivity. Qed.

Lemma coo_vec_ok P d : NoDup (columns P) -> all_columns P (keys d) = true -> NoDup (keys d) -> vector_ok (length (columns P)) (coo_vec P d).
Proof.
  intros NC A N. constructor; [left; reflexivity| |]; cbn [coo_vec c_ent].
  - intros e I. apply in_map_iff in I as (q & <- & I). apply in_map_iff in I as (p & <- & I). unfold e_row, e_col. cbn [fst snd]. split; [reflexivity|].
    apply column_ok. eapply all_columns_in; [exact A|]. apply in_map. assumption.
  - unfold indexed. rewrite !map_map. unfold e_col. cbn [fst snd].
    assert (INJ : forall m m', In m (columns P) -> In m' (columns P) -> column P m = column P m' -> m = m') by (intros m m' I I' E; rewrite <- (proj2 (column_ok P m I)), <- (proj2 (column_ok P m' I')), E; reflexivity).
    revert N A. unfold keys, all_columns. induction d as [|(k & v) d IH]; cbn [map fst forallb]; intros N A; [constructor|]. inversion N; subst. apply andb_prop in A as (A1 & A2).
    constructor; [|auto]. intros I. apply in_map_iff in I as (p & E & I). apply H1. assert (fst p = k) as <-; [|apply in_map; assumption].
    apply INJ; [|apply mmem_iff; assumption|assumption]. rewrite forallb_forall in A2. apply mmem_iff, A2, in_map. assumption. Qed.
Lemma coo_vec_in P d e : In e (c_ent (coo_vec P d)) <-> exists m v, In (m, v) d /\ e = (0, column P m, v).
Proof.
  cbn [coo_vec c_ent]. unfold indexed. rewrite map_map, in_map_iff. split.
  - intros ((m & v) & <- & I). exists m, v. auto.
  - intros (m & v & I & ->). exists (m, v). auto. Qed.

(** ** The problem passed to the solver *)
Section Link.
Variables (P : lp_programme) (nonneg : bool) (s : state) (a : lp_args).
Hypothesis OK : programme_ok P.
Hypothesis W : NoDup (keys (known s)) /\ NoDup (keys (ProgramModel.objective s)) /\ NoDup (keys (lower s)) /\ NoDup (keys (upper s)).
Hypothesis EX : (forall d, In d (extra_equalities s) -> d <> []) /\ (forall d, In d (extra_inequalities s) -> d <> []).
Variables (rk ri : bool).
Hypothesis E : prepare_lp P nonneg rk ri s = Some a.
Notation n := (length (columns P)).

Lemma prepared_parts : all_columns P (keys (known s)) = true /\ all_columns P (keys (ProgramModel.objective s)) = true /\ all_columns P (keys (lower s)) = true /\ all_columns P (keys (upper s)) = true /\
  all_columns P (keys (semiknown s)) = true /\ all_columns P (map (fun p => snd (snd p)) (semiknown s)) = true /\
  forallb (fun d => all_columns P (keys d)) (extra_equalities s) = true /\ forallb (fun d => all_columns P (keys d)) (extra_inequalities s) = true.
Proof.
  unfold prepare_lp in E. destruct (_ && _) eqn:B; [|discriminate]. repeat (apply andb_prop in B as (B & ?)). repeat (split; [assumption|]). assumption. Qed.
Lemma prepared_is : a = {|
    LPSolveModel.objective := coo_vec P (ProgramModel.objective s);
    known_vars := coo_vec P (known s);
    equalities := stack [stack [minimal_sparse_equalities P; sparse_extra P (extra_equalities s)]; sparse_semiknown P (semiknown s)];
    inequalities := stack [minimal_sparse_inequalities P; sparse_extra P (extra_inequalities s)];
    lower_bounds := coo_vec P (lower s); upper_bounds := coo_vec P (upper s);
    default_non_negative := nonneg; relax_known_vars := rk; relax_inequalities := ri |}.
Proof. unfold prepare_lp in E. destruct (_ && _) eqn:B; [|discriminate]. injection E as <-. reflexivity. Qed.
Lemma extra_ok l : (forall d, In d l -> d <> []) -> forallb (fun d => all_columns P (keys d)) l = true -> matrix_ok n (sparse_extra P l).
Proof.
  intros NE A. apply rows_matrix_ok. intros r I. apply in_map_iff in I as (d & <- & I). split.
  - intros Z. apply (NE d I). destruct d; [reflexivity|discriminate].
  - intros q Q. apply in_map_iff in Q as (p & <- & Q). cbn [fst]. apply column_ok. rewrite forallb_forall in A. eapply all_columns_in; [exact (A d I)|]. apply in_map. assumption. Qed.
Lemma semi_ok : matrix_ok n (sparse_semiknown P (semiknown s)).
Proof.
  destruct prepared_parts as (_ & _ & _ & _ & A & B & _). unfold sparse_semiknown. rewrite semiknown_rows. apply rows_matrix_ok. intros r I.
  apply in_map_iff in I as (p & <- & I). split; [discriminate|]. apply in_map_iff in I as ((m & (k & u)) & <- & I). cbn [fst snd]. intros q [<-|[<-|[]]]; cbn [fst]; apply column_ok.
  - eapply all_columns_in; [exact A|]. apply (in_map fst _ _ I).
  - eapply all_columns_in; [exact B|]. apply (in_map (fun p => snd (snd p)) _ _ I). Qed.
Lemma eq_blocks : matrix_ok n (stack [minimal_sparse_equalities P; sparse_extra P (extra_equalities s)]) /\
  forall x, act (stack [minimal_sparse_equalities P; sparse_extra P (extra_equalities s)]) x = act (minimal_sparse_equalities P) x ++ act (sparse_extra P (extra_equalities s)) x.
Proof.
  destruct prepared_parts as (_ & _ & _ & _ & _ & _ & A & B).
  destruct (stack_ok n [minimal_sparse_equalities P; sparse_extra P (extra_equalities s)]) as (M & AC & _).
  - constructor; [apply (po_eq _ OK)|constructor; [apply (extra_ok _ (proj1 EX) A)|constructor]].
  - split; [exact M|]. intros x. rewrite AC. cbn [map concat]. rewrite app_nil_r. reflexivity. Qed.
Lemma args_are_ok : args_ok n a.
Proof.
  destruct prepared_parts as (K & O & L & U & SK & SU & A & B). destruct W as (W1 & W2 & W3 & W4). pose proof (po_columns _ OK) as NC.
  rewrite prepared_is. destruct eq_blocks as (EB & _).
  destruct (stack_ok n [minimal_sparse_inequalities P; sparse_extra P (extra_inequalities s)]) as (MI & AI & RI).
  { constructor; [apply (po_ineq _ OK)|constructor; [apply (extra_ok _ (proj2 EX) B)|constructor]]. }
  destruct (stack_ok n [stack [minimal_sparse_equalities P; sparse_extra P (extra_equalities s)]; sparse_semiknown P (semiknown s)]) as (ME & AE & RE).
  { constructor; [exact EB|constructor; [apply semi_ok|constructor]]. }
  constructor; cbn; try (apply coo_vec_ok; assumption); try assumption.
  - pose proof (po_some _ OK) as S0. destruct (columns P); [congruence|cbn; lia].
  - rewrite RI. cbn. pose proof (po_rows _ OK). lia. Qed.
Lemma linked x : rk = false -> ri = false -> (problem_point n a x 0%Qc <-> lp_point P nonneg s (fun m => x (column P m))).
Proof.
  intros RK RI0. destruct prepared_parts as (K & O & L & U & SK & SU & A & B). destruct eq_blocks as (EB & EA).
  pose proof prepared_is as PI. rewrite RK, RI0 in PI. rewrite PI.
  destruct (stack_ok n [minimal_sparse_inequalities P; sparse_extra P (extra_inequalities s)]) as (MI & AI & RI).
  { constructor; [apply (po_ineq _ OK)|constructor; [apply (extra_ok _ (proj2 EX) B)|constructor]]. }
  destruct (stack_ok n [stack [minimal_sparse_equalities P; sparse_extra P (extra_equalities s)]; sparse_semiknown P (semiknown s)]) as (ME & AE & RE).
  { constructor; [exact EB|constructor; [apply semi_ok|constructor]]. }
  assert (MIN : forall m i, matrix_ok n m -> entry_sum m i (fun j => x (column P (nth j (columns P) []))) = entry_sum m i x).
  { intros m i M. apply (entry_sum_cols n); [assumption|]. intros j J. unfold column. rewrite (index_of_nth m_eqb m_eqb_eq) by (try assumption; apply (po_columns _ OK)). reflexivity. }
  assert (VI : Forall (fun v => (0 <= v)%Qc) (act (stack [minimal_sparse_inequalities P; sparse_extra P (extra_inequalities s)]) x) <->
    (forall i, i < c_rows (minimal_sparse_inequalities P) -> (0 <= entry_sum (minimal_sparse_inequalities P) i x)%Qc) /\ (forall d, In d (extra_inequalities s) -> (0 <= expr_at (fun m => x (column P m)) d)%Qc)).
  { rewrite AI. cbn [map concat]. rewrite app_nil_r, Forall_app, Forall_act. unfold sparse_extra. rewrite rows_act, map_map, Forall_map, Forall_forall.
    split; intros (H1 & H2); (split; [exact H1|]); intros d D; specialize (H2 d D); rewrite indexed_sum in *; exact H2. }
  assert (VE : Forall (fun v => v = 0%Qc) (act (stack [stack [minimal_sparse_equalities P; sparse_extra P (extra_equalities s)]; sparse_semiknown P (semiknown s)]) x) <->
    (forall i, i < c_rows (minimal_sparse_equalities P) -> entry_sum (minimal_sparse_equalities P) i x = 0%Qc) /\ (forall d, In d (extra_equalities s) -> expr_at (fun m => x (column P m)) d = 0%Qc) /\
    (forall m k u, In (m, (k, u)) (semiknown s) -> x (column P m) = (k * x (column P u))%Qc)).
  { rewrite AE. cbn [map concat]. rewrite app_nil_r, EA, !Forall_app, Forall_act. unfold sparse_extra, sparse_semiknown. rewrite semiknown_rows, !rows_act, !map_map, !Forall_map, !Forall_forall.
    split.
    - intros ((H1 & H2) & H3). split; [exact H1|]. split.
      + intros d D. specialize (H2 d D). rewrite indexed_sum in H2. exact H2.
      + intros m k u I. specialize (H3 _ I). cbn [map fst snd] in H3. rewrite !sumQ_cons, sumQ_nil in H3.
        replace (x (column P m)) with ((1 * x (column P m) + (- k * x (column P u) + 0)) + k * x (column P u))%Qc by ring. rewrite H3. ring.
    - intros (H1 & H2 & H3). split; [split; [exact H1|]|].
      + intros d D. rewrite indexed_sum. apply H2. exact D.
      + intros (m & (k & u)) I. cbn [map fst snd]. rewrite !sumQ_cons, sumQ_nil, (H3 m k u I). ring. }
  split.
  - intros [Q1 Q2 Q3 Q4 Q5 Q6]. cbn [inequalities equalities known_vars lower_bounds upper_bounds default_non_negative relax_known_vars relax_inequalities] in *.
    assert (X1 : Forall (fun v => (0 <= v)%Qc) (act (stack [minimal_sparse_inequalities P; sparse_extra P (extra_inequalities s)]) x)).
    { apply Forall_act. intros i I. specialize (Q1 i I). rewrite Qcplus_0_r in Q1. exact Q1. }
    apply VI in X1 as (X1 & X1'). assert (X2 := proj2 (Forall_act (fun v => v = 0%Qc) _ x) Q2). apply VE in X2 as (X2 & X3 & X4).
    constructor; auto.
    + intros i I. rewrite MIN by apply (po_eq _ OK). auto.
    + intros i I. rewrite MIN by apply (po_ineq _ OK). auto.
    + intros m v I. apply (Q3 (0, column P m, v)). apply coo_vec_in. eauto.
    + intros m v I. apply (Q4 (0, column P m, v)). apply coo_vec_in. eauto.
    + intros m v I. apply (Q5 (0, column P m, v)). apply coo_vec_in. eauto.
    + intros NN m I. apply Q6; [reflexivity|assumption|]. apply column_ok. assumption.
  - intros [Q1 Q2 Q3 Q4 Q5 Q6 Q7 Q8 Q9]. constructor; cbn [inequalities equalities known_vars lower_bounds upper_bounds default_non_negative relax_known_vars relax_inequalities] in *.
    + assert (X : Forall (fun v => (0 <= v)%Qc) (act (stack [minimal_sparse_inequalities P; sparse_extra P (extra_inequalities s)]) x)).
      { apply VI. split; [|assumption]. intros i I. specialize (Q2 i I). rewrite MIN in Q2 by apply (po_ineq _ OK). assumption. }
      rewrite Forall_act in X. intros i I. rewrite Qcplus_0_r. auto.
    + assert (X : Forall (fun v => v = 0%Qc) (act (stack [stack [minimal_sparse_equalities P; sparse_extra P (extra_equalities s)]; sparse_semiknown P (semiknown s)]) x)).
      { apply VE. split; [|auto]. intros i I. specialize (Q1 i I). rewrite MIN in Q1 by apply (po_eq _ OK). assumption. }
      rewrite Forall_act in X. exact X.
    + intros e I. apply coo_vec_in in I as (m & v & I & ->). exact (Q6 m v I).
    + intros e I. apply coo_vec_in in I as (m & v & I & ->). exact (Q7 m v I).
    + intros e I. apply coo_vec_in in I as (m & v & I & ->). exact (Q8 m v I).
    + intros _ NN j J. rewrite <- (index_of_nth m_eqb m_eqb_eq (columns P) [] j (po_columns _ OK) J). apply (Q9 NN). apply nth_In. assumption. Qed.
Lemma linked_objective x : objective_at a x = expr_at (fun m => x (column P m)) (ProgramModel.objective s).
Proof. rewrite prepared_is. unfold objective_at. cbn [LPSolveModel.objective coo_vec c_ent]. rewrite map_map. unfold e_val, e_col. cbn [fst snd]. apply indexed_sum. Qed.
End Link.

(** dictionaries of reachable states have no repeated key *)
Lemma nodup_supports_lower l d : NoDup (keys d) -> NoDup (keys (fold_left (fun d (p : moment * Qc) => set meq (fst p) 1%Qc d) l d)).
Proof. revert d. induction l as [|p l IH]; cbn [fold_left]; intros d N; [assumption|]. apply IH, nodup_set, N. Qed.
Lemma reachable_bounds_nodup t c s : reachable t c s -> NoDup (keys (lower s)) /\ NoDup (keys (upper s)).
Proof.
  intros R. revert s R. apply (reachable_invariant (fun s => NoDup (keys (lower s)) /\ NoDup (keys (upper s))) t c).
  - cbn. split; [|constructor]. destruct t; [|constructor]. unfold default_lower. generalize (hermitian_moments c). intros l.
    assert (G : forall d, NoDup (keys d) -> NoDup (keys (fold_left (fun d m => set meq m 0%Qc d) l d))) by (induction l as [|m l IH]; cbn [fold_left]; intros d N; [assumption|apply IH, nodup_set, N]).
    apply G. constructor.
  - intros o s s' (NL & NU).
    assert (CL : forall s2 s3, lower s2 = lower s -> upper s2 = upper s -> cleanup t c s2 = Some s3 -> NoDup (keys (lower s3)) /\ NoDup (keys (upper s3))).
    { intros s2 s3 EL EU EC.
      assert (N2 : NoDup (keys (lower (supports_step c s2))) /\ NoDup (keys (upper (supports_step c s2)))).
      { unfold supports_step. destruct (supports_problem c); cbn [with_bounds with_values lower upper]; rewrite ?EL, ?EU; split; auto. apply nodup_supports_lower. assumption. }
      destruct N2 as (N2 & N3). destruct t; cbn [cleanup] in EC.
      - unfold cleanup_sdp in EC. destruct (update_bounds lo_ok _ _) as [lb|] eqn:LB; [|discriminate]. destruct (update_bounds up_ok _ _) as [ub|] eqn:UB; [|discriminate].
        destruct (update_objective _ _ _) as [p|]; [|discriminate]. injection EC as <-. cbn. split; eapply update_bounds_nodup; [|exact LB| |exact UB]; assumption.
      - unfold cleanup_lp in EC. injection EC as <-. cbn. auto. }
    destruct o; cbn [step].
    + rewrite set_values_is. apply CL; reflexivity.
    + unfold update_values. destruct values as [|p values]; [intros E; injection E as <-; auto|]. destruct (assign_values _ _ _ _ _ _) as (d, sk). apply CL; reflexivity.
    + unfold set_bounds. destruct (sanitised_bounds bounds) as [d|] eqn:SB; [|discriminate]. pose proof (sanitised_nodup _ _ SB) as ND. destruct t, bt.
      * destruct (update_bounds up_ok _ _) as [ub|] eqn:UB; [|discriminate]. intros E. injection E as <-. cbn. split; [assumption|]. eapply update_bounds_nodup; [|exact UB]. assumption.
      * destruct (update_bounds lo_ok _ (default_lower c)) as [l0|] eqn:L0; [|discriminate]. destruct (update_bounds lo_ok (known s) (update meq l0 d)) as [lb|] eqn:LB; [|discriminate]. intros E. injection E as <-. cbn. split; [|assumption].
        eapply update_bounds_nodup; [|exact LB]. apply nodup_update. eapply update_bounds_nodup; [|exact L0].
        unfold default_lower. generalize (hermitian_moments c). intros l.
        assert (G : forall d, NoDup (keys d) -> NoDup (keys (fold_left (fun d m => set meq m 0%Qc d) l d))) by (induction l as [|m l IH]; cbn [fold_left]; intros d' N; [assumption|apply IH, nodup_set, N]).
        apply G. constructor.
      * intros E. injection E as <-. cbn. auto.
      * intros E. injection E as <-. cbn. auto.
    + intros E. apply objective_values in E as (_ & _ & L & U & _). rewrite L, U. auto.
    + intros E. injection E as <-. auto.
    + intros E. injection E as <-. auto. Qed.
