(** C48: the MATLAB file describes the same programme. *)
From Coq Require Import List Arith Bool Lia String QArith Qcanon Lqa.
From Verif Require Import MargModel QcSum QcArith SearchModel SearchProofs ProgramModel SDPSolveModel SDPSolveSpec PSD SdpaModel SdpaSpec MatModel MatSpec PropDict.
Import ListNotations.
Close Scope Q_scope. Close Scope Qc_scope. Open Scope nat_scope.

Lemma imem_in k l : imem k l = true <-> In k l.
Proof. unfold imem. destruct (in_dec Nat.eq_dec k l); split; intros; auto; discriminate. Qed.
Lemma in_shifted {V} o (d : idict V) k c : In (k, c) (shifted o d) <-> exists m, In (m, c) d /\ k = m + o.
Proof.
  unfold shifted. rewrite in_map_iff. split.
  - intros ([m c'] & E & H). cbn in E. inversion E; subst. eauto.
  - intros (m & H & ->). exists (m, c). split; [reflexivity|exact H].
Qed.
Lemma in_semi o (d : idict (Qc * nat)) k c k' : In (k, (c, k')) (semiknown_rows o d) <-> exists m m', In (m, (c, m')) d /\ k = m + o /\ k' = m' + o.
Proof.
  unfold semiknown_rows. rewrite in_map_iff. split.
  - intros ([m [c' m']] & E & H). cbn in E. inversion E; subst. eauto.
  - intros (m & m' & H & -> & ->). exists (m, (c, m')). split; [reflexivity|exact H].
Qed.
Lemma row_value_shift o (d : idict Qc) y : row_value y (constraint_rows o d) = combination d (fun m => y (m + o)).
Proof.
  unfold row_value, constraint_rows, combination. cbn [fst snd]. f_equal. induction d as [|q d IH]; [reflexivity|]. cbn. now rewrite IH.
Qed.
Lemma nth_map_default {A B} (f : A -> B) l i d d' : i < List.length l -> nth i (map f l) d' = f (nth i l d).
Proof. intros H. rewrite (nth_indep _ d' (f d)) by now rewrite map_length. apply map_nth. Qed.
Lemma mat_entry_shift p moments i j : (forall row, In row (momentmatrix p) -> List.length row = List.length (momentmatrix p)) ->
  i < List.length (momentmatrix p) -> j < List.length (momentmatrix p) ->
  mat_entry (write_to_mat p moments) i j = entry p i j + offset p.
Proof.
  intros SQ I J. unfold mat_entry, entry. cbn [write_to_mat mat_momentmatrix].
  rewrite (nth_map_default _ _ _ [] []) by exact I. refine (nth_map_default (fun m => m + offset p) _ _ 0 0 _). rewrite SQ; [exact J|]. apply nth_In. exact I.
Qed.
Lemma offset_01 p : (offset p = 1 /\ In 0 (entries p)) \/ (offset p = 0 /\ ~ In 0 (entries p)).
Proof.
  unfold offset. destruct (imem 0 (entries p)) eqn:E; [left|right]; split; try reflexivity.
  - now apply imem_in.
  - intros H. apply imem_in in H. congruence.
Qed.
Lemma value_close (l : list (nat * Qc)) v : (qabs (sumQ (map (fun q => snd q * v (fst q)) l)
    - sumQ (map (fun q => snd q * v (fst q)) (filter (fun q => not_tiny (snd q)) l))) <= atol * sumQ (map (fun q => qabs (v (fst q))) l))%Qc.
Proof.
  assert (T : forall a b s t : Qc, (qabs b <= t -> qabs a <= s -> qabs (a + b) <= s + t)%Qc).
  { intros a b s t. destruct (qabs_case a) as [(A & ->)|(A & ->)], (qabs_case b) as [(B & ->)|(B & ->)], (qabs_case (a + b)) as [(C & ->)|(C & ->)]; intros; qclra. }
  assert (SC : forall x l, sumQ (x :: l) = (x + sumQ l)%Qc) by reflexivity.
  induction l as [|[k c] l IH]; [apply Qle_bool_imp_le; vm_compute; reflexivity|].
  cbn [map filter fst snd]. unfold not_tiny at 1. rewrite !SC.
  revert IH. pose proof (qabs_nonneg (v k)) as N.
  generalize (sumQ (map (fun q => qabs (v (fst q))) l)) as W. generalize (sumQ (map (fun q => (snd q * v (fst q))%Qc) l)) as X. intros X W IH.
  destruct (qltb atol (qabs c)) eqn:E.
  - cbn [map fst snd]. rewrite SC. replace (c * v k + X - (c * v k + sumQ (map (fun q => snd q * v (fst q)) (filter (fun q => not_tiny (snd q)) l))))%Qc
      with (X - sumQ (map (fun q => snd q * v (fst q)) (filter (fun q => not_tiny (snd q)) l)))%Qc by ring.
    refine (Qcle_trans _ _ _ IH _). replace (atol * (qabs (v k) + W))%Qc with (atol * qabs (v k) + atol * W)%Qc by ring.
    assert (0 <= atol * qabs (v k))%Qc; [|qclra]. apply mult_nonneg; [discriminate|exact N].
  - apply qltb_false in E. revert IH. generalize (sumQ (map (fun q => (snd q * v (fst q))%Qc) (filter (fun q => not_tiny (snd q)) l))) as Y. intros Y IH.
    replace (c * v k + X - Y)%Qc with (c * v k + (X - Y))%Qc by ring.
    replace (atol * (qabs (v k) + W))%Qc with (atol * qabs (v k) + atol * W)%Qc by ring.
    apply T; [exact IH|].
    clear - E. revert E. generalize atol. intros t E.
    destruct (qabs_case c) as [[E1 E2]|[E1 E2]], (qabs_case (v k)) as [[F1 F2]|[F1 F2]], (qabs_case (c * v k)) as [[G1 G2]|[G1 G2]]; rewrite E2 in E; rewrite F2, G2; qcnra.
Qed.

(** ** The file and the programme say the same *)
Lemma readable p moments : mat_wf p moments -> mat_readable (write_to_mat p moments).
Proof.
  intros [SQ ONE ZERO USE]. destruct (offset_01 p) as [(O1 & IN0)|(O0 & NIN0)].
  - constructor; cbn [write_to_mat mat_momentmatrix mat_idx2name mat_objective mat_known_moments mat_semiknown_moments mat_lowerbounds mat_upperbounds mat_equalities mat_inequalities]; rewrite ?O1.
    + intros row k H K. apply in_map_iff in H as (r & <- & H). apply in_map_iff in K as (m & <- & K). lia.
    + intros row H. apply in_map_iff in H as (r & <- & H). rewrite !map_length. now apply SQ.
    + unfold shifted. rewrite map_map. intros k H. apply in_map_iff in H as (q & <- & H). cbn. lia.
    + unfold objective_rows. rewrite map_map. intros k H. apply in_map_iff in H as (q & <- & H). cbn. lia.
    + unfold shifted. rewrite map_map. intros k H. apply in_map_iff in H as (q & <- & H). cbn. lia.
    + intros k c k' H. apply in_semi in H as (m & m' & H & -> & ->). lia.
    + unfold shifted. rewrite !map_map. intros k [H|H]; apply in_map_iff in H as (q & <- & H); cbn; lia.
    + intros c [H|H]; apply in_map_iff in H as (d & <- & H); unfold constraint_rows; cbn [fst snd]; split; rewrite ?map_length; try reflexivity;
        intros k K; apply in_map_iff in K as (q & <- & K); lia.
  - assert (NU : ~ uses_zero p moments) by (intros H; exact (NIN0 (USE H))). unfold uses_zero in NU.
    assert (NZ : forall m, m <> 0 -> 1 <= m) by (intros; lia).
    constructor; cbn [write_to_mat mat_momentmatrix mat_idx2name mat_objective mat_known_moments mat_semiknown_moments mat_lowerbounds mat_upperbounds mat_equalities mat_inequalities]; rewrite ?O0.
    + intros row k H K. apply in_map_iff in H as (r & <- & H). apply in_map_iff in K as (m & <- & K).
      apply NZ. rewrite Nat.add_0_r. intros ->. apply NIN0. unfold entries. apply in_concat. eauto.
    + intros row H. apply in_map_iff in H as (r & <- & H). rewrite !map_length. now apply SQ.
    + unfold shifted. rewrite map_map. intros k H. apply in_map_iff in H as (q & <- & H). cbn. rewrite Nat.add_0_r. apply NZ. intros Z. apply NU. left. rewrite <- Z. now apply in_map.
    + unfold objective_rows. rewrite map_map. intros k H. apply in_map_iff in H as (q & <- & H). cbn. rewrite Nat.add_0_r. apply NZ. intros Z. apply NU. right. left. rewrite <- Z. apply filter_In in H as (H & _). now apply in_map.
    + unfold shifted. rewrite map_map. intros k H. apply in_map_iff in H as (q & <- & H). cbn. rewrite Nat.add_0_r. apply NZ. intros Z. apply NU. do 2 right. left. rewrite <- Z. now apply in_map.
    + intros k c k' H. apply in_semi in H as (m & m' & H & -> & ->). rewrite !Nat.add_0_r. split; apply NZ; intros Z; apply NU; do 3 right; left; exists m, c, m'; auto.
    + unfold shifted. rewrite !map_map. intros k [H|H]; apply in_map_iff in H as (q & <- & H); cbn; rewrite Nat.add_0_r; apply NZ; intros Z; apply NU; do 4 right; [left|right; left]; rewrite <- Z; now apply in_map.
    + intros c H. assert (H' : exists d, (In d (moment_equalities p) \/ In d (moment_inequalities p)) /\ c = constraint_rows 0 d)
        by (destruct H as [H|H]; apply in_map_iff in H as (d & <- & H); exists d; auto).
      destruct H' as (d & D & ->). unfold constraint_rows; cbn [fst snd]; split; rewrite ?map_length; try reflexivity.
      intros k K; apply in_map_iff in K as (q & <- & K). rewrite Nat.add_0_r. apply NZ; intros Z; apply NU. do 6 right. exists d. split; [exact D|]. rewrite <- Z. now apply in_map.
Qed.

Lemma satisfied_iff p moments v : mat_wf p moments -> v 0 = 0%Qc -> v 1 = 1%Qc ->
  mat_satisfied (write_to_mat p moments) (fun k => v (k - offset p)) <-> respects p v /\ feasible p v.
Proof.
  intros [SQ ONE ZERO USE] V0 V1.
  assert (E : forall m, v (m + offset p - offset p) = v m) by (intros; f_equal; lia).
  assert (RV : forall d, row_value (fun k => v (k - offset p)) (constraint_rows (offset p) d) = combination d v).
  { intros d. rewrite row_value_shift. unfold combination. apply sumQ_ext. intros q _. now rewrite E. }
  assert (PS : psd (List.length (mat_momentmatrix (write_to_mat p moments))) (fun i j => v (mat_entry (write_to_mat p moments) i j - offset p))
    <-> psd (List.length (momentmatrix p)) (fun i j => v (entry p i j))).
  { cbn [write_to_mat mat_momentmatrix]. rewrite map_length. fold (write_to_mat p moments).
    split; apply psd_ext; intros i j I J; rewrite mat_entry_shift by assumption; now rewrite E. }
  split.
  - intros [A B C D F G H]. split.
    + split; [exact V0|]. split; [exact V1|]. split.
      * intros m c I. rewrite <- (E m). apply B. apply in_shifted. eauto.
      * intros m c m' I. rewrite <- (E m), <- (E m'). apply C. apply in_semi. exists m, m'. auto.
    + split; [now apply PS|]. split; [|split; [|split]].
      * intros m b I _. rewrite <- (E m). apply F. apply in_shifted. eauto.
      * intros m b I _. rewrite <- (E m). apply D. apply in_shifted. eauto.
      * intros d I. rewrite <- RV. apply G. cbn [write_to_mat mat_equalities]. now apply in_map.
      * intros d I. rewrite <- RV. apply H. cbn [write_to_mat mat_inequalities]. now apply in_map.
  - intros ((_ & _ & B & C) & (A & F & D & G & H)). constructor.
    + now apply PS.
    + intros k c I. apply in_shifted in I as (m & I & ->). rewrite E. now apply B.
    + intros k c k' I. apply in_semi in I as (m & m' & I & -> & ->). rewrite !E. now apply C.
    + intros k c I. apply in_shifted in I as (m & I & ->). rewrite E. now apply D.
    + intros k c I. apply in_shifted in I as (m & I & ->). rewrite E. now apply F.
    + intros c I. apply in_map_iff in I as (d & <- & I). rewrite RV. now apply G.
    + intros c I. apply in_map_iff in I as (d & <- & I). rewrite RV. now apply H.
Qed.

Lemma Qc_square (y : Qc) : (0 <= y * y)%Qc.
Proof. qcnra. Qed.
Lemma row_value_ext c y y' : (forall k, In k (fst c) -> y k = y' k) -> row_value y c = row_value y' c.
Proof. intros H. unfold row_value. apply sumQ_ext. intros [k a] I. cbn [fst snd]. rewrite H; [reflexivity|]. now apply in_combine_l in I. Qed.
Lemma satisfied_ext f y y' : mat_readable f -> (forall k, 1 <= k -> y k = y' k) -> mat_satisfied f y -> mat_satisfied f y'.
Proof.
  intros [R1 RS R2 R3 R4 R5 R6 R7] X [A B C D F G H]. constructor.
  - revert A. apply psd_ext. intros i j I J. apply X. unfold mat_entry. apply (R1 (nth i (mat_momentmatrix f) [])); [now apply nth_In|].
    apply nth_In. rewrite RS; [exact J|now apply nth_In].
  - intros k c I. rewrite <- X; [now apply B|]. apply R4. now apply (in_map fst) in I.
  - intros k c k' I. destruct (R5 _ _ _ I). rewrite <- !X by assumption. now apply C.
  - intros k c I. rewrite <- X; [now apply D|]. apply R6. left. now apply (in_map fst) in I.
  - intros k c I. rewrite <- X; [now apply F|]. apply R6. right. now apply (in_map fst) in I.
  - intros c I. rewrite <- (row_value_ext c y y'); [now apply G|]. intros k K. apply X. now apply (proj2 (R7 c (or_introl I))).
  - intros c I. rewrite <- (row_value_ext c y y'); [now apply H|]. intros k K. apply X. now apply (proj2 (R7 c (or_intror I))).
Qed.

(** MATLAB can read the file, and moment m of the programme is index m + shift of the file, the
    same for all moments: values of the moments satisfy the programme exactly when they satisfy
    the file, and the objective is the same up to the coefficients below 1e-8 that are left out. *)
Theorem C48_same_programme p moments : mat_wf p moments ->
  mat_readable (write_to_mat p moments) /\
  exists shift, shift <= 1 /\
    (forall v, v 0 = 0%Qc -> v 1 = 1%Qc ->
      ((respects p v /\ feasible p v) <-> mat_satisfied (write_to_mat p moments) (fun k => v (k - shift))) /\
      (qabs (value p v - mat_value (write_to_mat p moments) (fun k => v (k - shift)%nat))
        <= Q2Qc (1 # 100000000) * sumQ (map (fun q => qabs (v (fst q))) (objective p)))%Qc) /\
    (forall y, mat_satisfied (write_to_mat p moments) y ->
      exists v, respects p v /\ feasible p v /\ forall m, 1 <= m -> v m = y (m + shift)).
Proof.
  intros W. split; [now apply readable|]. exists (offset p). split; [destruct (offset_01 p) as [(-> & _)|(-> & _)]; lia|]. split.
  - intros v V0 V1. split; [symmetry; now apply satisfied_iff|].
    pose proof (value_close (objective p) v) as C. unfold value, combination, mat_value. cbn [write_to_mat mat_objective]. unfold objective_rows.
    rewrite map_map. cbn [fst snd].
    match type of C with (qabs (_ - ?a) <= _)%Qc => match goal with |- (qabs (_ - ?b) <= _)%Qc => replace b with a; [exact C|] end end.
    apply sumQ_ext. intros q _. do 2 f_equal. lia.
  - intros y Y. pose (v := fun m => if m =? 0 then 0%Qc else y (m + offset p)).
    assert (X : forall k, 1 <= k -> y k = v (k - offset p)).
    { intros k K. unfold v. destruct (k - offset p =? 0) eqn:Z; [|f_equal; apply Nat.eqb_neq in Z; lia].
      apply Nat.eqb_eq in Z. destruct (offset_01 p) as [(O1 & IN0)|(O0 & _)]; [|lia].
      assert (k = 1) as -> by lia. apply (ms_known _ _ Y). cbn [write_to_mat mat_known_moments]. rewrite O1. apply in_shifted. exists 0. split; [now apply W|reflexivity]. }
    pose proof (satisfied_ext _ _ _ (readable _ _ W) X Y) as Y'.
    assert (V1 : v 1 = 1%Qc).
    { unfold v. cbn [Nat.eqb]. apply (ms_known _ _ Y). cbn [write_to_mat mat_known_moments]. apply in_shifted. exists 1. split; [apply W|reflexivity]. }
    exists v. destruct (proj1 (satisfied_iff p moments v W eq_refl V1) Y') as (R & F). split; [exact R|]. split; [exact F|].
    intros m M. unfold v. destruct m; [lia|reflexivity].
Qed.

(** The table of names gives index m + shift the name of moment m: so the entries of the file's
    matrix, looked up in the table, are the names of the moments in the programme's matrix. *)
Theorem C48_names p moments : NoDup (map fst moments) ->
  (forall row, In row (momentmatrix p) -> List.length row = List.length (momentmatrix p)) ->
  NoDup (map fst (mat_idx2name (write_to_mat p moments))) /\
  (forall name, In name (map snd (mat_idx2name (write_to_mat p moments))) <-> In name (map snd moments)) /\
  forall i j name, i < List.length (momentmatrix p) -> j < List.length (momentmatrix p) ->
    In (mat_entry (write_to_mat p moments) i j, name) (mat_idx2name (write_to_mat p moments)) <-> In (entry p i j, name) moments.
Proof.
  intros ND SQ. cbn [write_to_mat mat_idx2name]. split; [|split].
  - unfold shifted. rewrite map_map. cbn [fst]. rewrite <- (map_map fst (fun m => m + offset p)).
    apply FinFun.Injective_map_NoDup; [|exact ND]. intros a b E. lia.
  - intros name. unfold shifted. rewrite map_map. cbn [snd]. reflexivity.
  - intros i j name I J. rewrite mat_entry_shift by assumption. rewrite in_shifted. split.
    + intros (m & H & E). replace (entry p i j) with m by lia. exact H.
    + intros H. eauto.
Qed.

(** ** A case *)
Open Scope string_scope. Open Scope nat_scope. Open Scope list_scope.
Definition half : Qc := Q2Qc (1 # 2).
Definition mat_case : problem :=
  {| momentmatrix := [[1; 2; 3]; [2; 2; 0]; [3; 0; 3]]; known_moments := [(0, 0%Qc); (1, 1%Qc)]; semiknown_moments := [(3, (half, 2))];
     objective := [(1, half); (2, (- (1))%Qc)]; moment_upperbounds := [(2, half)]; moment_lowerbounds := [(2, 0%Qc); (3, 0%Qc)];
     moment_equalities := [[(2, 1%Qc); (3, (- (1 + 1))%Qc)]]; moment_inequalities := [[(1, 1%Qc); (2, (- (1))%Qc); (3, (- (1))%Qc)]] |}.
Definition mat_names : list (nat * string) := [(0, "0"); (1, "1"); (2, "P[A_0=0]"); (3, "P[A_0=1]")].
Example C48_case : mat_wf mat_case mat_names /\ write_to_mat mat_case mat_names =
  {| mat_idx2name := [(1, "0"); (2, "1"); (3, "P[A_0=0]"); (4, "P[A_0=1]")]; mat_momentmatrix := [[2; 3; 4]; [3; 3; 1]; [4; 1; 4]];
     mat_objective := [(2, half); (3, (- (1))%Qc)]; mat_known_moments := [(1, 0%Qc); (2, 1%Qc)]; mat_semiknown_moments := [(4, (half, 3))];
     mat_lowerbounds := [(3, 0%Qc); (4, 0%Qc)]; mat_upperbounds := [(3, half)];
     mat_equalities := [([3; 4], [1%Qc; (- (1 + 1))%Qc])]; mat_inequalities := [([2; 3; 4], [1%Qc; (- (1))%Qc; (- (1))%Qc])] |}.
Proof.
  split; [|reflexivity]. constructor.
  - cbn. intros row [<-|[<-|[<-|[]]]]; reflexivity.
  - cbn. tauto.
  - cbn. tauto.
  - cbn. tauto.
Qed.

(** The objective is not that of the programme: a coefficient of 1e-8 is left out, whatever the
    value of the moment. *)
Theorem C48_objective_refuted : exists p moments, mat_wf p moments /\
  (exists v, respects p v /\ feasible p v /\ value p v <> 0%Qc) /\
  forall y, mat_value (write_to_mat p moments) y = 0%Qc.
Proof.
  exists {| momentmatrix := [[1; 2]; [2; 2]]; known_moments := [(1, 1%Qc)]; semiknown_moments := []; objective := [(2, Q2Qc (1 # 100000000))];
     moment_upperbounds := []; moment_lowerbounds := []; moment_equalities := []; moment_inequalities := [] |}, [(1, "1"); (2, "P[A_0=0]")].
  split; [|split].
  - constructor; cbn.
    + intros row [<-|[<-|[]]]; reflexivity.
    + auto.
    + intros [H|[H|[H|[H|[]]]]]; discriminate.
    + unfold uses_zero. cbn. intros [[H|[H|[]]]|[[H|[]]|[[H|[]]|[(k & c & k' & [] & _)|[[]|[[]|(d & [[]|[]] & _)]]]]]]; discriminate.
  - exists (fun m => if m =? 0 then 0%Qc else 1%Qc). split; [|split].
    + split; [reflexivity|]. split; [reflexivity|]. split; [intros m c [E|[]]; inversion E; reflexivity|intros m c m' []].
    + split; [|cbn; repeat split; intros; try contradiction]. cbn [momentmatrix List.length]. apply (psd_ext _ (fun _ _ => 1%Qc)).
      * intros [|[|i]] [|[|j]] I J; try lia; reflexivity.
      * split; [intros i j _ _; reflexivity|]. intros x. cbn. 
        match goal with |- (0 <= ?e)%Qc => replace e with ((x 0%nat + x 1%nat) * (x 0%nat + x 1%nat))%Qc by ring end. apply Qc_square.
    + discriminate.
  - intros y. reflexivity.
Qed.

(** Without a zero in the matrix the indices are not shifted: a bound on (or an equality with)
    the zero moment gets index 0, which MATLAB does not have. *)
Theorem C48_zero_refuted : exists p moments, (forall row, In row (momentmatrix p) -> List.length row = List.length (momentmatrix p)) /\
  In (1, 1%Qc) (known_moments p) /\ (exists d, In d (moment_equalities p) /\ In 0 (map fst d)) /\ ~ mat_readable (write_to_mat p moments).
Proof.
  exists {| momentmatrix := [[1; 2]; [2; 2]]; known_moments := [(1, 1%Qc)]; semiknown_moments := []; objective := [];
     moment_upperbounds := []; moment_lowerbounds := []; moment_equalities := [[(2, 1%Qc); (0, 1%Qc)]]; moment_inequalities := [] |}, [(1, "1"); (2, "P[A_0=0]")].
  split; [cbn; intros row [<-|[<-|[]]]; reflexivity|]. split; [cbn; auto|]. split; [eexists; split; [left; reflexivity|cbn; auto]|].
  intros R. pose proof (proj2 (mr_constraints _ R _ (or_introl (or_introl eq_refl))) 0) as K. cbn in K. specialize (K (or_intror (or_introl eq_refl))). lia.
Qed.
