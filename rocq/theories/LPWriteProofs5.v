(** The MPS file. *)
From Coq Require Import List Arith Bool Ascii String ZArith QArith Qcanon Permutation Lia.
From Verif Require Import MargModel QcSum QcArith SearchModel SearchProofs ProgramModel SDPSolveModel SDPSolveSpec SDPSolveProofs SdpaModel SdpaProofs LPWriteModel LPWriteSpec LPWriteProofs LPWriteProofs2 LPWriteProofs3 LPWriteProofs4.
Import ListNotations.
Open Scope nat_scope.
Open Scope list_scope.

Lemma nodup_app {A} (l l' : list A) : NoDup l -> NoDup l' -> (forall x, In x l -> ~ In x l') -> NoDup (l ++ l').
Proof.
  induction l as [|x l IH]; intros N N' D; [exact N'|]. apply NoDup_cons_iff in N as [N1 N2]. cbn [app]. constructor.
  - intros H. apply in_app_iff in H as [H|H]; [contradiction|]. apply (D x); [left; reflexivity|exact H].
  - apply IH; [exact N2|exact N'|]. intros y Hy. apply D. right; exact Hy.
Qed.
Lemma nodup_flat_map {A B} (f : A -> list B) l : NoDup l -> (forall x, In x l -> NoDup (f x)) ->
  (forall x y b, In x l -> In y l -> In b (f x) -> In b (f y) -> x = y) -> NoDup (flat_map f l).
Proof.
  induction l as [|x l IH]; intros N H D; [constructor|]. apply NoDup_cons_iff in N as [N1 N2]. cbn [flat_map]. apply nodup_app.
  - apply H. left; reflexivity.
  - apply IH; [exact N2| |]; intros; [apply H; right; assumption|eapply D; [right; eassumption|right; eassumption|eassumption|eassumption]].
  - intros b Hb Hb'. apply in_flat_map in Hb' as (y & Hy & Hb'). assert (x = y) by (eapply D; [left; reflexivity|right; exact Hy|eassumption|eassumption]). subst y. contradiction.
Qed.
Lemma fixed4_exact c : four_decimals c -> fixed4 c = c.
Proof.
  intros [z E]. unfold fixed4, np_round. assert (T : ten_to 4 = Q2Qc 10000) by (apply Qc_is_canon; reflexivity). rewrite <- T in E. rewrite E, rint_integer. rewrite <- E. field. apply ten_to_nz.
Qed.
Lemma fixed4_0 : fixed4 0 = 0%Qc. Proof. apply np_round_0. Qed.

Lemma enumerate_app {A} k (l l' : list A) : enumerate k (l ++ l') = enumerate k l ++ enumerate (k + length l) l'.
Proof.
  unfold enumerate. rewrite app_length, seq_app. revert k. induction l as [|x l IH]; intros k; [cbn [length app]; rewrite Nat.add_0_r; reflexivity|].
  cbn [length seq app combine]. f_equal. specialize (IH (S k)). replace (k + S (length l)) with (S k + length l) by lia. exact IH.
Qed.
Lemma enumerate_In {A} k (l : list A) i d : In (i, d) (enumerate k l) -> k <= i /\ nth_error l (i - k) = Some d.
Proof.
  unfold enumerate. revert k. induction l as [|x l IH]; intros k H; [destruct H|]. cbn [length seq combine] in H. destruct H as [H|H].
  - injection H as <- <-. split; [lia|]. rewrite Nat.sub_diag. reflexivity.
  - apply IH in H as [H1 H2]. split; [lia|]. replace (i - k) with (S (i - S k)) by lia. exact H2.
Qed.
Lemma enumerate_nth {A} k (l : list A) i d : nth_error l i = Some d -> In (k + i, d) (enumerate k l).
Proof.
  unfold enumerate. revert k i. induction l as [|x l IH]; intros k i H; [destruct i; discriminate H|]. cbn [length seq combine]. destruct i as [|i].
  - cbn in H. injection H as ->. left. f_equal. lia.
  - right. specialize (IH (S k) i H). replace (k + S i) with (S k + i) by lia. exact IH.
Qed.
Lemma enumerate_cons {A} k (x : A) l : enumerate k (x :: l) = (k, x) :: enumerate (S k) l. Proof. reflexivity. Qed.
Lemma sum_enumerate {A} (g : A -> Qc) (l : list A) i : forall k, sumQ (map (fun q => if i =? fst q then g (snd q) else 0%Qc) (enumerate k l)) =
  if k <=? i then match nth_error l (i - k) with Some d => g d | None => 0%Qc end else 0%Qc.
Proof.
  induction l as [|x l IH]; intros k; [cbn [enumerate length seq combine map]; destruct (k <=? i); [destruct (i - k)|]; reflexivity|].
  rewrite enumerate_cons. cbn [map fst snd]. rewrite sumQ_cons, IH. destruct (Nat.eqb_spec i k) as [->|N].
  - rewrite Nat.leb_refl, Nat.sub_diag. cbn [nth_error]. replace (S k <=? k) with false by (symmetry; apply Nat.leb_gt; lia). ring.
  - destruct (Nat.leb_spec k i); destruct (Nat.leb_spec (S k) i); try lia; [|ring]. replace (i - k) with (S (i - S k)) by lia. cbn [nth_error]. ring.
Qed.
Lemma sum_members (V U : list nat) (g : nat -> Qc) : NoDup V -> NoDup U -> incl U V ->
  sumQ (map (fun k => if imem k U then g k else 0%Qc) V) = sumQ (map g U).
Proof.
  intros NV NU I. rewrite <- (sumQ_filter V (fun k => imem k U) g). apply sumQ_perm, Permutation_map. apply perm_of_same_elements; [apply NoDup_filter; exact NV|exact NU|].
  intros k. rewrite filter_In, imem_iff. split; [intros [_ H]; exact H|intros H; split; [apply I; exact H|exact H]].
Qed.
Lemma sumQ_map_flat {A B} (h : B -> Qc) (f : A -> list B) l : sumQ (map h (flat_map f l)) = sumQ (map (fun v => sumQ (map h (f v))) l).
Proof. induction l as [|x l IH]; [reflexivity|]. cbn [flat_map map]. rewrite map_app, sumQ_app, IH. reflexivity. Qed.

Section File.
Variable order : list nat -> list nat.
Variable p : processed.
Notation known := (p_known p).
Definition rows_of : list (idict Qc) := with_unknowns known (p_equalities p) ++ with_unknowns known (p_inequalities p).
Hypothesis NV : NoDup (p_variables p).
Hypothesis NK : forall d, In d (p_objective p :: rows_of) -> NoDup (keys d) /\ incl (keys d) (p_variables p).

Definition column (k : nat) : list (nat * row * Qc) :=
  (if imem k (unknown_part known (p_objective p)) then [(k, Objective, fixed4 (igetd k (p_objective p)))] else []) ++ column_entries known k 0 rows_of.
Lemma columns_eq : m_columns (mps_of order p) = flat_map column (p_variables p).
Proof.
  unfold mps_of. cbn [m_columns]. apply flat_map_ext. intros k. unfold column. f_equal. unfold column_entries, rows_of. rewrite enumerate_app, flat_map_app. rewrite Nat.add_0_l. reflexivity.
Qed.
Lemma unknown_wf d : In d (p_objective p :: rows_of) -> NoDup (unknown_part known d) /\ incl (unknown_part known d) (p_variables p).
Proof.
  intros H. destruct (NK d H) as [H1 H2]. split; [apply NoDup_filter; exact H1|]. intros k Hk. apply H2. unfold unknown_part in Hk. apply filter_In in Hk. apply Hk.
Qed.
Lemma row_sum_row x i : row_sum (mps_of order p) x (Row i) =
  match nth_error rows_of i with Some d => sumQ (map (fun k => fixed4 (igetd k d) * x k)%Qc (unknown_part known d)) | None => 0%Qc end.
Proof.
  unfold row_sum. rewrite columns_eq, sumQ_map_flat.
  rewrite (sumQ_ext _ _ (fun k => match nth_error rows_of i with Some d => if imem k (unknown_part known d) then (fixed4 (igetd k d) * x k)%Qc else 0%Qc | None => 0%Qc end)).
  - destruct (nth_error rows_of i) as [d|] eqn:E; [|apply sumQ_zero; reflexivity]. apply (sum_members (p_variables p) (unknown_part known d) (fun k => (fixed4 (igetd k d) * x k)%Qc)); [exact NV| |]; apply (unknown_wf d); right; eapply nth_error_In; exact E.
  - intros k _. unfold column. rewrite map_app, sumQ_app. replace (sumQ _) with 0%Qc at 1 by (destruct (imem k _); [cbn [map same_row]; rewrite sumQ_cons, sumQ_nil; ring|reflexivity]).
    rewrite Qcplus_0_l. unfold column_entries. rewrite sumQ_map_flat.
    rewrite (sumQ_ext _ _ (fun q => if i =? fst q then (if imem k (unknown_part known (snd q)) then (fixed4 (igetd k (snd q)) * x k)%Qc else 0%Qc) else 0%Qc)).
    + rewrite (sum_enumerate (fun d => if imem k (unknown_part known d) then (fixed4 (igetd k d) * x k)%Qc else 0%Qc)). cbn [Nat.leb]. rewrite Nat.sub_0_r. reflexivity.
    + intros [j d] _. cbn [fst snd]. destruct (imem k (unknown_part known d)); cbn [map same_row]; [rewrite sumQ_cons, sumQ_nil; destruct (i =? j); ring|rewrite sumQ_nil; destruct (i =? j); reflexivity].
Qed.
Lemma row_sum_objective x : row_sum (mps_of order p) x Objective = sumQ (map (fun k => fixed4 (igetd k (p_objective p)) * x k)%Qc (unknown_part known (p_objective p))).
Proof.
  unfold row_sum. rewrite columns_eq, sumQ_map_flat.
  rewrite (sumQ_ext _ _ (fun k => if imem k (unknown_part known (p_objective p)) then (fixed4 (igetd k (p_objective p)) * x k)%Qc else 0%Qc)).
  - apply (sum_members (p_variables p) (unknown_part known (p_objective p)) (fun k => (fixed4 (igetd k (p_objective p)) * x k)%Qc)); [exact NV| |]; apply unknown_wf; left; reflexivity.
  - intros k _. unfold column. rewrite map_app, sumQ_app. assert (Z : sumQ (map (fun '(k0, r', c) => if same_row Objective r' then (c * x k0)%Qc else 0%Qc) (column_entries known k 0 rows_of)) = 0%Qc).
    { unfold column_entries. rewrite sumQ_map_flat. apply sumQ_zero. intros [j d] _. destruct (imem k (unknown_part known d)); cbn [map same_row]; rewrite ?sumQ_cons, sumQ_nil; ring. }
    rewrite Z. destruct (imem k _); cbn [map same_row]; rewrite ?sumQ_cons, sumQ_nil; ring.
Qed.
Lemma rhs_entry_sum r v r0 : sumQ (map (fun '(r', c) => if same_row r0 r' then c else 0%Qc) (rhs_entry r v)) = if same_row r0 r then fixed4 v else 0%Qc.
Proof.
  unfold rhs_entry. destruct (Qc_eq_dec v 0) as [->|N].
  - cbn [map]. rewrite sumQ_nil, fixed4_0. destruct (same_row r0 r); reflexivity.
  - cbn [map]. rewrite sumQ_cons, sumQ_nil. ring.
Qed.
Lemma rhs_row i : row_rhs (mps_of order p) (Row i) = match nth_error rows_of i with Some d => fixed4 (minus_known order known d) | None => 0%Qc end.
Proof.
  unfold row_rhs, mps_of. cbn [m_rhs]. rewrite map_app, sumQ_app, rhs_entry_sum. change (same_row (Row i) Objective) with false. cbn match. rewrite Qcplus_0_l, sumQ_map_flat. fold rows_of.
  rewrite (sumQ_ext _ _ (fun q => if i =? fst q then fixed4 (minus_known order known (snd q)) else 0%Qc)).
  - rewrite (sum_enumerate (fun d => fixed4 (minus_known order known d))). cbn [Nat.leb]. rewrite Nat.sub_0_r. reflexivity.
  - intros [j d] _. cbn beta iota. rewrite rhs_entry_sum. reflexivity.
Qed.
Lemma rhs_objective : row_rhs (mps_of order p) Objective = fixed4 (minus_known order known (p_objective p)).
Proof.
  unfold row_rhs, mps_of. cbn [m_rhs]. rewrite map_app, sumQ_app, rhs_entry_sum. change (same_row Objective Objective) with true. cbn match. rewrite sumQ_map_flat. rewrite sumQ_zero; [ring|]. intros [j d] _. cbn beta iota. rewrite rhs_entry_sum. reflexivity.
Qed.
Lemma rows_In k i : In (k, i) (m_rows (mps_of order p)) <-> exists d, nth_error rows_of i = Some d /\
  match k with E_row => i < length (with_unknowns known (p_equalities p)) | G_row => length (with_unknowns known (p_equalities p)) <= i end.
Proof.
  unfold mps_of. cbn [m_rows]. set (E := with_unknowns known (p_equalities p)). set (I := with_unknowns known (p_inequalities p)). rewrite in_app_iff, !in_map_iff. split.
  - intros [(j & H & S)|(j & H & S)]; apply in_seq in S.
    + assert (k = E_row /\ i = j) as [-> ->] by (split; congruence). destruct (nth_error rows_of j) as [d|] eqn:N.
      * exists d. split; [reflexivity|lia].
      * exfalso. apply nth_error_None in N. unfold rows_of in N. rewrite app_length in N. fold E I in N. lia.
    + assert (k = G_row /\ i = length E + j) as [-> ->] by (split; congruence). destruct (nth_error rows_of (length E + j)) as [d|] eqn:N.
      * exists d. split; [reflexivity|lia].
      * exfalso. apply nth_error_None in N. unfold rows_of in N. rewrite app_length in N. fold E I in N. lia.
  - intros (d & N & L). assert (B : i < length E + length I). { replace (length E + length I) with (length rows_of) by (unfold rows_of; rewrite app_length; reflexivity). apply nth_error_Some. congruence. }
    destruct k; [left; exists i|right; exists (i - length E)]; (split; [f_equal; lia|apply in_seq; lia]).
Qed.
Lemma rows_seq : map snd (m_rows (mps_of order p)) = seq 0 (length rows_of).
Proof.
  unfold mps_of. cbn [m_rows]. rewrite map_app, !map_map. cbn [snd]. rewrite map_id. unfold rows_of. rewrite app_length, seq_app. f_equal.
  rewrite Nat.add_0_l. generalize (length (with_unknowns known (p_equalities p))) as n. generalize (length (with_unknowns known (p_inequalities p))) as m. clear. intros m n.
  assert (G : forall k, map (fun x => n + x) (seq k m) = seq (n + k) m).
  { induction m as [|m IH]; intros k; [reflexivity|]. cbn [seq map]. f_equal. rewrite IH. f_equal. lia. }
  rewrite G, Nat.add_0_r. reflexivity.
Qed.
Lemma column_fst k : NoDup (map fst (column k)) /\ forall q, In q (map fst (column k)) -> fst q = k.
Proof.
  unfold column. rewrite map_app.
  assert (CE : forall j l, NoDup (map fst (column_entries known k j l)) /\ forall q, In q (map fst (column_entries known k j l)) -> exists i, q = (k, Row i) /\ j <= i).
  { intros j l. revert j. induction l as [|d l IH]; intros j; [split; [constructor|intros q []]|]. unfold column_entries. rewrite enumerate_cons. cbn [flat_map]. fold (column_entries known k (S j) l).
    destruct (IH (S j)) as [IH1 IH2]. destruct (imem k (unknown_part known d)).
    - cbn [app map fst]. split.
      + constructor; [|exact IH1]. intros H. destruct (IH2 _ H) as (i & E & L). assert (j = i) by congruence. lia.
      + intros q [<-|H]; [exists j; split; [reflexivity|lia]|]. destruct (IH2 q H) as (i & -> & L). exists i. split; [reflexivity|lia].
    - cbn [app]. split; [exact IH1|]. intros q H. destruct (IH2 q H) as (i & -> & L). exists i. split; [reflexivity|lia]. }
  destruct (CE 0 rows_of) as [C1 C2]. split.
  - apply nodup_app; [destruct (imem k _); cbn [map fst]; constructor; [intros []|constructor]|exact C1|]. intros q H H'. destruct (C2 q H') as (i & -> & _). destruct (imem k _); [destruct H as [H|[]]; discriminate H|destruct H].
  - intros q H. apply in_app_iff in H as [H|H]; [destruct (imem k _); [destruct H as [<-|[]]; reflexivity|destruct H]|]. destruct (C2 q H) as (i & -> & _). reflexivity.
Qed.
Lemma columns_NoDup : NoDup (map fst (m_columns (mps_of order p))).
Proof.
  rewrite columns_eq. replace (map fst (flat_map column (p_variables p))) with (flat_map (fun k => map fst (column k)) (p_variables p)).
  2: { generalize (p_variables p) as l. intros l. induction l as [|k l IH]; [reflexivity|]. cbn [flat_map]. rewrite map_app, IH. reflexivity. }
  apply nodup_flat_map; [exact NV|intros k _; apply column_fst|]. intros k k' q _ _ H H'. apply column_fst in H, H'. congruence.
Qed.
Lemma column_In k r c : In (k, r, c) (m_columns (mps_of order p)) <-> In k (p_variables p) /\
  match r with
  | Objective => In k (unknown_part known (p_objective p)) /\ c = fixed4 (igetd k (p_objective p))
  | Row i => exists d, nth_error rows_of i = Some d /\ In k (unknown_part known d) /\ c = fixed4 (igetd k d)
  end.
Proof.
  rewrite columns_eq, in_flat_map. split.
  - intros (v & V & H). unfold column in H. apply in_app_iff in H as [H|H].
    + destruct (imem v (unknown_part known (p_objective p))) eqn:M; [|destruct H]. destruct H as [H|[]]. assert (v = k /\ r = Objective /\ c = fixed4 (igetd v (p_objective p))) as (-> & -> & ->) by (split; [|split]; congruence).
      apply imem_iff in M. split; [exact V|split; [exact M|reflexivity]].
    + unfold column_entries in H. apply in_flat_map in H as ([i d] & E & H). destruct (imem v (unknown_part known d)) eqn:M; [|destruct H]. destruct H as [H|[]].
      assert (v = k /\ r = Row i /\ c = fixed4 (igetd v d)) as (-> & -> & ->) by (split; [|split]; congruence). apply enumerate_In in E as [_ E]. rewrite Nat.sub_0_r in E. apply imem_iff in M.
      split; [exact V|]. exists d. split; [exact E|split; [exact M|reflexivity]].
  - intros [V H]. exists k. split; [exact V|]. unfold column. apply in_app_iff. destruct r as [|i].
    + destruct H as [H ->]. left. apply imem_iff in H. rewrite H. left; reflexivity.
    + destruct H as (d & E & H & ->). right. unfold column_entries. apply in_flat_map. exists (i, d). split; [apply (enumerate_nth 0); exact E|]. apply imem_iff in H. rewrite H. left; reflexivity.
Qed.
Lemma rhs_fst : NoDup (map fst (m_rhs (mps_of order p))) /\ forall i c, In (Row i, c) (m_rhs (mps_of order p)) -> i < length rows_of.
Proof.
  unfold mps_of. cbn [m_rhs]. fold rows_of.
  assert (G : forall l j, NoDup (map fst (flat_map (fun '(i, d) => rhs_entry (Row i) (minus_known order known d)) (enumerate j l))) /\
     forall r, In r (map fst (flat_map (fun '(i, d) => rhs_entry (Row i) (minus_known order known d)) (enumerate j l))) -> exists i, r = Row i /\ j <= i < j + length l).
  { induction l as [|d l IH]; intros j; [split; [constructor|intros r []]|]. rewrite enumerate_cons. cbn [flat_map]. rewrite map_app. destruct (IH (S j)) as [IH1 IH2]. unfold rhs_entry at 1 3.
    destruct (Qc_eq_dec (minus_known order known d) 0).
    - cbn [map app length]. split; [exact IH1|]. intros r H. destruct (IH2 r H) as (i & -> & L). exists i. split; [reflexivity|lia].
    - cbn [map app length fst]. split; [constructor; [|exact IH1]|].
      + intros H. destruct (IH2 _ H) as (i & E & L). assert (j = i) by congruence. lia.
      + intros r [<-|H]; [exists j; split; [reflexivity|lia]|]. destruct (IH2 r H) as (i & -> & L). exists i. split; [reflexivity|lia]. }
  destruct (G rows_of 0) as [G1 G2]. split.
  - rewrite map_app. apply nodup_app; [unfold rhs_entry; destruct (Qc_eq_dec _ 0); cbn [map fst]; constructor; [intros []|constructor]|exact G1|].
    intros r H H'. destruct (G2 r H') as (i & -> & _). unfold rhs_entry in H. destruct (Qc_eq_dec _ 0); [destruct H|destruct H as [H|[]]; discriminate H].
  - intros i c H. apply in_app_iff in H as [H|H].
    + unfold rhs_entry in H. destruct (Qc_eq_dec _ 0); [destruct H|destruct H as [H|[]]; discriminate H].
    + destruct (G2 (Row i)) as (i' & E & L); [apply in_map_iff; exists (Row i, c); split; [reflexivity|exact H]|]. assert (i = i') by congruence. lia.
Qed.
End File.
