(** Dictionaries become sparse matrices that mean the same. *)
From Coq Require Import List Arith Bool Ascii String QArith Qcanon Lia Sorted.
From Verif Require Import ScenarioModel ScenarioProofs UniqueProofs MargModel QcSum QcArith FactorModel SearchModel ProgramModel LPSolveModel LPSolveSpec LPSolveProofs LPDictModel LPDictSpec.
From Verif Require PropSolve.
Import ListNotations.
Close Scope Q_scope. Close Scope Qc_scope. Open Scope string_scope. Open Scope nat_scope. Open Scope list_scope.

(** ** The order of strings *)
Lemma string_good_cmp : good_cmp string_compare.
Proof.
  split; unfold string_compare.
  - intros x y. rewrite (gc_eq _ lex_good_cmp). split; [|intros ->; reflexivity]. intros E.
    rewrite <- (string_of_list_ascii_of_string x), <- (string_of_list_ascii_of_string y). f_equal.
    revert E. generalize (list_ascii_of_string x), (list_ascii_of_string y). induction l as [|a l IH]; intros [|b l'] E; try discriminate; [reflexivity|].
    cbn [map] in E. injection E as Ea El. f_equal; [|apply IH, El]. rewrite <- (ascii_nat_embedding a), <- (ascii_nat_embedding b), Ea. reflexivity.
  - intros x y. apply (gc_anti _ lex_good_cmp).
  - intros x y z. apply (gc_trans _ lex_good_cmp).
Qed.

Section Vars.
Variable vars : list string.
Hypothesis ND : NoDup vars.
Notation n := (List.length vars).
Notation name j := (nth j vars "").

Lemma var_to_idx_shift i (l : list string) x : var_to_idx i l x = match var_to_idx 0 l x with Some j => Some (i + j) | None => None end.
Proof.
  revert i. induction l as [|v l IH]; intros i; cbn [var_to_idx]; [reflexivity|]. rewrite (IH (S i)), (IH 1).
  destruct (var_to_idx 0 l x) as [j|]; [f_equal; lia|]. destruct (String.eqb v x); [f_equal; lia|reflexivity].
Qed.
Lemma lookup_in x : In x vars -> exists j, lookup_var vars x = Some j /\ j < n /\ name j = x.
Proof.
  unfold lookup_var. clear ND. induction vars as [|v l IH]; intros H; [destruct H|]. cbn [var_to_idx]. rewrite var_to_idx_shift.
  destruct (var_to_idx 0 l x) as [j|] eqn:E.
  - exists (1 + j). split; [reflexivity|]. assert (H' : In x l).
    { clear -E. revert j E. induction l as [|v l IH]; intros j E; [discriminate|]. cbn [var_to_idx] in E. rewrite var_to_idx_shift in E. destruct (var_to_idx 0 l x) as [k|]; [right; apply (IH k eq_refl)|].
      destruct (String.eqb v x) eqn:Q; [|discriminate]. apply String.eqb_eq in Q as ->. left. reflexivity. }
    destruct (IH H') as (k & Ek & L & N). assert (j = k) by congruence. subst j. cbn [List.length nth Nat.add]. split; [lia|exact N].
  - destruct H as [->|H]; [|destruct (IH H) as (k & Ek & _); discriminate]. rewrite String.eqb_refl. exists 0. cbn. split; [reflexivity|]. split; [lia|reflexivity].
Qed.
Lemma lookup_nth j : j < n -> lookup_var vars (name j) = Some j.
Proof.
  intros Hj. destruct (lookup_in (name j) (nth_In _ _ Hj)) as (k & E & L & N). rewrite E. f_equal. apply (proj1 (NoDup_nth vars "") ND); assumption.
Qed.
Lemma lookup_none x : ~ In x vars -> lookup_var vars x = None.
Proof.
  unfold lookup_var. clear ND. induction vars as [|v l IH]; intros H; [reflexivity|]. cbn [var_to_idx]. rewrite var_to_idx_shift, IH by (intros C; apply H; right; exact C).
  destruct (String.eqb v x) eqn:Q; [|reflexivity]. apply String.eqb_eq in Q as ->. elim H. left. reflexivity.
Qed.

(** ** One dictionary *)
Definition term_of (i : nat) (q : string * Qc) (e : entry) : Prop := e_row e = i /\ e_col e < n /\ fst q = name (e_col e) /\ snd q = e_val e.
Lemma dict_entries_ok i d : (forall y, In y (map fst d) -> In y vars) -> exists es, dict_entries vars i d = Some es /\ Forall2 (term_of i) d es.
Proof.
  induction d as [|(y & v) d IH]; intros H; [exists []; split; [reflexivity|constructor]|]. destruct (IH (fun z Hz => H z (or_intror Hz))) as (es & E & F).
  destruct (lookup_in y (H y (or_introl eq_refl))) as (j & Ej & L & N). unfold dict_entries in *. cbn [map_opt fst snd]. rewrite Ej, E. eexists. split; [reflexivity|]. constructor; [|exact F].
  unfold term_of, e_row, e_col, e_val. cbn. auto.
Qed.
Lemma dict_entries_none i d y : In y (map fst d) -> ~ In y vars -> dict_entries vars i d = None.
Proof. intros Hy NI. apply map_opt_none. apply in_map_iff in Hy as (q & <- & Hq). exists q. split; [exact Hq|]. rewrite lookup_none by exact NI. reflexivity. Qed.
Definition at_names (x : string -> Qc) : nat -> Qc := fun j => x (name j).
Lemma terms_sum i d es x r c : Forall2 (term_of i) d es -> entry_sum (Coo r c es) i (at_names x) = expression x d.
Proof.
  unfold entry_sum, expression. cbn [c_ent]. induction 1 as [|q e d es (E1 & E2 & E3 & E4) F IH]; [reflexivity|]. cbn [map]. rewrite !sumQ_cons, IH. f_equal. rewrite E1, Nat.eqb_refl, E3, E4. reflexivity.
Qed.
Lemma terms_rows i d es : Forall2 (term_of i) d es -> forall e, In e es -> e_row e = i /\ e_col e < n.
Proof. induction 1 as [|q e d es (E1 & E2 & _) F IH]; intros e' He; [destruct He|]. destruct He as [<-|He]; auto. Qed.

(** ** Vectors *)
Definition vec_is (d : named) (m : coo) : Prop := Forall2 (fun q e => fst q = name (e_col e) /\ snd q = e_val e) d (c_ent m).
Lemma vec_is_in d m : vec_is d m -> forall P : string -> Qc -> Prop, (forall y v, In (y, v) d -> P y v) <-> (forall e, In e (c_ent m) -> P (name (e_col e)) (e_val e)).
Proof.
  unfold vec_is. intros F P. induction F as [|(y & v) e d es (E1 & E2) F IH]; [split; intros _ ? *; intros []|]. cbn [fst snd] in E1, E2. subst y v. split.
  - intros H e' [<-|He]; [apply H; left; reflexivity|]. apply (proj1 IH); [|exact He]. intros y v Hy. apply H. right. exact Hy.
  - intros H y v [Q|Hy]; [injection Q as <- <-; apply H; left; reflexivity|]. apply (proj2 IH); [|exact Hy]. intros e' He. apply H. right. exact He.
Qed.
Lemma vec_is_sum d m x : vec_is d m -> sumQ (map (fun e => e_val e * at_names x (e_col e))%Qc (c_ent m)) = expression x d.
Proof. unfold vec_is, expression. induction 1 as [|q e d es (E1 & E2) F IH]; [reflexivity|]. cbn [map]. rewrite !sumQ_cons, IH, E1, E2. reflexivity. Qed.
Lemma convert_vec_ok v : vec_ok vars v -> exists m, convert_vec vars v = Some m /\ vector_ok n m /\ vec_is (vec_says vars (Some v)) m.
Proof.
  destruct v as [m|d]; cbn [vec_ok convert_vec vec_says].
  - intros [W R N]. exists m. split; [reflexivity|]. split; [constructor; auto|]. unfold vec_is. clear. induction (c_ent m) as [|e l IH]; constructor; [split; reflexivity|exact IH].
  - intros (N & H). destruct (dict_entries_ok 0 d H) as (es & E & F). unfold to_sparse_dict. rewrite E. eexists. split; [reflexivity|].
    assert (EN : map fst d = map (fun j => name j) (map e_col es)).
    { clear -F. induction F as [|q e d es (_ & _ & E & _) F IH]; [reflexivity|]. cbn [map]. rewrite IH, E. reflexivity. }
    split; [constructor; cbn [c_cols c_ent]; [auto|exact (terms_rows 0 d es F)|rewrite EN in N; apply (NoDup_map_inv _ _ N)]|].
    unfold vec_is. cbn [c_ent]. clear -F. induction F as [|q e d es (_ & _ & E1 & E2) F IH]; constructor; auto.
Qed.

(** ** Matrices *)
Definition mat_is (l : list named) (m : coo) : Prop :=
  c_rows m = List.length l /\ forall x i, i < c_rows m -> entry_sum m i (at_names x) = expression x (nth i l []).
Lemma mat_is_all l m : mat_is l m -> forall x (P : Qc -> Prop), (forall d, In d l -> P (expression x d)) <-> (forall i, i < c_rows m -> P (entry_sum m i (at_names x))).
Proof.
  intros (E & H) x P. split.
  - intros A i Hi. rewrite H by exact Hi. apply A, nth_In. rewrite <- E. exact Hi.
  - intros A d Hd. apply In_nth with (d := []) in Hd as (i & Hi & <-). rewrite <- H by (rewrite E; exact Hi). apply A. rewrite E. exact Hi.
Qed.
Lemma list_entries_ok (l : list named) : (forall d, In d l -> d <> [] /\ forall y, In y (map fst d) -> In y vars) -> forall k,
  exists ess, map_opt (fun q => dict_entries vars (fst q) (snd q)) (combine (seq k (List.length l)) l) = Some ess /\
    (forall e, In e (concat ess) -> k <= e_row e < k + List.length l /\ e_col e < n) /\
    (forall i, i < List.length l -> exists e, In e (concat ess) /\ e_row e = k + i) /\
    forall r c x i, i < List.length l -> entry_sum (Coo r c (concat ess)) (k + i) (at_names x) = expression x (nth i l []).
Proof.
  induction l as [|d l IH]; intros H k.
  - exists []. split; [reflexivity|]. split; [intros e []|]. split; intros; cbn in *; lia.
  - destruct (H d (or_introl eq_refl)) as (NE & HD). destruct (dict_entries_ok k d HD) as (es & E & F). destruct (IH (fun d' Hd => H d' (or_intror Hd)) (S k)) as (ess & E' & R & FU & V).
    exists (es :: ess). cbn [List.length seq combine map_opt fst snd concat]. rewrite E, E'. split; [reflexivity|]. assert (TR := terms_rows k d es F). split; [|split].
    + intros e He. apply in_app_or in He as [He|He]; [destruct (TR e He) as [-> X]; split; [lia|exact X]|]. destruct (R e He) as [X Y]. split; [lia|exact Y].
    + intros [|i] Hi.
      * destruct F as [|q e d es T F]; [congruence|]. exists e. split; [left; reflexivity|]. rewrite (proj1 T). lia.
      * destruct (FU i ltac:(lia)) as (e & He & Ee). exists e. split; [apply in_or_app; right; exact He|lia].
    + intros r c x [|i] Hi.
      * rewrite entry_sum_app. replace (k + 0) with k by lia. rewrite (terms_sum k d es x r c F). rewrite (entry_sum_none r c (concat ess)) by (intros e He; destruct (R e He); lia). cbn [nth]. ring.
      * rewrite entry_sum_app. rewrite (entry_sum_none r c es) by (intros e He; destruct (TR e He) as [-> _]; lia). replace (k + S i) with (S k + i) by lia. rewrite V by lia. cbn [nth]. ring.
Qed.
Lemma list_to_sparse_ok (l : list named) : (forall d, In d l -> d <> [] /\ forall y, In y (map fst d) -> In y vars) ->
  exists m, to_sparse_list vars l = Some m /\ c_cols m = n /\ matrix_ok n m /\ mat_is l m.
Proof.
  intros H. destruct (list_entries_ok l H 0) as (ess & E & R & FU & V). unfold to_sparse_list. rewrite E. eexists. split; [reflexivity|]. split; [reflexivity|]. split.
  - constructor; cbn [c_cols c_rows c_ent]; [auto|intros e He; destruct (R e He); split; [lia|assumption]|exact FU].
  - split; [reflexivity|]. cbn [c_rows]. intros x i Hi. apply (V _ _ x i Hi).
Qed.
Lemma sparse_mat_is m : sparse_mat_ok n m -> matrix_ok n m /\ mat_is (mat_says vars (Some (MSparse m))) m.
Proof.
  intros [W R FU]. split; [constructor; auto|]. split; [cbn [mat_says]; rewrite map_length, seq_length; reflexivity|]. intros x i Hi. cbn [mat_says].
  rewrite (nth_indep _ [] (map (entry_named vars) (filter (fun e => e_row e =? 0) (c_ent m)))) by (rewrite map_length, seq_length; exact Hi).
  rewrite (map_nth (fun i => map (entry_named vars) (filter (fun e => e_row e =? i) (c_ent m)))), seq_nth by exact Hi. cbn [Nat.add].
  unfold entry_sum, expression. clear. induction (c_ent m) as [|e l IH]; [reflexivity|]. cbn [map filter]. rewrite sumQ_cons, IH. destruct (e_row e =? i); [|ring]. cbn [map]. rewrite sumQ_cons. reflexivity.
Qed.
Lemma convert_mat_ok m : mat_ok vars m -> exists c, convert_mat vars m = Some c /\ c_cols c = n /\ matrix_ok n c /\ mat_is (mat_says vars (Some m)) c.
Proof.
  destruct m as [m|l]; cbn [mat_ok convert_mat].
  - intros H. exists m. split; [reflexivity|]. split; [apply H|]. apply sparse_mat_is, H.
  - intros H. destruct (list_to_sparse_ok l H) as (c & E & W & M & I). eauto 6.
Qed.

(** ** Semi-known variables *)
Notation dflt := (O, (0%Qc, O)).
Lemma semi_columns_ok l : (forall y c y2, In (y, (c, y2)) l -> In y vars /\ In y2 vars) ->
  exists cols, semiknown_columns vars l = Some cols /\ Forall2 (fun q p => fst p < n /\ snd (snd p) < n /\ fst q = name (fst p) /\ fst (snd q) = fst (snd p) /\ snd (snd q) = name (snd (snd p))) l cols.
Proof.
  induction l as [|(y & c & y2) l IH]; intros H; [exists []; split; [reflexivity|constructor]|]. destruct (IH (fun a b c' Hq => H a b c' (or_intror Hq))) as (cols & E & F). destruct (H y c y2 (or_introl eq_refl)) as (H1 & H2).
  destruct (lookup_in y H1) as (j & Ej & L & N). destruct (lookup_in y2 H2) as (j2 & Ej2 & L2 & N2). unfold semiknown_columns in *. cbn [map_opt fst snd]. rewrite Ej, Ej2, E. eexists. split; [reflexivity|]. constructor; [|exact F]. cbn. auto.
Qed.
Lemma semi_matrix_ok l cols : semiknown_columns vars l = Some cols -> (forall y c y2, In (y, (c, y2)) l -> In y vars /\ In y2 vars) ->
  matrix_ok n (semiknown_matrix n cols) /\ c_rows (semiknown_matrix n cols) = List.length l /\
  forall x, (forall i, i < List.length l -> entry_sum (semiknown_matrix n cols) i (at_names x) = 0%Qc) <-> (forall y c y2, In (y, (c, y2)) l -> x y = (c * x y2)%Qc).
Proof.
  intros E H. destruct (semi_columns_ok l H) as (cols' & E' & F). assert (cols' = cols) by congruence. subst cols'. assert (LE := Forall2_len _ _ _ F). clear E E'.
  assert (IN : forall e, In e (c_ent (semiknown_matrix n cols)) -> e_row e < List.length cols /\ e_col e < n).
  { intros e He. unfold semiknown_matrix in He. cbn [c_ent] in He. apply in_flat_map in He as ((i & (j & (c & j2))) & Hc & He). assert (X := in_combine_l _ _ _ _ Hc). apply in_seq in X. apply in_combine_r in Hc.
    assert (Y : j < n /\ j2 < n). { clear -F Hc. induction F as [|q p l cols (A & B & _) F IH]; [destruct Hc|]. destruct Hc as [->|Hc]; [cbn in *; auto|auto]. }
    destruct He as [<-|[<-|[]]]; unfold e_row, e_col; cbn; lia. }
  split; [|split].
  - constructor; [left; reflexivity|exact IN|]. intros i Hi. cbn [semiknown_matrix c_rows] in Hi. destruct (nth i cols dflt) as (j & (c & j2)) eqn:Q. exists (i, j, 1%Qc). split; [|reflexivity].
    unfold semiknown_matrix. cbn [c_ent]. apply in_flat_map. exists (i, (j, (c, j2))). split; [|left; reflexivity].
    rewrite <- Q. replace i with (nth i (seq 0 (List.length cols)) 0) at 1 by (rewrite seq_nth; [reflexivity|exact Hi]). rewrite <- combine_nth by (rewrite seq_length; reflexivity). apply nth_In. rewrite combine_length, seq_length. lia.
  - cbn. symmetry. exact LE.
  - intros x.
    assert (ROW : forall i, i < List.length cols -> entry_sum (semiknown_matrix n cols) i (at_names x) = (at_names x (fst (nth i cols dflt)) - fst (snd (nth i cols dflt)) * at_names x (snd (snd (nth i cols dflt))))%Qc).
    { intros i Hi. destruct (nth i cols dflt) as (j & (c & j2)) eqn:Q. exact (PropSolve.C26_semiknown_rows n cols i (at_names x) Hi j c j2 Q). }
    split.
    + intros A y c y2 Hq. apply In_nth with (d := ("", (0%Qc, ""))) in Hq as (i & Hi & Q). specialize (A i Hi). rewrite ROW in A by (rewrite <- LE; exact Hi).
      assert (X : fst (nth i l ("", (0%Qc, ""))) = name (fst (nth i cols dflt)) /\ fst (snd (nth i l ("", (0%Qc, "")))) = fst (snd (nth i cols dflt)) /\ snd (snd (nth i l ("", (0%Qc, "")))) = name (snd (snd (nth i cols dflt)))).
      { clear -F Hi. revert i Hi. induction F as [|q p l cols (_ & _ & A & B & C) F IH]; intros [|i] Hi; cbn in Hi; try lia; [cbn; auto|apply IH; lia]. }
      rewrite Q in X. cbn [fst snd] in X. destruct X as (-> & -> & ->). unfold at_names in A. apply (f_equal (fun v => (v + fst (snd (nth i cols dflt)) * x (name (snd (snd (nth i cols dflt)))))%Qc)) in A. ring_simplify in A. rewrite A. ring.
    + intros A i Hi. rewrite ROW by (rewrite <- LE; exact Hi).
      assert (X : fst (nth i l ("", (0%Qc, ""))) = name (fst (nth i cols dflt)) /\ fst (snd (nth i l ("", (0%Qc, "")))) = fst (snd (nth i cols dflt)) /\ snd (snd (nth i l ("", (0%Qc, "")))) = name (snd (snd (nth i cols dflt)))).
      { clear -F Hi. revert i Hi. induction F as [|q p l cols (_ & _ & A & B & C) F IH]; intros [|i] Hi; cbn in Hi; try lia; [cbn; auto|apply IH; lia]. }
      assert (Q := nth_In l ("", (0%Qc, "")) Hi). destruct (nth i l ("", (0%Qc, ""))) as (y & (c & y2)). cbn [fst snd] in X. destruct X as (E1 & E2 & E3). unfold at_names. rewrite <- E1, <- E2, <- E3, (A y c y2 Q). ring.
Qed.

(** ** Equalities and semi-known variables together *)
Lemma stack2 m1 m2 : matrix_ok n m1 -> c_cols m1 = n -> matrix_ok n m2 -> c_cols m2 = n -> 0 < c_rows m2 ->
  exists m, vstack [m1; m2] = Some m /\ c_cols m = n /\ matrix_ok n m /\ c_rows m = c_rows m1 + c_rows m2 /\
    (forall i x, i < c_rows m1 -> entry_sum m i x = entry_sum m1 i x) /\ (forall i x, entry_sum m (c_rows m1 + i) x = entry_sum m2 i x).
Proof.
  intros [W1 R1 F1] C1 [W2 R2 F2] C2 P. unfold vstack. cbn [filter]. rewrite (proj2 (Nat.eqb_neq (c_rows m2) 0)) by lia. cbn [negb].
  destruct (Nat.eqb_spec (c_rows m1) 0) as [Z|Z]; cbn [negb].
  - exists m2. split; [reflexivity|]. split; [exact C2|]. split; [constructor; auto|]. rewrite Z. split; [reflexivity|]. split; [intros; lia|reflexivity].
  - cbn [fold_left]. eexists. split; [reflexivity|]. cbn [c_cols c_rows c_ent app Nat.add]. split; [rewrite C1, C2; lia|]. 
    assert (RA : forall e, In e (map (fun e => (e_row e + 0, e_col e, e_val e)) (c_ent m1)) -> e_row e < c_rows m1 /\ e_col e < n) by (intros e He; apply in_map_iff in He as (e' & <- & He); destruct (R1 e' He); unfold e_row at 1, e_col at 1; cbn; lia).
    assert (RB : forall e, In e (map (fun e => (e_row e + c_rows m1, e_col e, e_val e)) (c_ent m2)) -> c_rows m1 <= e_row e < c_rows m1 + c_rows m2 /\ e_col e < n) by (intros e He; apply in_map_iff in He as (e' & <- & He); destruct (R2 e' He); unfold e_row at 1 2, e_col at 1; cbn; lia).
    split; [|split; [reflexivity|split]].
    + constructor; cbn [c_cols c_rows c_ent]; [left; rewrite C1, C2; lia| |].
      * intros e He. apply in_app_or in He as [He|He]; [destruct (RA e He)|destruct (RB e He)]; split; lia.
      * intros i Hi. destruct (le_lt_dec (c_rows m1) i) as [L|L].
        -- destruct (F2 (i - c_rows m1) ltac:(lia)) as (e & He & Ee). eexists. split; [apply in_or_app; right; apply in_map; exact He|]. unfold e_row at 1. cbn. lia.
        -- destruct (F1 i L) as (e & He & Ee). eexists. split; [apply in_or_app; left; apply in_map; exact He|]. unfold e_row at 1. cbn. lia.
    + intros i x Hi. rewrite entry_sum_app. rewrite (entry_sum_none _ _ (map (fun e => (e_row e + c_rows m1, e_col e, e_val e)) (c_ent m2))) by (intros e He; destruct (RB e He); lia).
      transitivity (entry_sum (Coo (c_rows m1) n (map (fun e => ((e_row e + O)%nat, e_col e, e_val e)) (c_ent m1))) (O + i)%nat x + 0)%Qc; [reflexivity|]. rewrite entry_sum_shift. destruct m1 as [mr mc me]. cbn [c_ent]. rewrite (entry_sum_shape _ _ mr mc). ring.
    + intros i x. rewrite entry_sum_app. rewrite (entry_sum_none _ _ (map (fun e => (e_row e + 0, e_col e, e_val e)) (c_ent m1))) by (intros e He; destruct (RA e He); lia).
      rewrite entry_sum_shift. destruct m2 as [mr mc me]. cbn [c_ent]. rewrite (entry_sum_shape _ _ mr mc). ring.
Qed.
Lemma convert_equalities_ok eq semi : (forall m, eq = Some m -> mat_ok vars m) -> eq <> None \/ semi_says semi <> [] ->
  (forall y c y2, In (y, (c, y2)) (semi_says semi) -> In y vars /\ In y2 vars) -> (semi_says semi <> [] -> forall m, eq <> Some (MSparse m)) ->
  exists m, convert_equalities vars eq semi = Some m /\ matrix_ok n m /\ c_rows m = List.length (mat_says vars eq) + List.length (semi_says semi) /\
    forall x, (forall i, i < c_rows m -> entry_sum m i (at_names x) = 0%Qc) <->
      (forall d, In d (mat_says vars eq) -> expression x d = 0%Qc) /\ (forall y c y2, In (y, (c, y2)) (semi_says semi) -> x y = (c * x y2)%Qc).
Proof.
  intros HM SM HS NR.
  assert (CASE : semi_says semi = [] \/ exists q l, semi = Some (q :: l)) by (destruct semi as [[|q l]|]; eauto).
  destruct CASE as [ES|(q & l & ->)].
  - assert (E : convert_equalities vars eq semi = match eq with Some m => convert_mat vars m | None => None end) by (destruct semi as [[|q l]|]; [reflexivity|discriminate|reflexivity]).
    rewrite E. clear E. destruct eq as [m|]; [|destruct SM; congruence]. destruct (convert_mat_ok m (HM m eq_refl)) as (c & E & W & M & I). rewrite E. exists c. split; [reflexivity|]. split; [exact M|]. rewrite ES. cbn [List.length]. split; [rewrite Nat.add_0_r; apply I|].
    intros x. rewrite <- (mat_is_all _ _ I x (fun v => v = 0%Qc)). split; [intros A; split; [exact A|intros y c' y2 []]|intros [A _]; exact A].
  - unfold convert_equalities. cbn [semi_says] in *. set (sl := q :: l) in *. destruct (semi_columns_ok sl HS) as (cols & E & _). rewrite E. cbv zeta. destruct (semi_matrix_ok sl cols E HS) as (MS & RS & VS). assert (LS : 0 < List.length sl) by (cbn; lia).
    destruct eq as [[m|ds]|].
    + elim (NR ltac:(unfold sl; discriminate) m eq_refl).
    + destruct (list_to_sparse_ok ds (HM _ eq_refl)) as (c & Ec & W & M & I). rewrite Ec. destruct (stack2 c (semiknown_matrix n cols) M W MS eq_refl ltac:(lia)) as (m & Em & Wm & Mm & Rm & V1 & V2).
      exists m. split; [exact Em|]. split; [exact Mm|]. cbn [mat_says]. split; [rewrite Rm, RS; f_equal; apply I|]. intros x. rewrite <- (VS x), (mat_is_all _ _ I x (fun v => v = 0%Qc)). rewrite Rm, RS. split.
      * intros A. split; intros i Hi; [rewrite <- V1 by exact Hi; apply A; lia|rewrite <- V2; apply A; lia].
      * intros [A B] i Hi. destruct (le_lt_dec (c_rows c) i) as [L|L]; [|rewrite V1 by exact L; apply A, L]. replace i with (c_rows c + (i - c_rows c)) by lia. rewrite V2. apply B. lia.
    + exists (semiknown_matrix n cols). split; [reflexivity|]. split; [exact MS|]. cbn [mat_says List.length]. split; [exact RS|]. intros x. rewrite <- (VS x), RS. split; [intros A; split; [intros d []|exact A]|intros [_ A]; exact A].
Qed.
Lemma optional_ok o : (forall v, o = Some v -> vec_ok vars v) -> exists m, optional vars o = Some m /\ vector_ok n m /\ vec_is (vec_says vars o) m.
Proof.
  destruct o as [v|]; intros H; [apply (convert_vec_ok v (H v eq_refl))|]. exists blank_coo. split; [reflexivity|]. split; [|constructor]. constructor; cbn; [auto|intros e []|constructor].
Qed.
End Vars.

(** ** The whole call *)
Lemma solve_lp_args_ok vars u : declared_variables u = Some vars -> usable vars u -> exists a, solve_lp_args u = Some (vars, a) /\ args_ok (List.length vars) a /\
  default_non_negative a = u_default_non_negative u /\ relax_known_vars a = u_relax_known_vars u /\ relax_inequalities a = u_relax_inequalities u /\
  vec_is vars (vec_says vars (u_objective u)) (objective a) /\ vec_is vars (vec_says vars (u_known u)) (known_vars a) /\ vec_is vars (vec_says vars (u_lower u)) (lower_bounds a) /\ vec_is vars (vec_says vars (u_upper u)) (upper_bounds a) /\
  mat_is vars (mat_says vars (u_ineq u)) (inequalities a) /\
  forall x, (forall i, i < c_rows (equalities a) -> entry_sum (equalities a) i (at_names vars x) = 0%Qc) <->
      (forall d, In d (mat_says vars (u_eq u)) -> expression x d = 0%Qc) /\ (forall y c y2, In (y, (c, y2)) (semi_says (u_semiknown u)) -> x y = (c * x y2)%Qc).
Proof.
  intros D [ND NE (vo & Eo & Ho) (vk & Ek & Hk) HL HU (mi & Ei & Hi) HE SE HS NR SC]. unfold solve_lp_args. rewrite D, Eo, Ek, Ei. cbn [required].
  destruct (convert_vec_ok vars vo Ho) as (o & Co & Vo & Io). destruct (convert_vec_ok vars vk Hk) as (k & Ck & Vk & Ik). destruct (convert_mat_ok vars mi Hi) as (i & Ci & Wi & Mi & Ii).
  destruct (convert_equalities_ok vars (u_eq u) (u_semiknown u) HE SE HS NR) as (e & Ce & Me & Re & Ie). destruct (optional_ok vars (u_lower u) HL) as (l & Cl & Vl & Il). destruct (optional_ok vars (u_upper u) HU) as (b & Cb & Vb & Ib).
  rewrite Co, Ck, Ci, Ce, Cl, Cb. eexists. split; [reflexivity|]. cbn [objective known_vars inequalities equalities lower_bounds upper_bounds default_non_negative relax_known_vars relax_inequalities].
  split; [|rewrite <- Eo, <- Ek, <- Ei in *; auto 12]. constructor; cbn [objective known_vars inequalities equalities lower_bounds upper_bounds]; auto.
  - destruct vars; [congruence|cbn; lia].
  - rewrite (proj1 Ii), Re. rewrite Ei in SC. destruct SC as [H|[H|H]]; [destruct (mat_says vars (Some mi))|destruct (mat_says vars (u_eq u))|destruct (semi_says (u_semiknown u))]; try congruence; cbn [List.length]; lia.
Qed.
