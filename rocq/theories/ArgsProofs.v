From Coq Require Import List Arith Bool Ascii String QArith Qcanon Lia.
From Verif Require Import MargModel QcSum FactorModel UniqueProofs LPSolveModel LPSolveSpec LPSolveProofs SearchModel ProgramModel ProgramSpec ProgramProofs ProgramProofs2 ProgramProofs3 ProgramLP ProgramLPProofs ArgsModel.
From Verif Require SDPSolveSpec LPWriteModel LPWriteSpec NameLPProofs.
Import ListNotations.
Close Scope Q_scope. Open Scope string_scope. Open Scope nat_scope. Open Scope list_scope.

(** ** Dictionaries with different keys *)
Lemma set_new {V} (k : string) (v : V) d : ~ In k (keys d) -> set string_dec k v d = d ++ [(k, v)].
Proof.
  induction d as [|(k0, v0) d IH]; intros H; [reflexivity|]. cbn [set]. destruct (string_dec k k0) as [->|]; [exfalso; apply H; left; reflexivity|].
  cbn [app]. f_equal. apply IH. intros K. apply H. right. exact K.
Qed.
Lemma update_new {V} (e : list (string * V)) : forall d, NoDup (keys (d ++ e)) -> update string_dec d e = d ++ e.
Proof.
  unfold update. induction e as [|(k, v) e IH]; intros d N; cbn [fold_left fst snd]; [rewrite app_nil_r; reflexivity|].
  rewrite set_new.
  - rewrite IH; rewrite <- app_assoc; [reflexivity|exact N].
  - unfold keys in N. rewrite map_app in N. cbn [map fst] in N. apply NoDup_remove_2 in N. intros K. apply N, in_or_app. left. exact K.
Qed.

Lemma lil_cols m i : map fst (lil_row m i) = filter (fun j => existsb (at_place i j) (c_ent m)) (seq 0 (c_cols m)).
Proof. unfold lil_row. rewrite map_map. cbn [fst]. apply map_id. Qed.
Lemma at_place_iff i j e : at_place i j e = true <-> e_row e = i /\ e_col e = j.
Proof. unfold at_place. rewrite andb_true_iff, !Nat.eqb_eq. reflexivity. Qed.
Lemma lil_in m i p : In p (lil_row m i) -> fst p < c_cols m /\ exists e, In e (c_ent m) /\ e_row e = i /\ e_col e = fst p.
Proof.
  intros H. apply (in_map fst) in H. rewrite lil_cols in H. apply filter_In in H as [H1 H2]. apply in_seq in H1. split; [lia|].
  apply existsb_exists in H2 as (e & He & A). exists e. apply at_place_iff in A. tauto.
Qed.
Lemma lil_nodup m i : NoDup (map fst (lil_row m i)).
Proof. rewrite lil_cols. apply NoDup_filter, seq_NoDup. Qed.
(** the sum of a row *)
Lemma lil_sum m i (x : nat -> Qc) : (forall e, In e (c_ent m) -> e_col e < c_cols m) -> sumQ (map (fun p => snd p * x (fst p))%Qc (lil_row m i)) = entry_sum m i x.
Proof.
  intros C. unfold lil_row. rewrite map_map. cbn [fst snd]. unfold entry_sum.
  rewrite (sumQ_filter (seq 0 (c_cols m)) (fun j => existsb (at_place i j) (c_ent m)) (fun j => sumQ (map e_val (filter (at_place i j) (c_ent m))) * x j)%Qc).
  transitivity (sumQ (map (fun j => sumQ (map (fun e => if at_place i j e then e_val e * x j else 0)%Qc (c_ent m))) (seq 0 (c_cols m)))).
  { apply sumQ_ext. intros j _.
    transitivity (sumQ (map e_val (filter (at_place i j) (c_ent m))) * x j)%Qc.
    - destruct (existsb _ _) eqn:X; [reflexivity|]. assert (Z : filter (at_place i j) (c_ent m) = []); [|rewrite Z; cbn [map]; rewrite sumQ_nil; ring].
      destruct (filter (at_place i j) (c_ent m)) as [|e l] eqn:Z; [reflexivity|]. exfalso. assert (In e (filter (at_place i j) (c_ent m))) as H by (rewrite Z; left; reflexivity).
      apply filter_In in H as [H1 H2]. assert (X' : existsb (at_place i j) (c_ent m) = true) by (apply existsb_exists; eauto). congruence.
    - rewrite (sumQ_filter (c_ent m) (at_place i j) e_val), Qcmult_comm, <- sumQ_scale. apply sumQ_ext. intros e _. destruct (at_place i j e); ring. }
  rewrite sumQ_swap. apply sumQ_ext. intros e He. destruct (e_row e =? i) eqn:R.
  - apply Nat.eqb_eq in R. rewrite (sumQ_single Nat.eq_dec (seq 0 (c_cols m)) (e_col e)).
    + rewrite (proj2 (at_place_iff i (e_col e) e)) by auto. reflexivity.
    + apply seq_NoDup.
    + apply in_seq. specialize (C e He). lia.
    + intros j _ NE. destruct (at_place i j e) eqn:A; [|reflexivity]. apply at_place_iff in A as [_ A]. congruence.
  - apply sumQ_zero. intros j _. destruct (at_place i j e) eqn:A; [|reflexivity]. apply at_place_iff in A as [A _]. apply Nat.eqb_neq in R. contradiction.
Qed.

(** ** Names of columns *)
Section Names.
Variables (P : lp_programme) (nm : moment -> string).
Hypothesis NC : NoDup (columns P).
Hypothesis INJ : forall m m', In m (columns P) -> In m' (columns P) -> nm m = nm m' -> m = m'.
Notation n := (List.length (columns P)).
Notation names := (monomial_names P nm).
Lemma names_nodup : NoDup names.
Proof. unfold monomial_names. apply NameLPProofs.nodup_map_in; [exact INJ|exact NC]. Qed.
Lemma names_nth j : j < n -> nth j names "" = nm (nth j (columns P) []).
Proof. intros L. unfold monomial_names. rewrite (nth_indep _ "" (nm [])) by (rewrite map_length; exact L). apply map_nth. Qed.
Lemma names_column m : In m (columns P) -> nth (column P m) names "" = nm m.
Proof. intros H. destruct (column_ok P m H) as [L E]. rewrite names_nth by exact L. f_equal. exact E. Qed.
Lemma column_inj m m' : In m (columns P) -> In m' (columns P) -> column P m = column P m' -> m = m'.
Proof. intros I I' E. apply (index_of_inj m_eqb m_eqb_eq m m' (columns P) I I' E). Qed.
Lemma row_dict m i : c_cols m <= n -> name_dict names (lil_row m i) = map (fun p => (nth (fst p) names "", snd p)) (lil_row m i) /\
  NoDup (keys (name_dict names (lil_row m i))) /\ incl (keys (name_dict names (lil_row m i))) names.
Proof.
  intros C. assert (N : NoDup (keys (map (fun p : nat * Qc => (nth (fst p) names "", snd p)) (lil_row m i)))).
  { unfold keys. rewrite map_map. cbn [fst]. rewrite <- (map_map fst (fun j => nth j names "")). apply NameLPProofs.nodup_map_in; [|apply lil_nodup].
    intros a b Ha Hb E. apply in_map_iff in Ha as (p & <- & Hp), Hb as (q & <- & Hq). apply lil_in in Hp as [Hp _], Hq as [Hq _].
    apply (proj1 (NoDup_nth names "") names_nodup); [unfold monomial_names; rewrite map_length; lia|unfold monomial_names; rewrite map_length; lia|exact E]. }
  assert (E : name_dict names (lil_row m i) = map (fun p => (nth (fst p) names "", snd p)) (lil_row m i)).
  { unfold name_dict. rewrite update_new; [reflexivity|exact N]. }
  rewrite E. split; [reflexivity|]. split; [exact N|]. intros k Hk. unfold keys in Hk. rewrite map_map in Hk. apply in_map_iff in Hk as (p & <- & Hp). cbn [fst].
  apply lil_in in Hp as [Hp _]. apply nth_In. unfold monomial_names. rewrite map_length. lia.
Qed.
Lemma expr_is (w : string -> Qc) d : SDPSolveSpec.expr w d = sumQ (map (fun p => snd p * w (fst p))%Qc d).
Proof. unfold SDPSolveSpec.expr. apply sumQ_ext. intros [k c] _. reflexivity. Qed.
Lemma ok_width m : matrix_ok n m -> c_cols m <= n /\ forall e, In e (c_ent m) -> e_col e < c_cols m.
Proof.
  intros M. destruct (mo_width _ _ M) as [E | ->].
  - split; [lia|]. intros e He. rewrite E. apply (mo_rows _ _ M e He).
  - split; [cbn; lia|intros e []].
Qed.
(** a row of a matrix and its dictionary have the same value *)
Lemma dict_value m i (w : string -> Qc) : matrix_ok n m -> SDPSolveSpec.expr w (name_dict names (lil_row m i)) = entry_sum m i (fun j => w (nm (nth j (columns P) []))).
Proof.
  intros M. destruct (ok_width m M) as [C E]. destruct (row_dict m i C) as (-> & _). rewrite expr_is, map_map. cbn [fst snd].
  rewrite <- (lil_sum m i (fun j => w (nm (nth j (columns P) [])))) by exact E. apply sumQ_ext. intros p Hp. apply lil_in in Hp as [Hp _].
  rewrite names_nth by lia. reflexivity.
Qed.
Lemma dicts_forall (Q : Qc -> Prop) m (w : string -> Qc) : matrix_ok n m ->
  (forall d, In d (to_name_dicts names m) -> Q (SDPSolveSpec.expr w d)) <-> Forall Q (act m (fun j => w (nm (nth j (columns P) [])))).
Proof.
  intros M. unfold to_name_dicts. rewrite Forall_act. split.
  - intros H i Hi. rewrite <- dict_value by exact M. apply H, in_map_iff. exists i. split; [reflexivity|apply in_seq; lia].
  - intros H d Hd. apply in_map_iff in Hd as (i & <- & Hi). apply in_seq in Hi. rewrite dict_value by exact M. apply H. lia.
Qed.
Lemma dicts_keys m d : matrix_ok n m -> In d (to_name_dicts names m) -> NoDup (keys d) /\ incl (keys d) names.
Proof. intros M Hd. apply in_map_iff in Hd as (i & <- & _). apply row_dict, (ok_width m M). Qed.
(** a dictionary on moments and its dictionary by name *)
Lemma sum_one (l : list entry) e : NoDup (map e_col l) -> In e l -> (forall e', In e' l -> e_row e' = 0) -> sumQ (map e_val (filter (at_place 0 (e_col e)) l)) = e_val e.
Proof.
  induction l as [|a l IH]; intros N H R; [destruct H|]. cbn [map] in N. inversion N as [|? ? Na Nl]; subst. cbn [filter]. destruct H as [->|H].
  - rewrite (proj2 (at_place_iff 0 (e_col e) e)) by (split; [apply R; left|]; reflexivity).
    assert (Z : filter (at_place 0 (e_col e)) l = []); [|rewrite Z; cbn [map]; rewrite sumQ_cons, sumQ_nil; ring].
    destruct (filter (at_place 0 (e_col e)) l) as [|b k] eqn:Z; [reflexivity|]. exfalso. assert (Hb : In b (filter (at_place 0 (e_col e)) l)) by (rewrite Z; left; reflexivity).
    apply filter_In in Hb as [Hb A]. apply at_place_iff in A as [_ A]. apply Na. rewrite <- A. apply in_map, Hb.
  - destruct (at_place 0 (e_col e) a) eqn:A.
    + exfalso. apply at_place_iff in A as [_ A]. apply Na. rewrite A. apply in_map, H.
    + apply IH; [exact Nl|exact H|]. intros e' He'. apply R. right. exact He'.
Qed.
Lemma vec_dict d : all_columns P (keys d) = true -> NoDup (keys d) ->
  NoDup (keys (vec_by_name names (coo_vec P d))) /\ incl (keys (vec_by_name names (coo_vec P d))) names /\
  (forall k v, In (k, v) (vec_by_name names (coo_vec P d)) <-> exists m, In (m, v) d /\ k = nm m) /\
  (forall w, SDPSolveSpec.expr w (vec_by_name names (coo_vec P d)) = expr_at (fun m => w (nm m)) d).
Proof.
  intros A N. assert (V := coo_vec_ok P d NC A N).
  assert (E0 : vec_by_name names (coo_vec P d) = name_dict names (lil_row (coo_vec P d) 0)) by reflexivity.
  assert (C : c_cols (coo_vec P d) <= n) by (cbn; lia). destruct (row_dict (coo_vec P d) 0 C) as (E & ND & IN). rewrite E0.
  split; [exact ND|]. split; [exact IN|]. split.
  - intros k v. rewrite E, in_map_iff.
    assert (K : forall e, In e (c_ent (coo_vec P d)) -> sumQ (map e_val (filter (at_place 0 (e_col e)) (c_ent (coo_vec P d)))) = e_val e).
    { intros e He. apply sum_one; [apply (vo_nodup _ _ V)|exact He|]. intros e' He'. apply coo_vec_in in He' as (m & u & _ & ->). reflexivity. }
    split.
    + intros (p & Ep & Hp). assert (Hp' := Hp). apply lil_in in Hp as (L & e & He & _ & Ec). assert (He' := He). apply coo_vec_in in He as (m & u & Hm & Ee).
      exists m. assert (Hc : In m (columns P)) by (apply (all_columns_in P (keys d)); [exact A|apply (in_map fst _ _ Hm)]).
      unfold lil_row in Hp'. apply in_map_iff in Hp' as (j & Ej & _). assert (Fj : fst p = j) by (rewrite <- Ej; reflexivity). assert (Sj : snd p = sumQ (map e_val (filter (at_place 0 j) (c_ent (coo_vec P d))))) by (rewrite <- Ej; reflexivity).
      rewrite <- Fj, <- Ec, (K e He') in Sj. rewrite Ee in Sj, Ec. cbn in Sj. unfold e_col in Ec. cbn in Ec. assert (k = nth (fst p) names "") by congruence. assert (v = snd p) by congruence. subst k v.
      rewrite Sj, <- Ec, names_column by exact Hc. auto.
    + intros (m & Hm & ->). assert (Hc : In m (columns P)) by (apply (all_columns_in P (keys d)); [exact A|apply (in_map fst _ _ Hm)]).
      assert (He : In (0, column P m, v) (c_ent (coo_vec P d))) by (apply coo_vec_in; eauto). exists (column P m, v). cbn [fst snd]. rewrite names_column by exact Hc. split; [reflexivity|].
      unfold lil_row. apply in_map_iff. exists (column P m). split.
      * f_equal. exact (K _ He).
      * apply filter_In. split; [apply in_seq; cbn; destruct (column_ok P m Hc); lia|]. apply existsb_exists. exists (0, column P m, v). split; [exact He|]. apply at_place_iff. auto.
  - intros w. rewrite E, expr_is, map_map. cbn [fst snd].
    transitivity (sumQ (map (fun p => snd p * (fun j => w (nth j names "")) (fst p))%Qc (lil_row (coo_vec P d) 0))); [reflexivity|].
    rewrite (lil_sum (coo_vec P d) 0 (fun j => w (nth j names ""))).
    + unfold entry_sum. cbn [coo_vec c_ent]. unfold indexed, expr_at. rewrite !map_map. apply sumQ_ext. intros p Hp. unfold e_row, e_val, e_col. cbn [fst snd Nat.eqb].
      rewrite names_column; [reflexivity|]. apply (all_columns_in P (keys d)); [exact A|apply in_map, Hp].
    + intros e He. apply (vo_rows _ _ V e) in He. cbn [coo_vec c_cols]. apply He.
Qed.
End Names.

(** ** The moment that a semi-known moment is proportional to is shorter *)
Lemma semi_shorter c lpi a m v u : semi_status c lpi a m = Some (v, u) -> List.length u < List.length m.
Proof.
  unfold semi_status, evaluate. set (f := fun a0 => negb (is_some (get Nat.eq_dec a0 a))). pose proof (filter_shorter f m) as FS. destruct (filter f m) as [|b l] eqn:E; [discriminate|].
  destruct (List.length (b :: l) =? List.length m) eqn:L; cbn [orb]; [discriminate|]. apply Nat.eqb_neq in L. destruct lpi; cbn [negb]; [|discriminate].
  destruct (isclose0 _); [discriminate|]. intros H. injection H as _ <-. apply Nat.le_lt_trans with (List.length (b :: l)); [|apply Nat.le_neq; split; assumption]. clear.
  unfold monomial_from_atoms. set (k := match find (is_zero c) (b :: l) with Some z => [z] | None => filter (fun a => negb (is_one c a)) (b :: l) end).
  assert (K : List.length k <= List.length (b :: l)) by (unfold k; destruct (find _ _); [cbn; apply le_n_S, Nat.le_0_l|apply filter_shorter]).
  assert (S1 : forall x, List.length (sort_atoms x) = List.length x) by (intros x; apply Permutation.Permutation_length, sort_atoms_perm).
  destruct (lex_lt _ _); rewrite S1, ?map_length, ?S1; exact K.
Qed.
Lemma reachable_semi_shorter t c s : reachable t c s -> forall m q u, In (m, (q, u)) (semiknown s) -> List.length u < List.length m.
Proof.
  intros R m q u I. assert (G : get meq m (semiknown s) = Some (q, u)) by (apply in_get; [apply (wf_semi _ (reachable_wf t c s R))|exact I]). clear I. revert s R m q u G.
  apply (reachable_invariant (fun s => forall m q u, get meq m (semiknown s) = Some (q, u) -> List.length u < List.length m) t c); [intros m q u H; discriminate H|]. intros o s0 s1 H.
  assert (CL : forall s2 s3, (forall m q u, get meq m (semiknown s2) = Some (q, u) -> List.length u < List.length m) -> cleanup t c s2 = Some s3 -> forall m q u, get meq m (semiknown s3) = Some (q, u) -> List.length u < List.length m).
  { intros s2 s3 H2 E m q u I. apply cleanup_values in E as (_ & SK & _). rewrite SK in I. rewrite get_pop_all in I.
    destruct (mmem m _); [discriminate|]. apply (H2 m q u). unfold supports_step in I. destruct (supports_problem c); cbn [with_bounds with_values semiknown] in I; [discriminate|exact I]. }
  assert (AV : forall values lpi only d sk, (forall m q u, get meq m sk = Some (q, u) -> List.length u < List.length m) -> forall m q u, get meq m (snd (assign_values c values lpi only d sk)) = Some (q, u) -> List.length u < List.length m).
  { intros values lpi only d sk H2 m q u I. unfold assign_values in I. destruct only; [exact (H2 m q u I)|].
    rewrite (proj2 (get_evaluate_all _ _ _ _ _ _ _)) in I. destruct (mmem m (remaining _ _ _)); [|exact (H2 m q u I)].
    destruct (semi_status _ _ _ m) as [(v & w)|] eqn:SS; [|exact (H2 m q u I)]. injection I as <- <-. exact (semi_shorter _ _ _ _ _ _ SS). }
  destruct o; cbn [step].
  - rewrite set_values_is. apply CL. cbn [with_values semiknown]. unfold result_values. destruct values; [intros m q u I; discriminate I|]. apply AV. intros m q u I. discriminate I.
  - unfold update_values. destruct values as [|p values]; [intros E; injection E as <-; assumption|].
    pose proof (AV (p :: values) lpi only (known s0) (semiknown s0) H) as A. destruct (assign_values _ _ _ _ _ _) as (d, sk). apply CL. exact A.
  - intros E. apply bounds_values in E as (_ & SK & _). rewrite SK. assumption.
  - intros E. apply objective_values in E as (_ & SK & _). rewrite SK. assumption.
  - intros E. injection E as <-. assumption.
  - intros E. injection E as <-. assumption.
Qed.
