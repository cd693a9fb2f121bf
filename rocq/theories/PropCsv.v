(** C49: the human-readable form says what the programme says. *)
From Coq Require Import List Arith Bool Ascii String ZArith QArith Qcanon Lia Lqa Sorted DecimalNat DecimalString.
From Verif Require Import QcArith MargModel QcSum ScenarioModel SearchModel SearchProofs FactorModel UniqueProofs LPDictModel LPDictProofs ProgramModel ProgramProofs SDPSolveModel SDPSolveSpec SdpaModel SdpaSpec NameModel CertModel CertSpec CertProofs CsvModel CsvSpec.
From Verif Require PropCert.
Import ListNotations.
Close Scope Q_scope. Close Scope Qc_scope. Open Scope string_scope. Open Scope nat_scope. Open Scope list_scope.

Lemma nat_q_inj a b : z2q (Z.of_nat a) = z2q (Z.of_nat b) -> a = b.
Proof.
  unfold z2q. intros E. apply (f_equal this) in E. cbn [this Q2Qc] in E. pose proof (Qred_correct (inject_Z (Z.of_nat a))) as A. pose proof (Qred_correct (inject_Z (Z.of_nat b))) as B.
  rewrite E in A. rewrite A in B. unfold Qeq, inject_Z in B. cbn in B. lia.
Qed.
Lemma has_no_in bad ch s : has_no bad (String ch s) = true -> bad ch = false.
Proof. cbn. intros H. apply andb_prop in H as [H _]. now apply negb_true_iff. Qed.

(** ** Sums of signed terms *)
Fixpoint signs (l : list (bool * string)) : string :=
  match l with [] => "" | t :: l' => String (if fst t then "-" else "+") (snd t ++ signs l')%string end.
Lemma signs_texts l : (forall t, In t l -> has_no sign (snd t) = true) -> forall minus acc, signed_texts minus acc (signs l) = (minus, acc) :: l.
Proof.
  induction l as [|[b s] l IH]; intros H minus acc; [reflexivity|]. cbn [signs fst snd]. pose proof (H _ (or_introl eq_refl)) as NS. cbn [snd] in NS.
  assert (IH' := IH (fun t Ht => H t (or_intror Ht))). destruct b; cbn [signed_texts Ascii.eqb Bool.eqb]; f_equal; rewrite (signed_skip s _ _ _ NS); apply IH'.
Qed.
Lemma signs_app a b : signs (a ++ b) = (signs a ++ signs b)%string.
Proof. induction a as [|t a IH]; [reflexivity|]. cbn [List.app signs append]. rewrite IH. now rewrite sapp_assoc. Qed.
Section Sums.
Variables (read : string -> option Qc) (x : string -> Qc).
Definition term_value (t : option string * Qc) : Qc := (snd t * match fst t with Some n => x n | None => 1 end)%Qc.
Definition says (t : bool * string) (w : Qc) : Prop :=
  has_no sign (snd t) = true /\ snd t <> "" /\ exists q, read_term read t = Some q /\ term_value q = w.
Notation collect := (fold_right (fun t acc => match read_term read t, acc with Some q, Some l => Some (q :: l) | _, _ => None end) (Some [])).
Lemma says_read {A} (piece : A -> bool * string) (g : A -> Qc) (L : list A) : (forall q, In q L -> says (piece q) (g q)) ->
  exists l, collect (filter (fun t => negb (String.eqb (snd t) "")) (map piece L)) = Some l /\ sum_value x l = sumQ (map g L).
Proof.
  induction L as [|q L IH]; intros H; [exists []; split; reflexivity|].
  destruct (IH (fun q' Hq => H q' (or_intror Hq))) as (l & E & V). destruct (H q (or_introl eq_refl)) as (_ & NE & t & R & W).
  exists (t :: l). cbn [map filter]. destruct (String.eqb_spec (snd (piece q)) ""); [contradiction|]. cbn [negb fold_right]. rewrite R, E. split; [reflexivity|].
  unfold sum_value in *. cbn [map]. change (sumQ (?a :: ?b)) with (a + sumQ b)%Qc. rewrite V. unfold term_value in W. now rewrite W.
Qed.
Lemma signs_read {A} (piece : A -> bool * string) (g : A -> Qc) (L : list A) : (forall q, In q L -> says (piece q) (g q)) ->
  exists l, read_sum read (signs (map piece L)) = Some l /\ sum_value x l = sumQ (map g L).
Proof.
  intros H. unfold read_sum. rewrite signs_texts. 2: { intros t Ht. apply in_map_iff in Ht as (q & <- & Hq). apply (H q Hq). }
  cbn [filter snd String.eqb negb]. now apply says_read.
Qed.
Lemma start_read {A} (piece : A -> bool * string) (g : A -> Qc) (L : list A) b s w : says (b, s) w -> (forall q, In q L -> says (piece q) (g q)) ->
  exists l, read_sum read (if b then String "-" (s ++ signs (map piece L)) else s ++ signs (map piece L))%string = Some l /\ sum_value x l = (w + sumQ (map g L))%Qc.
Proof.
  intros S0 H. pose (pc := fun o : option A => match o with None => (b, s) | Some q => piece q end). pose (gg := fun o : option A => match o with None => w | Some q => g q end).
  assert (H' : forall o, In o (None :: map Some L) -> says (pc o) (gg o)).
  { intros o [<-|I]; [exact S0|]. apply in_map_iff in I as (q & <- & I). now apply H. }
  destruct (signs_read pc gg _ H') as (l & R & V). exists l. cbn [map] in R, V. rewrite !map_map in R, V. cbn [pc gg] in R, V. split; [|exact V].
  rewrite <- R. cbn [signs fst snd]. change (map (fun x0 => piece x0) L) with (map piece L). destruct b; [reflexivity|].
  symmetry. rewrite <- (strip_read read (String "+" _)). reflexivity.
Qed.
End Sums.

Section Csv.
Variables (name : nat -> string) (moments : list nat) (show : Qc -> string) (read : string -> option Qc) (CN : csv_numbers show read).
Let SN := cn_sum _ _ CN.
Notation cell_name := (cell_name name). Notation str_of := (str_of show).

Lemma show_head v : (0 <= v)%Qc -> starts_with_minus (show v) = false /\ starts_with_digit (show v) = true /\ has_no (fun ch => Ascii.eqb ch "*") (show v) = true.
Proof.
  intros V. pose proof (sn_digit _ _ SN v V) as D. pose proof (sn_chars _ _ SN v V) as C. split; [|split; [exact D|]].
  - destruct (show v) as [|ch s]; [reflexivity|]. apply has_no_in in C. unfold sign in C. apply orb_false_iff in C as [C _]. apply orb_false_iff in C as [_ C]. exact C.
  - eapply has_no_impl; [|exact C]. intros ch H. cbv beta in *. rewrite H. apply orb_true_r.
Qed.
Lemma abs_neg v : qltb v 0 = true -> (0 <= - v)%Qc /\ qabs v = (- v)%Qc.
Proof. intros Q. apply qltb_true in Q. destruct (qabs_case v) as [(A & B)|(A & B)]; split; try exact B; qclra. Qed.
Lemma abs_pos v : qltb v 0 = false -> (0 <= v)%Qc /\ qabs v = v.
Proof. intros Q. apply qltb_false in Q. destruct (qabs_case v) as [(A & B)|(A & B)]; split; try exact B; qclra. Qed.
Lemma read_number_nonneg v t : (0 <= v)%Qc -> read_number read (show v ++ t)%string = read (show v ++ t)%string.
Proof.
  intros V. destruct (show_head v V) as (M & D & _). destruct (show v) as [|ch s]; [discriminate|]. cbn [append read_number]. cbn in M. now rewrite M.
Qed.
Lemma read_number_str v : read_number read (str_of v) = Some v.
Proof.
  unfold CertModel.str_of. destruct (qltb v 0) eqn:Q.
  - destruct (abs_neg v Q) as [P _]. cbn [append read_number Ascii.eqb Bool.eqb]. rewrite (sn_read _ _ SN _ P). cbn. f_equal. ring.
  - destruct (abs_pos v Q) as [P _]. rewrite <- (sapp_nil (show v)), (read_number_nonneg v _ P), sapp_nil. now apply (sn_read _ _ SN).
Qed.
Lemma read_number_star c n : read_number read (str_of c ++ "*" ++ n)%string = None.
Proof.
  unfold CertModel.str_of. destruct (qltb c 0) eqn:Q.
  - cbn [append read_number Ascii.eqb Bool.eqb]. change (show (- c)%Qc ++ String "*" n)%string with (show (- c)%Qc ++ String "*" n)%string. now rewrite (cn_star _ _ CN).
  - destruct (abs_pos c Q) as [P _]. rewrite (read_number_nonneg c _ P). apply (cn_star _ _ CN).
Qed.
Lemma read_number_dec k : read_number read (dec k) = Some (z2q (Z.of_nat k)).
Proof.
  pose proof (cn_nat _ _ CN k) as R. unfold z2q. rewrite <- R. pose proof (PropCert.uint_chars (Nat.to_uint k)) as U. unfold dec in *. destruct (NilEmpty.string_of_uint (Nat.to_uint k)) as [|ch s]; [reflexivity|].
  apply has_no_in in U. unfold read_number. destruct (Ascii.eqb_spec ch "-"); [subst; discriminate|reflexivity].
Qed.
Lemma find_nat v m : In m moments -> v = z2q (Z.of_nat m) -> find (fun m => if Qc_eq_dec (z2q (Z.of_nat m)) v then true else false) moments = Some m.
Proof.
  intros I ->. induction moments as [|a l IH]; [contradiction|]. cbn [find]. destruct (Qc_eq_dec (z2q (Z.of_nat a)) (z2q (Z.of_nat m))) as [E|E].
  - apply nat_q_inj in E. now subst.
  - destruct I as [->|I]; [contradiction|]. now apply IH.
Qed.
Lemma str_star c : has_no (fun ch => Ascii.eqb ch "*") (str_of c) = true.
Proof.
  unfold CertModel.str_of. destruct (qltb c 0) eqn:Q; [destruct (abs_neg c Q) as [P _]|destruct (abs_pos c Q) as [P _]]; destruct (show_head _ P) as (_ & _ & H); [|exact H]. cbn [append has_no Ascii.eqb Bool.eqb negb andb]. exact H.
Qed.
Lemma str_head c t : starts_with_digit (str_of c ++ t)%string || starts_with_minus (str_of c ++ t)%string = true.
Proof.
  unfold CertModel.str_of. destruct (qltb c 0) eqn:Q; [reflexivity|]. destruct (abs_pos c Q) as [P _]. destruct (show_head _ P) as (_ & H & _). now rewrite (digit_app _ t H).
Qed.
Lemma cell_number v : read_cell read (str_of v) = Some (v, None).
Proof.
  unfold read_cell. pose proof (str_head v "") as H. rewrite sapp_nil in H. rewrite H, (at_star_none _ (str_star v)). cbn [fst snd]. now rewrite read_number_str.
Qed.
Lemma cell_multiple c n : read_cell read (str_of c ++ "*" ++ n)%string = Some (c, Some n).
Proof.
  unfold read_cell. rewrite str_head. change ("*" ++ n)%string with (String "*" n). rewrite (at_star_skip _ _ (str_star c)). cbn [fst snd]. now rewrite read_number_str.
Qed.
Lemma cell_a_name n : name_like n -> read_cell read n = Some (1%Qc, Some n).
Proof. intros (_ & A & B). unfold read_cell. now rewrite A, B. Qed.
Lemma read_01 : read "0" = Some 0%Qc /\ read "1" = Some 1%Qc.
Proof. split; [exact (cn_nat _ _ CN 0)|exact (cn_nat _ _ CN 1)]. Qed.

Lemma replace_nat m : In m moments -> replace_known name moments read (dec m) = cell_name m.
Proof. intros I. unfold replace_known. rewrite read_number_dec. now rewrite (find_nat _ m I eq_refl). Qed.
Lemma replace_multiple c n : replace_known name moments read (str_of c ++ "*" ++ n)%string = (str_of c ++ "*" ++ n)%string.
Proof. unfold replace_known. now rewrite read_number_star. Qed.
Lemma replace_value v : name 0 = "0" -> name 1 = "1" -> (forall k, In k moments -> 2 <= k -> v <> z2q (Z.of_nat k)) ->
  read_cell read (replace_known name moments read (str_of v)) = Some (v, None).
Proof.
  intros N0 N1 H. unfold replace_known. rewrite read_number_str. destruct (find _ moments) as [k|] eqn:F; [|apply cell_number].
  apply find_some in F as [I E]. destruct (Qc_eq_dec (z2q (Z.of_nat k)) v) as [<-|]; [|discriminate]. unfold CsvModel.cell_name.
  destruct k as [|[|k]]; [rewrite N0|rewrite N1|exfalso; apply (H (S (S k)) I); [lia|reflexivity]].
  - unfold read_cell. cbn. now rewrite (proj1 read_01).
  - unfold read_cell. cbn. now rewrite (proj2 read_01).
Qed.
Lemma nth_combine_seq {A B} (f : nat * A -> B) (l : list A) i d d' : i < List.length l -> nth i (map f (combine (seq 0 (List.length l)) l)) d' = f (i, nth i l d).
Proof.
  intros H. rewrite (nth_indep _ d' (f (0, d))) by (rewrite map_length, combine_length, seq_length; lia). rewrite map_nth. f_equal.
  rewrite combine_nth by apply seq_length. now rewrite seq_nth.
Qed.
Lemma csv_cell p i j : (forall row, In row (momentmatrix p) -> List.length row = List.length (momentmatrix p)) -> i < List.length (momentmatrix p) -> j < List.length (momentmatrix p) ->
  cell (csv_matrix name moments show read p) i j = if j <? i then "0" else replace_known name moments read (entry_text name show p (entry p i j)).
Proof.
  intros SQ I J. unfold cell, csv_matrix, entry. rewrite (nth_combine_seq _ _ _ []) by exact I.
  rewrite (nth_combine_seq (fun '(jj, m) => if jj <? i then "0" else replace_known name moments read (entry_text name show p m)) _ _ 0); [reflexivity|].
  rewrite SQ; [exact J|]. now apply nth_In.
Qed.
End Csv.

(** The entry (i, j) of the programme's matrix, on or above the diagonal, is what the cell (i, j)
    says: a number, the name of a moment, or a multiple of a named moment; below the diagonal
    the cells are 0.  (Known values must not be integers from 2 on that are indices of moments.) *)
Theorem C49_matrix name moments show read p h v x : csv_numbers show read -> convert_to_human_readable name moments show read p = Some h ->
  (forall row, In row (momentmatrix p) -> List.length row = List.length (momentmatrix p)) -> (forall m, In m (entries p) -> In m moments) ->
  name 0 = "0" -> name 1 = "1" -> (forall m, In m moments -> 2 <= m -> name_like (replace ", " ";" (name m))) ->
  (forall m c k, In (m, c) (known_moments p) -> In k moments -> 2 <= k -> c <> Q2Qc (inject_Z (Z.of_nat k))) ->
  respects p v -> (forall m, x (replace ", " ";" (name m)) = v m) ->
  forall i j, i < List.length (momentmatrix p) -> j < List.length (momentmatrix p) ->
    if i <=? j then exists t, read_cell read (cell (csv_mat h) i j) = Some t /\ cell_value x t = v (entry p i j)
    else cell (csv_mat h) i j = "0".
Proof.
  intros CN E SQ IN N0 N1 NL KN (V0 & V1 & VK & VS) X i j I J. unfold convert_to_human_readable in E.
  destruct (all_some _) as [eqs|]; [|discriminate]. destruct (all_some _) as [ineqs|]; [|discriminate]. injection E as <-. cbn [csv_mat].
  rewrite (csv_cell name moments show read p i j SQ I J). destruct (Nat.leb_spec i j) as [L|L]; [|now apply Nat.ltb_lt in L as ->].
  destruct (Nat.ltb_spec j i) as [L'|_]; [lia|].
  assert (INm : In (entry p i j) moments).
  { apply IN. unfold entries, entry. apply in_concat. exists (nth i (momentmatrix p) []). split; [now apply nth_In|]. apply nth_In. rewrite SQ; [exact J|now apply nth_In]. }
  set (m := entry p i j) in *. unfold entry_text. destruct (iget m (known_moments p)) as [c|] eqn:K.
  - apply get_some_in in K. exists (c, None). split; [|unfold cell_value; cbn [fst snd]; rewrite (VK _ _ K); ring].
    apply (replace_value name moments show read CN c N0 N1). intros k Ik Lk. apply (KN m c k K Ik Lk).
  - destruct (iget m (semiknown_moments p)) as [[c m']|] eqn:S'.
    + apply get_some_in in S'. exists (c, Some (cell_name name m')). rewrite (replace_multiple name moments show read CN). split; [apply (cell_multiple show read CN)|].
      unfold cell_value. cbn [fst snd]. unfold cell_name. rewrite X. symmetry. now apply VS.
    + rewrite (replace_nat name moments show read CN m INm). unfold cell_name. destruct m as [|[|m]].
      * rewrite N0. exists (0%Qc, None). unfold read_cell. cbn [starts_with_digit is_digit orb]. cbn. rewrite (proj1 (read_01 show read CN)). split; [reflexivity|]. rewrite V0. reflexivity.
      * rewrite N1. exists (1%Qc, None). unfold read_cell. cbn. rewrite (proj2 (read_01 show read CN)). split; [reflexivity|]. rewrite V1. reflexivity.
      * exists (1%Qc, Some (replace ", " ";" (name (S (S m))))). split; [apply cell_a_name; apply NL; [exact INm|lia]|]. unfold cell_value. cbn [fst snd]. rewrite X. ring.
Qed.

(** ** Objective *)
Section Objective.
Variables (name : nat -> string) (show : Qc -> string) (read : string -> option Qc) (CN : csv_numbers show read) (x : string -> Qc) (v : nat -> Qc).
Let SN := cn_sum _ _ CN.
Definition times_text (q : nat * Qc) : string := (show (qabs (snd q)) ++ "*" ++ name (fst q))%string.
Definition objective_piece (q : nat * Qc) : bool * string := (qltb (snd q) 0, times_text q).
Lemma str_neg c : qltb c 0 = true -> str_of show c = String "-" (show (qabs c)).
Proof. intros Q. unfold str_of. rewrite Q, (proj2 (abs_neg c Q)). reflexivity. Qed.
Lemma str_pos c : qltb c 0 = false -> str_of show c = show (qabs c).
Proof. intros Q. unfold str_of. rewrite Q, (proj2 (abs_pos c Q)). reflexivity. Qed.
Definition sign_text (q : nat * Qc) : string := String (if qltb (snd q) 0 then "-" else "+") (times_text q).
Lemma step_false s q : fst q =? 1 = false -> objective_step name show (s, false) q = ((s ++ sign_text q)%string, false).
Proof.
  intros O. unfold objective_step, sign_text, times_text. rewrite O. cbn [fst snd]. rewrite orb_false_r. destruct (qltb (snd q) 0) eqn:Q.
  - rewrite (str_neg _ Q). reflexivity.
  - rewrite (str_pos _ Q). reflexivity.
Qed.
Lemma step_true q : fst q =? 1 = false -> objective_step name show ("", true) q = ((if starts_with_plus (sign_text q) then tail (sign_text q) else sign_text q), false).
Proof.
  intros O. unfold objective_step, sign_text, times_text. rewrite O. cbn [fst snd]. rewrite orb_true_r. destruct (qltb (snd q) 0) eqn:Q.
  - rewrite (str_neg _ Q). reflexivity.
  - rewrite (str_pos _ Q). reflexivity.
Qed.
Notation others := (filter (fun q : nat * Qc => negb (fst q =? 1))).
Lemma fold_rest l : forall s, fst (fold_left (objective_step name show) l (s, false)) = (s ++ signs (map objective_piece (others l)))%string.
Proof.
  induction l as [|q l IH]; intros s; [cbn; now rewrite sapp_nil|]. cbn [fold_left filter]. destruct (fst q =? 1) eqn:O; cbn [negb].
  - replace (objective_step name show (s, false) q) with (s, false) by (unfold objective_step; now rewrite O). apply IH.
  - rewrite (step_false s q O), IH, sapp_assoc. reflexivity.
Qed.
Lemma fold_first l : fst (fold_left (objective_step name show) l ("", true)) = (let t := signs (map objective_piece (others l)) in if starts_with_plus t then tail t else t).
Proof.
  induction l as [|q l IH]; [reflexivity|]. cbn [fold_left filter]. destruct (fst q =? 1) eqn:O; cbn [negb].
  - replace (objective_step name show ("", true) q) with ("", true) by (unfold objective_step; now rewrite O). apply IH.
  - rewrite (step_true q O), fold_rest. cbn [map signs]. unfold sign_text. set (r := signs _). unfold objective_piece. cbn [fst snd]. cbv zeta. destruct (qltb (snd q) 0); reflexivity.
Qed.
Lemma number_says b c : says read x (b, show (qabs c)) (if b then (- qabs c)%Qc else qabs c).
Proof.
  pose proof (qabs_nonneg c) as P. destruct (number_text show read SN _ P) as (NS & NE & _). split; [exact NS|]. split; [exact NE|].
  eexists. split; [exact (number_read show read SN _ P b)|]. unfold term_value. cbn [fst snd]. ring.
Qed.
Lemma times_says b q : has_no sign (name (fst q)) = true -> says read x (b, times_text q) ((if b then (- qabs (snd q))%Qc else qabs (snd q)) * x (name (fst q)))%Qc.
Proof.
  intros NS. pose proof (qabs_nonneg (snd q)) as P. destruct (number_text show read SN _ P) as (NSn & NE & _). unfold times_text. split; [|split].
  - cbn [snd]. rewrite !has_no_app, NSn, NS. reflexivity.
  - cbn [snd]. destruct (show (qabs (snd q))); [contradiction|discriminate].
  - exists (Some (name (fst q)), if b then (- qabs (snd q))%Qc else qabs (snd q)). split; [|reflexivity].
    unfold read_term. cbn [fst snd]. rewrite (digit_app _ _ (sn_digit _ _ SN _ P)). change ("*" ++ name (fst q))%string with (String "*" (name (fst q))).
    assert (NST : has_no (fun ch => Ascii.eqb ch "*") (show (qabs (snd q))) = true) by (eapply has_no_impl; [|apply (sn_chars _ _ SN _ P)]; intros ch Hc; cbv beta in *; rewrite Hc; apply orb_true_r).
    rewrite (at_star_skip _ _ NST). cbn [fst snd]. now rewrite (sn_read _ _ SN _ P).
Qed.
Lemma signed_value c : (if qltb c 0 then (- qabs c)%Qc else qabs c) = c.
Proof. destruct (qltb c 0) eqn:Q; [rewrite (proj2 (abs_neg c Q)); ring|now rewrite (proj2 (abs_pos c Q))]. Qed.
Lemma objective_says l : (forall q, In q l -> has_no sign (name (fst q)) = true) -> (forall m, x (name m) = v m) ->
  forall q, In q (others l) -> says read x (objective_piece q) (snd q * v (fst q))%Qc.
Proof.
  intros H X q I. apply filter_In in I as [I _]. unfold objective_piece. pose proof (times_says (qltb (snd q) 0) q (H q I)) as T. now rewrite signed_value, X in T.
Qed.
End Objective.
Lemma split_one (l : idict Qc) (f : nat * Qc -> Qc) : NoDup (keys l) ->
  sumQ (map f l) = ((match iget 1 l with Some c => f (1%nat, c) | None => 0 end) + sumQ (map f (filter (fun q => negb (fst q =? 1)%nat) l)))%Qc.
Proof.
  induction l as [|[k c] l IH]; intros ND; [unfold sumQ; cbn; ring|]. cbn [keys map] in ND. apply NoDup_cons_iff in ND as [NI ND]. specialize (IH ND).
  unfold iget in *. cbn [map filter get fst]. change (sumQ (?a :: ?b)) with (a + sumQ b)%Qc. destruct (Nat.eq_dec 1 k) as [<-|NE].
  - cbn [Nat.eqb negb]. f_equal. rewrite IH. destruct (get Nat.eq_dec 1 l) as [c'|] eqn:G; [|ring]. apply get_some_in in G. exfalso. apply NI. apply (in_map fst) in G. exact G.
  - destruct (Nat.eqb_spec k 1); [congruence|]. cbn [negb map]. change (sumQ (?a :: ?b)) with (a + sumQ b)%Qc. rewrite IH. ring.
Qed.

(** The text of the objective, read as a sum of signed terms, is the objective, up to a constant
    term of at most 1e-8. *)
Theorem C49_objective name moments show read p h v x : csv_numbers show read -> convert_to_human_readable name moments show read p = Some h ->
  NoDup (keys (objective p)) -> (forall m, In m (keys (objective p)) -> has_no sign (name m) = true) ->
  v 1 = 1%Qc -> (forall m, x (name m) = v m) ->
  exists l, read_sum read (csv_obj h) = Some l /\ (qabs (value p v - sum_value x l) <= Q2Qc (1 # 100000000))%Qc /\
    (constant p = 0%Qc \/ (Q2Qc (1 # 100000000) < qabs (constant p))%Qc -> sum_value x l = value p v).
Proof.
  intros CN E ND NS V1 X. unfold convert_to_human_readable in E. destruct (all_some _) as [eqs|]; [|discriminate]. destruct (all_some _) as [ineqs|]; [|discriminate]. injection E as <-. cbn [csv_obj].
  pose proof (objective_says name show read CN x v (objective p) (fun q I => NS (fst q) (in_map fst _ _ I)) X) as H.
  unfold value, combination. rewrite (split_one _ (fun q => snd q * v (fst q))%Qc ND). cbn [fst snd].
  change (Q2Qc (1 # 100000000)) with atol.
  unfold csv_objective, objective_start, constant. destruct (iget 1 (objective p)) as [c|]; [destruct (not_tiny c) eqn:T|].
  - rewrite fold_rest. pose proof (number_says show read CN x (qltb c 0) c) as S1. rewrite signed_value in S1.
    destruct (start_read read x _ _ _ _ _ _ S1 H) as (l & R & W). exists l. split.
    + rewrite <- R. destruct (qltb c 0) eqn:Q; [now rewrite (str_neg _ _ Q)|now rewrite (str_pos _ _ Q)].
    + rewrite W, V1. replace (c * 1 + sumQ (map (fun q => snd q * v (fst q)) (filter (fun q => negb (fst q =? 1)%nat) (objective p))) - (c + sumQ (map (fun q => snd q * v (fst q)) (filter (fun q => negb (fst q =? 1)%nat) (objective p)))))%Qc with 0%Qc by ring.
      split; [discriminate|]. intros _. ring.
  - rewrite fold_first. destruct (signs_read read x _ _ _ H) as (l & R & W). exists l. cbv zeta. rewrite strip_read. split; [exact R|]. rewrite W, V1.
    apply qltb_false in T. split.
    + match goal with |- (qabs ?e <= _)%Qc => replace e with c by ring end. exact T.
    + intros [->|B]; [ring|]. exfalso. apply (Qclt_not_le _ _ B T).
  - rewrite fold_first. destruct (signs_read read x _ _ _ H) as (l & R & W). exists l. cbv zeta. rewrite strip_read. split; [exact R|]. rewrite W.
    match goal with |- (qabs ?e <= _)%Qc /\ _ => replace e with 0%Qc by ring end. split; [discriminate|]. intros _. ring.
Qed.

(** ** Equalities and inequalities *)
Definition exact_unit (c : Qc) : Prop := isclose (qabs c) 1 = true -> qabs c = 1%Qc.
Lemma all_some_forall2 {A B} (f : A -> option B) l r : all_some (map f l) = Some r -> Forall2 (fun a b => f a = Some b) l r.
Proof.
  revert r. induction l as [|a l IH]; intros r E; cbn in E; [injection E as <-; constructor|]. destruct (f a) eqn:F; [|discriminate]. destruct (all_some (map f l)) eqn:G; [|unfold all_some in G; rewrite G in E; discriminate].
  unfold all_some in G. rewrite G in E. injection E as <-. constructor; [exact F|]. now apply IH.
Qed.
Definition constraint_piece (name : nat -> string) (show : Qc -> string) (q : nat * Qc) : bool * string :=
  (negb (qltb 0 (snd q)), if fst q =? 1 then show (qabs (snd q)) else if isclose (qabs (snd q)) 1 then name (fst q) else times_text name show q).
Lemma constraint_signs name show d : fold_left (fun s q => (s ++ constraint_term name show q)%string) d "" = signs (map (constraint_piece name show) d).
Proof.
  assert (G : forall s, fold_left (fun s q => (s ++ constraint_term name show q)%string) d s = (s ++ signs (map (constraint_piece name show) d))%string).
  { induction d as [|q d IH]; intros s; [cbn; now rewrite sapp_nil|]. cbn [fold_left map signs]. rewrite IH, sapp_assoc. f_equal. unfold constraint_term, constraint_piece. cbn [fst snd]. destruct (qltb 0 (snd q)); reflexivity. }
  apply G.
Qed.
Lemma plus_value c : (if negb (qltb 0 c) then (- qabs c)%Qc else qabs c) = c.
Proof.
  destruct (qltb 0 c) eqn:Q; cbn [negb]; destruct (qabs_case c) as [(A & ->)|(A & ->)]; try reflexivity; try ring.
  - apply qltb_true in Q. exfalso. qclra.
  - apply qltb_false in Q. assert (c = 0%Qc) as -> by (apply Qcle_antisym; assumption). reflexivity.
Qed.
Lemma constraint_says name show read (CN : csv_numbers show read) x v q : name 0 = "0" -> (2 <= fst q -> readable_name (name (fst q))) -> exact_unit (snd q) ->
  v 0 = 0%Qc -> v 1 = 1%Qc -> (forall m, x (name m) = v m) -> says read x (constraint_piece name show q) (snd q * v (fst q))%Qc.
Proof.
  intros N0 RN EX V0 V1 X. unfold constraint_piece. destruct (Nat.eqb_spec (fst q) 1) as [->|N1].
  - pose proof (number_says show read CN x (negb (qltb 0 (snd q))) (snd q)) as S1. rewrite plus_value in S1. rewrite V1. replace (snd q * 1)%Qc with (snd q) by ring. exact S1.
  - destruct (isclose (qabs (snd q)) 1) eqn:C.
    + specialize (EX C). destruct (fst q) as [|[|m]] eqn:M; [|contradiction|].
      * rewrite N0. split; [reflexivity|]. split; [discriminate|]. unfold read_term. cbn [fst snd starts_with_digit is_digit at_star]. cbn.
        rewrite (proj1 (read_01 show read CN)). eexists. split; [reflexivity|]. unfold term_value. cbn [fst snd]. rewrite V0. destruct (negb _); ring.
      * destruct (RN ltac:(lia)) as (NE & ND & NSn). split; [exact NSn|]. split; [exact NE|]. unfold read_term. cbn [fst snd]. rewrite ND. eexists. split; [reflexivity|].
        unfold term_value. cbn [fst snd]. rewrite X. pose proof (plus_value (snd q)) as P. rewrite EX in P. rewrite P at 1. reflexivity.
    + assert (NSn : has_no sign (name (fst q)) = true) by (destruct (fst q) as [|[|m]]; [now rewrite N0|contradiction|apply RN; lia]).
      pose proof (times_says name show read CN x (negb (qltb 0 (snd q))) q NSn) as T. now rewrite plus_value, X in T.
Qed.
Lemma constraint_reads name show read (CN : csv_numbers show read) x v d s : constraint_text name show d = Some s -> name 0 = "0" ->
  (forall m, In m (keys d) -> 2 <= m -> readable_name (name m)) -> (forall m c, In (m, c) d -> exact_unit c) ->
  v 0 = 0%Qc -> v 1 = 1%Qc -> (forall m, x (name m) = v m) -> exists l, read_sum read s = Some l /\ sum_value x l = combination d v.
Proof.
  intros E N0 RN EX V0 V1 X. unfold constraint_text in E. rewrite constraint_signs in E. cbv zeta in E.
  assert (ES : s = if starts_with_plus (signs (map (constraint_piece name show) d)) then tail (signs (map (constraint_piece name show) d)) else signs (map (constraint_piece name show) d)) by (destruct (signs _); [discriminate|now injection E as <-]).
  rewrite ES, strip_read. apply (signs_read read x (constraint_piece name show) (fun q => snd q * v (fst q))%Qc). intros [m c] I.
  apply (constraint_says name show read CN x v (m, c) N0); try assumption; cbn [fst snd]; [|now apply (EX m)]. apply RN. apply (in_map fst) in I. exact I.
Qed.

(** Each equality and each inequality of the programme is there, in the same order, and its text,
    read as a sum of signed terms, is the combination of moments that it sets to zero (or
    bounds by zero).  (Coefficients that are within 1e-5 of 1 or -1 must be 1 or -1.) *)
Theorem C49_constraints name moments show read p h v x : csv_numbers show read -> convert_to_human_readable name moments show read p = Some h ->
  name 0 = "0" -> v 0 = 0%Qc -> v 1 = 1%Qc -> (forall m, x (name m) = v m) ->
  (forall d m c, In d (moment_equalities p) \/ In d (moment_inequalities p) -> In (m, c) d -> exact_unit c /\ (2 <= m -> readable_name (name m))) ->
  Forall2 (fun d s => exists l, read_sum read s = Some l /\ sum_value x l = combination d v) (moment_equalities p) (csv_eq h) /\
  Forall2 (fun d s => exists l, read_sum read s = Some l /\ sum_value x l = combination d v) (moment_inequalities p) (csv_ineq h).
Proof.
  intros CN E N0 V0 V1 X H. unfold convert_to_human_readable in E. destruct (all_some (map _ (moment_equalities p))) eqn:E1; [|discriminate]. destruct (all_some (map _ (moment_inequalities p))) eqn:E2; [|discriminate]. injection E as <-. cbn [csv_eq csv_ineq].
  assert (G : forall D r, all_some (map (constraint_text name show) D) = Some r -> (forall d, In d D -> In d (moment_equalities p) \/ In d (moment_inequalities p)) ->
    Forall2 (fun d s => exists l, read_sum read s = Some l /\ sum_value x l = combination d v) D r).
  { intros D r Er HD. apply all_some_forall2 in Er. revert HD. induction Er as [|d s D r F Er IH]; intros HD; constructor; [|apply IH; intros; apply HD; now right].
    apply (constraint_reads name show read CN x v d s F N0); try assumption.
    - intros m I L. apply in_map_iff in I as ([m' c] & <- & I). apply (H d m' c (HD d (or_introl eq_refl)) I). exact L.
    - intros m c I. apply (H d m c (HD d (or_introl eq_refl)) I). }
  split; apply G; try assumption; auto.
Qed.

(** The table of bounds has one row for each moment that is bounded, in the order of the names,
    with the bounds of the moment. *)
Theorem C49_bounds name moments show read p h : convert_to_human_readable name moments show read p = Some h -> (forall a b, name a = name b -> a = b) ->
  NoDup (map (fun r => fst (fst r)) (csv_bnd h)) /\ StronglySorted (fun a b => string_compare (name (fst (fst a))) (name (fst (fst b))) = Lt) (csv_bnd h) /\
  forall m lo up, In (m, lo, up) (csv_bnd h) <->
    (In m (keys (moment_lowerbounds p)) \/ In m (keys (moment_upperbounds p))) /\
    lo = get Nat.eq_dec m (moment_lowerbounds p) /\ up = get Nat.eq_dec m (moment_upperbounds p).
Proof.
  intros E INJ. unfold convert_to_human_readable in E. destruct (all_some _) as [eqs|]; [|discriminate]. destruct (all_some _) as [ineqs|]; [|discriminate]. injection E as <-. cbn [csv_bnd]. unfold csv_bounds.
  assert (GC : good_cmp (fun a b => string_compare (name a) (name b))).
  { destruct string_good_cmp as [A B C]. constructor; intros *; [rewrite A; split; [apply INJ|congruence]|apply B|apply C]. }
  set (l := np_unique _ _). assert (IN : forall m, In m l <-> In m (keys (moment_upperbounds p)) \/ In m (keys (moment_lowerbounds p))) by (intros m; unfold l; rewrite (np_unique_in _ GC); apply in_app_iff).
  split; [rewrite map_map; cbn [fst]; rewrite map_id; now apply np_unique_NoDup|]. split.
  - pose proof (np_unique_sorted _ GC (keys (moment_upperbounds p) ++ keys (moment_lowerbounds p))) as S'. fold l in S'. clear -S'. induction S' as [|a l S' IH F]; cbn [map]; constructor; [exact IH|]. apply Forall_map. exact F.
  - intros m lo up. rewrite in_map_iff. split.
    + intros (m' & E & I). inversion E; subst. split; [apply IN in I; tauto|]. split; reflexivity.
    + intros (I & -> & ->). exists m. split; [reflexivity|]. apply IN. tauto.
Qed.
(** The conversion works unless a constraint is empty. *)
Theorem C49_total name moments show read p : (exists h, convert_to_human_readable name moments show read p = Some h) <->
  (forall d, In d (moment_equalities p) \/ In d (moment_inequalities p) -> d <> []).
Proof.
  assert (T : forall d, constraint_text name show d = None <-> d = []).
  { intros d. unfold constraint_text. rewrite constraint_signs. destruct d as [|q d]; [split; reflexivity|]. cbn [map signs]. split; discriminate. }
  assert (G : forall D, (exists r, all_some (map (constraint_text name show) D) = Some r) <-> (forall d, In d D -> d <> [])).
  { induction D as [|d D IH]; [split; [intros _ d []|exists []; reflexivity]|]. cbn [map]. unfold all_some in *. cbn [fold_right]. split.
    - intros (r & E) d' [<-|I] Z.
      + apply T in Z. rewrite Z in E. discriminate.
      + destruct (constraint_text name show d); [|discriminate]. destruct (fold_right _ _ _) eqn:F; [|discriminate]. apply (proj1 IH (ex_intro _ _ eq_refl) d' I Z).
    - intros H. destruct (proj2 IH (fun d' I => H d' (or_intror I))) as (r & F). destruct (constraint_text name show d) eqn:C; [|exfalso; apply (H d (or_introl eq_refl)); now apply T].
      rewrite F. eexists. reflexivity. }
  unfold convert_to_human_readable. split.
  - intros (h & E). destruct (all_some (map _ (moment_equalities p))) eqn:E1; [|discriminate]. destruct (all_some (map _ (moment_inequalities p))) eqn:E2; [|discriminate].
    intros d [I|I]; [apply (proj1 (G _) (ex_intro _ _ E1) d I)|apply (proj1 (G _) (ex_intro _ _ E2) d I)].
  - intros H. destruct (proj2 (G (moment_equalities p)) (fun d I => H d (or_introl I))) as (r1 & ->). destruct (proj2 (G (moment_inequalities p)) (fun d I => H d (or_intror I))) as (r2 & ->). eauto.
Qed.

(** ** Numbers that can be read *)
Lemma pos_of_uint d : forall a, Nat.of_uint_acc d (Pos.to_nat a) = Pos.to_nat (Pos.of_uint_acc d a).
Proof.
  induction d; intros a; [reflexivity|..]; cbn [Nat.of_uint_acc Pos.of_uint_acc]; rewrite <- IHd; f_equal; rewrite Nat.tail_mul_spec; lia.
Qed.
Lemma n_of_uint d : N.of_nat (Nat.of_uint d) = N.of_uint d.
Proof.
  unfold Nat.of_uint, N.of_uint. induction d; [reflexivity|exact IHd|..]; cbn [Nat.of_uint_acc Pos.of_uint]; rewrite Nat.tail_mul_spec;
    match goal with |- context [Pos.of_uint_acc d ?k] => change (N.of_nat (Nat.of_uint_acc d (Pos.to_nat k)) = N.pos (Pos.of_uint_acc d k)); rewrite pos_of_uint; lia end.
Qed.
Lemma star_uint s t : NilEmpty.uint_of_string (s ++ String "*" t)%string = None.
Proof. induction s as [|ch s IH]; cbn [append NilEmpty.uint_of_string]; [|rewrite IH; destruct ch as [[] [] [] [] [] [] [] []]; reflexivity]. cbn. destruct (NilEmpty.uint_of_string t); reflexivity. Qed.
Lemma slash_star s t : (exists a b, PropCert.at_slash (s ++ String "*" t)%string = ((a ++ String "*" b)%string, snd (PropCert.at_slash (s ++ String "*" t)%string))) \/
  (exists a b, snd (PropCert.at_slash (s ++ String "*" t)%string) = Some (a ++ String "*" b)%string).
Proof.
  induction s as [|ch s IH]; cbn [append PropCert.at_slash].
  - left. cbn. exists "", (fst (PropCert.at_slash t)). reflexivity.
  - destruct (Ascii.eqb ch "/"); [right; exists s, t; reflexivity|]. cbn [fst snd]. destruct IH as [(a & b & E)|(a & b & E)]; [left; exists (String ch a), b; rewrite E at 1; reflexivity|right; exists a, b; exact E].
Qed.
Lemma fractions_for_csv : csv_numbers PropCert.show_fraction PropCert.read_fraction.
Proof.
  constructor.
  - apply PropCert.fractions_are_numbers.
  - intros k. assert (NS : PropCert.at_slash (dec k) = (dec k, None)).
    { unfold dec. generalize (Nat.to_uint k). intros u. induction u; [reflexivity|..]; cbn [NilEmpty.string_of_uint PropCert.at_slash Ascii.eqb Bool.eqb]; rewrite IHu; reflexivity. }
    unfold PropCert.read_fraction. rewrite NS. cbn [fst snd]. unfold PropCert.read_n, dec. rewrite NilEmpty.usu, <- n_of_uint, DecimalNat.Unsigned.of_to.
    rewrite nat_N_Z. reflexivity.
  - intros s t. unfold PropCert.read_fraction. destruct (slash_star s t) as [(a & b & ->)|(a & b & ->)]; cbn [fst snd]; unfold PropCert.read_n; rewrite star_uint; [reflexivity|].
    destruct (NilEmpty.uint_of_string _); reflexivity.
Qed.

(** ** A case *)
Definition csv_half : Qc := Q2Qc (1 # 2).
Definition csv_case : problem :=
  {| momentmatrix := [[1; 2; 3]; [2; 2; 4]; [3; 4; 5]]; known_moments := [(0, 0%Qc); (1, 1%Qc); (4, csv_half)]; semiknown_moments := [(3, (- csv_half, 2))%Qc];
     objective := [(1, csv_half); (2, (- (1))%Qc); (5, csv_half)]; moment_upperbounds := [(5, csv_half)]; moment_lowerbounds := [(2, 0%Qc); (5, 0%Qc)];
     moment_equalities := [[(2, 1%Qc); (3, (- (1 + 1))%Qc)]]; moment_inequalities := [[(1, 1%Qc); (2, (- (1))%Qc); (0, 1%Qc)]] |}.
Fixpoint tally (n : nat) : string := match n with 0 => "" | S n' => String "i" (tally n') end.
Definition csv_names (m : nat) : string :=
  nth m ["0"; "1"; "P[A_0=0]"; "P[B_0=0]"; "P[A_0=0, B_0=0]"; "P[A_0=0, B_1=0]"] (String "M" (tally m)).
Definition csv_moments : list nat := [0; 1; 2; 3; 4; 5].
Definition csv_value (m : nat) : Qc := match m with 0 => 0%Qc | 1 => 1%Qc | 4 => csv_half | _ => 0%Qc end.
Example C49_case : convert_to_human_readable csv_names csv_moments PropCert.show_fraction PropCert.read_fraction csv_case = Some
  {| csv_obj := "1/2-1/1*P[A_0=0]+1/2*P[A_0=0, B_1=0]";
     csv_mat := [["1"; "P[A_0=0]"; "-1/2*P[A_0=0]"]; ["0"; "P[A_0=0]"; "1/2"]; ["0"; "0"; "P[A_0=0;B_1=0]"]];
     csv_bnd := [(5, Some 0%Qc, Some csv_half); (2, Some 0%Qc, None)];
     csv_eq := ["P[A_0=0]-2/1*P[B_0=0]"]; csv_ineq := ["1/1-P[A_0=0]+0"] |}.
Proof. vm_compute. reflexivity. Qed.
Lemma csv_names_injective a b : csv_names a = csv_names b -> a = b.
Proof.
  assert (T : forall n, String.length (tally n) = n) by (induction n; cbn; congruence).
  destruct a as [|[|[|[|[|[|a]]]]]], b as [|[|[|[|[|[|b]]]]]]; try reflexivity; intros E; try (exfalso; unfold csv_names in E; cbn in E; discriminate).
  all: try (destruct a; discriminate); try (destruct b; discriminate).
  - assert (L : forall k, csv_names (S (S (S (S (S (S k)))))) = String "M" (tally (6 + k))) by (intros k; destruct k; reflexivity).
    rewrite !L in E. injection E as E. apply (f_equal String.length) in E. rewrite !T in E. lia.
Qed.
Example C49_case_meets_hypotheses :
  (forall row, In row (momentmatrix csv_case) -> List.length row = List.length (momentmatrix csv_case)) /\ (forall m, In m (entries csv_case) -> In m csv_moments) /\
  (forall m, In m csv_moments -> 2 <= m -> name_like (replace ", " ";" (csv_names m)) /\ readable_name (csv_names m)) /\
  (forall m c k, In (m, c) (known_moments csv_case) -> In k csv_moments -> 2 <= k -> c <> Q2Qc (inject_Z (Z.of_nat k))) /\
  respects csv_case csv_value /\ NoDup (keys (objective csv_case)) /\
  (exists x, forall m, x (csv_names m) = csv_value m) /\
  (forall d m c, In d (moment_equalities csv_case) \/ In d (moment_inequalities csv_case) -> In (m, c) d -> exact_unit c /\ (2 <= m -> readable_name (csv_names m))).
Proof.
  split; [cbn; intros row [<-|[<-|[<-|[]]]]; reflexivity|]. split; [cbn; intros m H; tauto|].
  assert (R : forall m, In m csv_moments -> 2 <= m -> name_like (replace ", " ";" (csv_names m)) /\ readable_name (csv_names m)).
  { intros m [<-|[<-|[<-|[<-|[<-|[<-|[]]]]]]] L; try lia; (split; (split; [vm_compute; discriminate|split; reflexivity])). }
  split; [exact R|]. split.
  { intros m c k K I L E. assert (KB : forallb (fun q => forallb (fun k => (k <? 2) || negb (Qc_eq_bool (snd q) (Q2Qc (inject_Z (Z.of_nat k))))) csv_moments) (known_moments csv_case) = true) by (vm_compute; reflexivity).
    rewrite forallb_forall in KB. specialize (KB _ K). rewrite forallb_forall in KB. specialize (KB _ I). cbn [snd] in KB. rewrite E in KB. apply orb_prop in KB as [KB|KB]; [apply Nat.ltb_lt in KB; lia|].
    apply negb_true_iff in KB. unfold Qc_eq_bool in KB. destruct (Qc_eq_dec _ _) in KB; [discriminate|contradiction]. }
  split.
  { split; [reflexivity|]. split; [reflexivity|]. split; [cbn; intros m c [E|[E|[E|[]]]]; inversion E; reflexivity|]. cbn. intros m c m' [E|[]]. inversion E. apply Qc_eq_bool_correct. vm_compute. reflexivity. }
  split; [cbn; repeat constructor; cbn; intuition discriminate|]. split.
  - exists (fun s => if String.eqb s "1" then 1%Qc else if String.eqb s "P[A_0=0, B_0=0]" then csv_half else 0%Qc). intros m.
    destruct m as [|[|[|[|[|[|m]]]]]]; try reflexivity. unfold csv_names. cbn [nth]. destruct m; reflexivity.
  - assert (EX : forall c, Qc_eq_bool (qabs c) 1 || negb (isclose (qabs c) 1) = true -> exact_unit c).
    { intros c H C. rewrite C in H. cbn [negb] in H. rewrite orb_false_r in H. now apply Qc_eq_bool_correct. }
    intros d m c D I. assert (X : forallb (forallb (fun q => Qc_eq_bool (qabs (snd q)) 1 || negb (isclose (qabs (snd q)) 1))) (moment_equalities csv_case ++ moment_inequalities csv_case) = true) by (vm_compute; reflexivity).
    rewrite forallb_forall in X. specialize (X d (proj2 (in_app_iff _ _ _) D)). rewrite forallb_forall in X. specialize (X _ I). cbn [snd] in X. split; [now apply EX|].
    intros L. apply R; [|exact L]. cbn in D. cbn. destruct D as [[<-|[]]|[<-|[]]]; cbn in I; intuition (match goal with H : (_, _) = (_, _) |- _ => inversion H end; auto 8).
Qed.

(** ** What is not guaranteed *)
(** a known value that is an integer from 2 on is printed as the name of the moment with that index *)
Definition integer_case : problem :=
  {| momentmatrix := [[1; 2]; [2; 3]]; known_moments := [(1, 1%Qc); (2, (1 + 1 + 1)%Qc)]; semiknown_moments := []; objective := []; moment_upperbounds := []; moment_lowerbounds := [];
     moment_equalities := []; moment_inequalities := [] |}.
Theorem C49_integer_value_refuted : exists h, convert_to_human_readable csv_names csv_moments PropCert.show_fraction PropCert.read_fraction integer_case = Some h /\
  iget 2 (known_moments integer_case) = Some (1 + 1 + 1)%Qc /\ entry integer_case 0 1 = 2 /\ cell (csv_mat h) 0 1 = csv_names 3.
Proof. eexists. split; [vm_compute; reflexivity|]. repeat split. Qed.
(** a coefficient within 1e-5 of 1 is printed as 1: different equalities have the same text *)
Definition equality_problem (c : Qc) : problem :=
  {| momentmatrix := [[1; 2]; [2; 2]]; known_moments := [(1, 1%Qc)]; semiknown_moments := []; objective := []; moment_upperbounds := []; moment_lowerbounds := [];
     moment_equalities := [[(1, (- csv_half)%Qc); (2, c)]]; moment_inequalities := [] |}.
Theorem C49_coefficient_refuted : exists c h v, convert_to_human_readable csv_names csv_moments PropCert.show_fraction PropCert.read_fraction (equality_problem c) = Some h /\
  convert_to_human_readable csv_names csv_moments PropCert.show_fraction PropCert.read_fraction (equality_problem 1) = Some h /\
  (forall d, In d (moment_equalities (equality_problem 1)) -> combination d v = 0%Qc) /\ ~ (forall d, In d (moment_equalities (equality_problem c)) -> combination d v = 0%Qc).
Proof.
  exists (Q2Qc (100001 # 100000)). eexists. exists (fun m => if m =? 1 then 1%Qc else csv_half). split; [vm_compute; reflexivity|]. split; [vm_compute; reflexivity|]. split.
  - cbn [equality_problem moment_equalities]. intros d [<-|[]]. apply Qc_eq_bool_correct. vm_compute. reflexivity.
  - intros H. specialize (H _ (or_introl eq_refl)). apply (f_equal (Qc_eq_bool 0%Qc)) in H. vm_compute in H. discriminate.
Qed.
