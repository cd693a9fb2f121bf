(** C29: the LP and MPS files describe the programme that is in memory. *)
From Coq Require Import List Arith Bool Ascii String Decimal DecimalString DecimalZ DecimalPos ZArith QArith Qcanon Permutation Lia.
From Verif Require Import MargModel QcSum QcArith SearchModel SearchProofs ProgramModel SDPSolveModel SDPSolveSpec SDPSolveProofs SdpaModel SdpaProofs
  LPWriteModel LPWriteSpec LPWriteProofs LPWriteProofs2 LPWriteProofs3 LPWriteProofs4 LPWriteProofs5 LPWriteProofs6.
Import ListNotations.
Open Scope nat_scope.
Open Scope list_scope.

Lemma no_newline s : ~ in_string "010" s -> all_chars (fun c => negb (Ascii.eqb c "010")) s = true.
Proof.
  induction s as [|c s IH]; intros H; [reflexivity|]. cbn [all_chars in_string] in *. destruct (Ascii.eqb_spec c "010") as [->|]; [exfalso; apply H; left; reflexivity|].
  cbn [negb andb]. apply IH. intros K. apply H. right; exact K.
Qed.
(** the objective is not a number different from zero *)
Definition objective_ok (a : lp_args) : Prop :=
  (exists k, In k (keys (a_objective a)) /\ ~ In k (keys (a_known a))) \/ (forall w, respects_lp a w -> lp_args_value a w = 0%Qc).

(** Without bounds, the LP file can be read back, whatever the way numbers are printed and the
    order in which sets are visited, and it is the programme in memory (with variables that
    are not negative): same feasible points, same value. *)
Theorem C29_lp show read order a filename :
  number_format show read -> (forall l, Permutation (order l) l) -> ~ in_string "010" filename ->
  wf_lp a -> a_lower a = [] -> a_upper a = [] -> known_constraints_hold a -> objective_ok a ->
  exists text f, write_to_lp show order a filename = Some text /\ read_lp read text = Some f /\
    forall w x, respects_lp a w -> agrees_lp a x w ->
      (lp_feasible f x <-> lp_args_feasible true a w) /\ lp_value f x = lp_args_value a w.
Proof.
  intros F O FN W LO UP KC OB. destruct (process_total a W) as [p E]. pose proof (process_ok a p E) as P. apply no_newline in FN.
  exists (all_texts show order filename p), (file_of order p). split; [unfold write_to_lp; rewrite E; reflexivity|]. split.
  - apply (read_lp_file show read order F); [exact FN| |].
    + pose proof (po_lower a p P) as S. rewrite LO in S. inversion S. reflexivity.
    + pose proof (po_upper a p P) as S. rewrite UP in S. inversion S. reflexivity.
  - intros w x R A. split; [apply (lp_feasible_iff a W order O p w P R KC x A LO UP)|]. apply (lp_value_eq a W order O p w P R x A). destruct OB as [OB|OB]; [left; exact OB|right; apply OB; exact R].
Qed.

(** every point of the programme is a point of the file and conversely *)
Definition point_of (a : lp_args) (w : name -> Qc) (i : nat) : Qc :=
  match nth_error (variables a) i with Some k => if in_dec string_dec k (keys (a_known a)) then 0%Qc else w k | None => 0%Qc end.
Lemma point_of_agrees a w : agrees_mps a (point_of a w) w.
Proof.
  split.
  - intros i k [N K]. unfold point_of. rewrite N. destruct (in_dec string_dec k (keys (a_known a))); [contradiction|reflexivity].
  - intros i H. unfold point_of. destruct (nth_error (variables a) i) as [k|] eqn:N; [|apply Qcle_refl]. destruct (in_dec string_dec k (keys (a_known a))) as [K|K]; [apply Qcle_refl|]. exfalso. apply (H k). split; assumption.
Qed.
Definition lp_point_of (a : lp_args) (w : name -> Qc) (s : string) : Qc :=
  match find (fun i => String.eqb s (xname i)) (seq 0 (length (variables a))) with Some i => point_of a w i | None => 0%Qc end.
Lemma lp_point_of_agrees a w : agrees_lp a (lp_point_of a w) w.
Proof.
  destruct (point_of_agrees a w) as [A1 A2]. split.
  - intros i k U. change ("x" ++ NilEmpty.string_of_uint (Nat.to_uint i))%string with (xname i). unfold lp_point_of. destruct (find _ _) as [j|] eqn:E.
    + apply find_some in E as [_ E]. apply String.eqb_eq in E. apply xname_inj in E. subst j. apply A1. exact U.
    + exfalso. assert (L : i < length (variables a)) by (apply nth_error_Some; rewrite (proj1 U); discriminate). assert (I : In i (seq 0 (length (variables a)))) by (apply in_seq; lia).
      pose proof (find_none _ _ E i I) as Z. cbn beta in Z. rewrite String.eqb_refl in Z. discriminate Z.
  - intros s H. unfold lp_point_of. destruct (find _ _) as [j|] eqn:E; [|apply Qcle_refl]. apply find_some in E as [_ E]. apply String.eqb_eq in E. apply A2. intros k U. apply (H j k U). exact E.
Qed.
Definition value_of (a : lp_args) (x : nat -> Qc) (k : name) : Qc :=
  match nget k (a_known a) with Some c => c | None => match index_from 0 k (variables a) with Some i => x i | None => 0%Qc end end.
Lemma get_known a k c : wf_lp a -> In (k, c) (a_known a) -> nget k (a_known a) = Some c.
Proof.
  intros W. destruct (wl_known a W) as [N _]. revert N. generalize (a_known a) as d. induction d as [|[k' c'] d IH]; intros N H; [destruct H|]. cbn [keys map fst] in N. apply NoDup_cons_iff in N as [N1 N2]. unfold nget. cbn [get].
  destruct (string_dec k k') as [->|NE]; destruct H as [H|H]; try congruence.
  - exfalso. apply N1. apply in_map_iff. exists (k', c). split; [reflexivity|exact H].
  - apply IH; assumption.
Qed.
Lemma get_unknown (d : ndict Qc) k : ~ In k (keys d) -> nget k d = None.
Proof.
  induction d as [|[k' c'] d IH]; intros H; [reflexivity|]. unfold nget. cbn [get]. destruct (string_dec k k') as [->|]; [exfalso; apply H; left; reflexivity|]. apply IH. intros K. apply H. right; exact K.
Qed.
Lemma value_of_unknown a x i k : wf_lp a -> unknown_at a i k -> value_of a x k = x i.
Proof.
  intros W [N K]. unfold value_of. rewrite (get_unknown _ k K). destruct (index_from_In 0 k (variables a)) as [j E]; [eapply nth_error_In; exact N|]. rewrite E.
  apply index_from_Some in E as (j' & -> & N'). rewrite (nth_inj a W i (0 + j') k N N'). reflexivity.
Qed.
Lemma value_of_respects a x : wf_lp a -> respects_lp a (value_of a x).
Proof. intros W k c H. unfold value_of. rewrite (get_known a k c W H). reflexivity. Qed.

(** Hence the same optimum. *)
Theorem C29_lp_optimum show read order a filename :
  number_format show read -> (forall l, Permutation (order l) l) -> ~ in_string "010" filename ->
  wf_lp a -> a_lower a = [] -> a_upper a = [] -> known_constraints_hold a -> objective_ok a ->
  exists text f, write_to_lp show order a filename = Some text /\ read_lp read text = Some f /\
    forall v : Qc, (forall x, lp_feasible f x -> (lp_value f x <= v)%Qc) <-> (forall w, respects_lp a w -> lp_args_feasible true a w -> (lp_args_value a w <= v)%Qc).
Proof.
  intros F O FN W LO UP KC OB. destruct (C29_lp show read order a filename F O FN W LO UP KC OB) as (text & f & H1 & H2 & H). exists text, f. split; [exact H1|]. split; [exact H2|].
  intros v. split.
  - intros V w R Fe. destruct (H w (lp_point_of a w) R (lp_point_of_agrees a w)) as [I E]. rewrite <- E. apply V, I, Fe.
  - intros V x Fe. set (w := value_of a (fun i => x (xname i))). assert (R : respects_lp a w) by (apply value_of_respects; exact W).
    assert (A : agrees_lp a x w).
    { split; [intros i k U; symmetry; apply (value_of_unknown a (fun i => x (xname i)) i k W U)|]. intros s _. destruct Fe as [P _]. apply P.
      intros Hs. assert (Q : o_lower f = []). 
      { pose proof H2 as H3. destruct (process_total a W) as [p E]. pose proof (process_ok a p E) as PO. unfold write_to_lp in H1. rewrite E in H1. assert (text = all_texts show order filename p) by (cbn [option_map] in H1; unfold all_texts; congruence). subst text.
        rewrite (read_lp_file show read order F) in H3; [| apply no_newline; exact FN | |].
        - assert (f = file_of order p) by congruence. subst f. reflexivity.
        - pose proof (po_lower a p PO) as S. rewrite LO in S. inversion S. reflexivity.
        - pose proof (po_upper a p PO) as S. rewrite UP in S. inversion S. reflexivity. }
      rewrite Q in Hs. destruct Hs. }
    destruct (H w x R A) as [I E]. rewrite E. apply V; [exact R|]. apply I. exact Fe.
Qed.

(** The MPS file, when no number has more than four decimals: a well-formed file, with the
    bounds, with the same feasible points and the same value. *)
Theorem C29_mps order a :
  (forall l, Permutation (order l) l) -> wf_lp a -> known_constraints_hold a -> all_four_decimals a -> bounds_ok a ->
  exists f, write_to_mps order a = Some f /\ mps_well_formed f /\
    forall w x, respects_lp a w -> agrees_mps a x w -> (mps_feasible f x <-> lp_args_feasible true a w) /\ mps_value f x = lp_args_value a w.
Proof.
  intros O W KC FD B. destruct (process_total a W) as [p E]. pose proof (process_ok a p E) as P. exists (mps_of order p). split; [unfold write_to_mps; rewrite E; reflexivity|]. split.
  - apply (mps_ok a W order p P FD B).
  - intros w x R A. split; [apply (mps_feasible_iff a W order O p P FD w x R A KC B)|apply (mps_value_eq a W order O p P FD w x R A)].
Qed.
Theorem C29_mps_optimum order a :
  (forall l, Permutation (order l) l) -> wf_lp a -> known_constraints_hold a -> all_four_decimals a -> bounds_ok a ->
  exists f, write_to_mps order a = Some f /\
    forall v : Qc, (forall x, mps_feasible f x -> (mps_value f x <= v)%Qc) <-> (forall w, respects_lp a w -> lp_args_feasible true a w -> (lp_args_value a w <= v)%Qc).
Proof.
  intros O W KC FD B. destruct (C29_mps order a O W KC FD B) as (f & H1 & _ & H). exists f. split; [exact H1|]. intros v. split.
  - intros V w R Fe. destruct (H w (point_of a w) R (point_of_agrees a w)) as [I E]. rewrite <- E. apply V, I, Fe.
  - intros V x Fe. set (w := value_of a x). assert (R : respects_lp a w) by (apply value_of_respects; exact W).
    assert (A : agrees_mps a x w).
    { split; [intros i k U; symmetry; apply (value_of_unknown a x i k W U)|]. intros i N. destruct Fe as (P & _).
      destruct (process_total a W) as [p E]. pose proof (process_ok a p E) as PO. unfold write_to_mps in H1. rewrite E in H1. assert (f = mps_of order p) by (cbn [option_map] in H1; congruence). subst f.
      destruct (P i) as [G|(b & Hb & _)]; [|exact G|].
      - intros L. apply in_map_iff in L as ([j b] & EJ & L). cbn [fst] in EJ. subst j. apply (lower_In a W order p PO FD) in L as (k & Nk & L). destruct (B k b (or_introl L)) as (_ & K & _). apply (N k). split; assumption.
      - exfalso. apply (upper_In a W order p PO FD) in Hb as (k & Nk & L). destruct (B k b (or_intror L)) as (_ & K & _). apply (N k). split; assumption. }
    destruct (H w x R A) as [I E]. rewrite E. apply V; [exact R|]. apply I. exact Fe.
Qed.

(** ** What fails *)
(** A programme with a bound: the LP file cannot be read, because bounds are written without
    newlines. *)
Theorem C29_lp_bounds_refuted show read order a filename :
  number_format show read -> (forall l, Permutation (order l) l) -> ~ in_string "010" filename -> wf_lp a -> a_lower a <> [] \/ a_upper a <> [] ->
  exists text, write_to_lp show order a filename = Some text /\ read_lp read text = None.
Proof.
  intros F O FN W B. destruct (process_total a W) as [p E]. pose proof (process_ok a p E) as P. exists (all_texts show order filename p). split; [unfold write_to_lp; rewrite E; reflexivity|].
  apply (read_lp_bounds show read order F); [apply no_newline; exact FN|]. destruct B as [B|B]; [left|right]; intros Z; apply B.
  - pose proof (po_lower a p P) as S. rewrite Z in S. inversion S. reflexivity.
  - pose proof (po_upper a p P) as S. rewrite Z in S. inversion S. reflexivity.
Qed.
(** An objective of which all the variables are known: its value is lost in the LP file. *)
Theorem C29_lp_known_objective_refuted show read order a filename :
  number_format show read -> (forall l, Permutation (order l) l) -> ~ in_string "010" filename -> wf_lp a -> a_lower a = [] -> a_upper a = [] -> only_known a (a_objective a) ->
  exists text f, write_to_lp show order a filename = Some text /\ read_lp read text = Some f /\ forall x, lp_value f x = 0%Qc.
Proof.
  intros F O FN W LO UP OB. destruct (process_total a W) as [p E]. pose proof (process_ok a p E) as P.
  exists (all_texts show order filename p), (file_of order p). split; [unfold write_to_lp; rewrite E; reflexivity|]. split.
  - apply (read_lp_file show read order F); [apply no_newline; exact FN| |].
    + pose proof (po_lower a p P) as S. rewrite LO in S. inversion S. reflexivity.
    + pose proof (po_upper a p P) as S. rewrite UP in S. inversion S. reflexivity.
  - intros x. apply (written_iff a W order O p P _ _ (po_objective a p P)) in OB. unfold lp_value, file_of. cbn [o_terms o_constant]. rewrite OB. unfold written in OB. destruct (unknowns order (p_known p) (p_objective p)); [|discriminate OB].
    unfold terms_at, terms_of. cbn [map]. rewrite sumQ_nil. ring.
Qed.

(** ** Examples *)
Definition q (n : BinNums.Z) (d : positive) : Qc := Q2Qc (n # d).
(** numbers written as fractions *)
Definition show_fraction (v : Qc) : string := NilEmpty.string_of_int (Z.to_int (Qnum v)) ++ String "/" (NilEmpty.string_of_uint (Pos.to_uint (Qden v))).
Fixpoint split_slash (s : string) : string * string :=
  match s with EmptyString => (EmptyString, EmptyString) | String c s' => if Ascii.eqb c "/" then (EmptyString, s') else let '(u, v) := split_slash s' in (String c u, v) end.
Definition read_fraction (s : string) : option Qc :=
  let '(u, v) := split_slash s in
  match NilEmpty.int_of_string u, NilEmpty.uint_of_string v with
  | Some n, Some d => match Pos.of_uint d with Npos d => Some (Q2Qc (Z.of_int n # d)) | N0 => None end
  | _, _ => None
  end.
Definition signed_digit (c : ascii) : bool := digit c || Ascii.eqb c "-".
Lemma int_chars i : all_chars signed_digit (NilEmpty.string_of_int i) = true.
Proof.
  assert (H : forall u, all_chars signed_digit (NilEmpty.string_of_uint u) = true).
  { intros u. apply all_chars_impl with digit; [intros c E; unfold signed_digit; rewrite E; reflexivity|apply digits_uint]. }
  destruct i; cbn [NilEmpty.string_of_int]; [apply H|]. cbn [all_chars]. rewrite H. reflexivity.
Qed.
Lemma split_app u v : all_chars signed_digit u = true -> split_slash (u ++ String "/" v)%string = (u, v).
Proof.
  induction u as [|c u IH]; intros H; [reflexivity|]. cbn [all_chars] in H. apply andb_true_iff in H as [H1 H2]. cbn [String.append split_slash].
  destruct (Ascii.eqb_spec c "/") as [->|_]; [discriminate H1|]. rewrite (IH H2). reflexivity.
Qed.
Lemma fraction_char c s : all_chars (fun c => signed_digit c || Ascii.eqb c "/") s = true -> in_string c s -> c <> " "%char /\ c <> "010"%char /\ c <> "\"%char.
Proof.
  induction s as [|d s IH]; intros H I; [destruct I|]. cbn [all_chars in_string] in *. apply andb_true_iff in H as [H1 H2]. destruct I as [->|I]; [|apply IH; assumption].
  split; [|split]; intros ->; discriminate H1.
Qed.
Lemma fraction_format : number_format show_fraction read_fraction.
Proof.
  assert (C : forall v, all_chars (fun c => signed_digit c || Ascii.eqb c "/") (show_fraction v) = true).
  { intros v. unfold show_fraction. rewrite all_chars_app. cbn [all_chars]. rewrite !andb_true_iff. split; [|split; [reflexivity|]].
    - apply all_chars_impl with signed_digit; [intros c E; rewrite E; reflexivity|apply int_chars].
    - apply all_chars_impl with digit; [intros c E; unfold signed_digit; rewrite E; reflexivity|apply digits_uint]. }
  split; [|split].
  - intros v. unfold read_fraction, show_fraction. rewrite split_app by apply int_chars. rewrite NilEmpty.isi, NilEmpty.usu, DecimalPos.Unsigned.of_to, DecimalZ.of_to. f_equal. apply Qc_is_canon. cbn [this Q2Qc]. rewrite Qred_correct. destruct (this v). reflexivity.
  - intros v. split; [|intros c I; apply (fraction_char c _ (C v) I)]. unfold show_fraction. destruct (NilEmpty.string_of_int _); discriminate.
  - intros v c s E. specialize (C v). rewrite E in C. cbn [all_chars] in C. apply andb_true_iff in C as [C _]. revert C. clear. destruct c as [[] [] [] [] [] [] [] []]; vm_compute; intros H; try reflexivity; discriminate H.
Qed.

(** max 1/2 + 2 x - y subject to x + y = 1/4 (from a known value), y = 1/2 z, x - z >= -1 *)
Open Scope string_scope.
Definition lp_case : lp_args :=
  {| variables := ["1"; "x"; "y"; "z"]; a_objective := [("1", q 1 2); ("x", q 2 1); ("y", q (-1) 1)]; a_known := [("1", q 1 1)];
     a_semiknown := [("y", (q 1 2, "z"))]; a_equalities := [[("x", q 1 1); ("y", q 1 1); ("1", q (-1) 4)]]; a_inequalities := [[("x", q 1 1); ("z", q (-1) 1); ("1", q 1 1)]];
     a_lower := []; a_upper := [] |}.
Definition mps_case : lp_args :=
  {| variables := variables lp_case; a_objective := a_objective lp_case; a_known := a_known lp_case; a_semiknown := a_semiknown lp_case; a_equalities := a_equalities lp_case;
     a_inequalities := a_inequalities lp_case; a_lower := [("x", q 1 8)]; a_upper := [("z", q 1 4)] |}.
Fixpoint nodup_b (l : list string) : bool := match l with [] => true | x :: l' => negb (existsb (String.eqb x) l') && nodup_b l' end.
Lemma nodupb (l : list string) : nodup_b l = true -> NoDup l.
Proof.
  induction l as [|x l IH]; intros H; [constructor|]. cbn [nodup_b] in H. apply andb_true_iff in H as [H1 H2]. constructor; [|apply IH; exact H2].
  intros I. apply negb_true_iff in H1. assert (existsb (String.eqb x) l = true) by (apply existsb_exists; exists x; split; [exact I|apply String.eqb_refl]). congruence.
Qed.
Lemma inclb (l m : list string) : forallb (fun k => if in_dec string_dec k m then true else false) l = true -> incl l m.
Proof. intros H k I. rewrite forallb_forall in H. specialize (H k I). destruct (in_dec string_dec k m); [assumption|discriminate H]. Qed.
Ltac wf_dict := split; [apply nodupb; vm_compute; reflexivity|apply inclb; vm_compute; reflexivity].
Lemma lp_case_wf : wf_lp lp_case.
Proof.
  constructor.
  - apply nodupb. vm_compute. reflexivity.
  - wf_dict.
  - wf_dict.
  - intros d [[<-|[]]|[<-|[]]]; wf_dict.
  - intros k c k2 [E|[]]. assert (k = "y" /\ k2 = "z") as [-> ->] by (split; congruence). split; [right; right; left; reflexivity|]. split; [right; right; right; left; reflexivity|discriminate].
  - split; intros k [].
Qed.
Lemma mps_case_wf : wf_lp mps_case.
Proof. destruct lp_case_wf as [H1 H2 H3 H4 H5 H6]. constructor; try assumption. split; apply inclb; vm_compute; reflexivity. Qed.
Lemma lp_case_known : known_constraints_hold lp_case.
Proof.
  intros w _. split; intros d H K; exfalso.
  - destruct H as [<-|[<-|[]]]; [specialize (K "x" (or_introl eq_refl))|specialize (K "y" (or_introl eq_refl))]; destruct K as [K|[]]; discriminate K.
  - destruct H as [<-|[]]. specialize (K "x" (or_introl eq_refl)). destruct K as [K|[]]; discriminate K.
Qed.
Lemma mps_case_known : known_constraints_hold mps_case. Proof. exact lp_case_known. Qed.
Definition four_decimalsb (c : Qc) : bool := (Qnum (c * Q2Qc 10000)%Qc =? Qnum (c * Q2Qc 10000)%Qc)%Z && Qc_eq_bool (c * Q2Qc 10000) (z2q (Qnum (c * Q2Qc 10000)%Qc)).
Lemma four_decimals_ok c : four_decimalsb c = true -> four_decimals c.
Proof. unfold four_decimalsb. intros H. apply andb_true_iff in H as [_ H]. apply Qc_eq_bool_correct in H. eexists. exact H. Qed.
Lemma dict_four (d : ndict Qc) : forallb (fun kc => four_decimalsb (snd kc)) d = true -> forall k c, In (k, c) d -> four_decimals c.
Proof. intros H k c I. rewrite forallb_forall in H. apply four_decimals_ok, (H (k, c) I). Qed.
Lemma mps_case_four : all_four_decimals mps_case.
Proof.
  split.
  - intros d H. assert (B : four_decimalsb (known_contribution mps_case d) = true /\ forallb (fun kc => four_decimalsb (snd kc)) d = true).
    { destruct H as [<-|[<-|[<-|[<-|[]]]]]; split; vm_compute; reflexivity. }
    split; [apply four_decimals_ok, (proj1 B)|apply dict_four, (proj2 B)].
  - intros k b [[E|[]]|[E|[]]]; [assert (b = q 1 8) by congruence|assert (b = q 1 4) by congruence]; subst b; apply four_decimals_ok; vm_compute; reflexivity.
Qed.
Lemma mps_case_bounds : bounds_ok mps_case.
Proof.
  intros k b [[E|[]]|[E|[]]]; assert (K := f_equal fst E); assert (B := f_equal snd E); cbn [fst snd] in K, B; subst k b.
  - split; [vm_compute; discriminate|]. split; [intros [K|[]]; discriminate K|]. exists (a_objective lp_case). split; [left; reflexivity|right; left; reflexivity].
  - split; [vm_compute; discriminate|]. split; [intros [K|[]]; discriminate K|]. eexists. split; [right; right; left; reflexivity|right; left; reflexivity].
Qed.
Definition file_text : string := "\ File: example.lp
maximize
obj: 2/1 x1 + -1/1 x2 + 1/2
subject to
c0: 1/1 x1 + 1/1 x2 = 1/4
c1: 1/1 x2 + -1/2 x3 = 0/1
c2: 1/1 x1 + -1/1 x3 >= -1/1
bounds
end".
(** the example meets the hypotheses, and here is its file *)
Theorem C29_case : number_format show_fraction read_fraction /\ (forall l : list nat, Permutation l l) /\ ~ in_string "010" "example.lp" /\
  wf_lp lp_case /\ a_lower lp_case = [] /\ a_upper lp_case = [] /\ known_constraints_hold lp_case /\ objective_ok lp_case /\
  write_to_lp show_fraction (fun l => l) lp_case "example.lp" = Some file_text /\
  wf_lp mps_case /\ known_constraints_hold mps_case /\ all_four_decimals mps_case /\ bounds_ok mps_case.
Proof.
  split; [exact fraction_format|]. split; [intros l; apply Permutation_refl|]. split; [intros H; vm_compute in H; intuition discriminate|]. split; [exact lp_case_wf|]. split; [reflexivity|]. split; [reflexivity|].
  split; [exact lp_case_known|]. split; [left; exists "x"; split; [right; left; reflexivity|intros [K|[]]; discriminate K]|]. split; [vm_compute; reflexivity|].
  split; [exact mps_case_wf|]. split; [exact mps_case_known|]. split; [exact mps_case_four|exact mps_case_bounds].
Qed.

(** A constraint whose variables are all known and that is violated is left out of both files:
    the programme is infeasible, the files are feasible. *)
Definition violated_case : lp_args :=
  {| variables := ["1"; "x"]; a_objective := [("x", q 1 1)]; a_known := [("1", q 1 1)]; a_semiknown := []; a_equalities := [[("1", q 1 1)]]; a_inequalities := []; a_lower := []; a_upper := [] |}.
Theorem C29_known_constraint_refuted : exists a, wf_lp a /\ (forall w, respects_lp a w -> ~ lp_args_feasible true a w) /\
  (exists text f x, write_to_lp show_fraction (fun l => l) a "example.lp" = Some text /\ read_lp read_fraction text = Some f /\ lp_feasible f x) /\
  (exists f x, write_to_mps (fun l => l) a = Some f /\ mps_feasible f x).
Proof.
  exists violated_case. split; [|split; [|split]].
  - constructor; try (wf_dict || (apply nodupb; vm_compute; reflexivity)); [intros d [[<-|[]]|[]]; wf_dict|intros k c k2 []|split; intros k []].
  - intros w R (_ & _ & H & _). specialize (H _ (or_introl eq_refl)). rewrite expr_cons, expr_nil in H. rewrite (R "1" (q 1 1) (or_introl eq_refl)) in H. apply Qc_eq_this in H. vm_compute in H. discriminate H.
  - destruct (write_to_lp show_fraction (fun l => l) violated_case "example.lp") as [t|] eqn:E; [|vm_compute in E; discriminate E]. exists t, {| o_terms := [(q 1 1, "x1")]; o_constant := 0%Qc; o_constraints := []; o_lower := []; o_upper := [] |}, (fun _ => 0%Qc).
    split; [reflexivity|]. split.
    + pose proof (process_ok violated_case) as PO. unfold write_to_lp in E. destruct (process_arguments violated_case) as [p|] eqn:EP; [|discriminate E]. assert (t = all_texts show_fraction (fun l => l) "example.lp" p) by (cbn [option_map] in E; unfold all_texts; congruence). subst t.
      vm_compute in EP. assert (L : p_lower p = []) by (inversion EP; reflexivity). assert (U : p_upper p = []) by (inversion EP; reflexivity).
      rewrite (read_lp_file show_fraction read_fraction (fun l => l) fraction_format) by (first [assumption|vm_compute; reflexivity]). inversion EP as [EP']. unfold file_of. cbn [p_objective p_known p_equalities p_inequalities].
      reflexivity.
    + split; [intros s _; apply Qcle_refl|]. split; [intros l r b []|]. split; intros s b [].
  - destruct (write_to_mps (fun l => l) violated_case) as [f|] eqn:E; [|vm_compute in E; discriminate E]. exists f, (fun _ => 0%Qc). split; [reflexivity|].
    vm_compute in E. assert (L : m_lower f = [] /\ m_upper f = [] /\ m_rows f = []) by (inversion E; split; [|split]; reflexivity). destruct L as (L & U & M). unfold mps_feasible. rewrite L, U, M.
    split; [intros k _; left; apply Qcle_refl|]. split; [intros k i []|]. split; intros k b [].
Qed.

(** Without the default that variables are not negative (relax_inequalities,
    default_non_negative=False) the files still impose it: with x + 1 = 0 the programme is
    feasible and the files are not. *)
Definition negative_case : lp_args :=
  {| variables := ["1"; "x"]; a_objective := [("x", q 1 1)]; a_known := [("1", q 1 1)]; a_semiknown := []; a_equalities := [[("x", q 1 1); ("1", q 1 1)]]; a_inequalities := []; a_lower := []; a_upper := [] |}.
Theorem C29_default_non_negative_refuted : exists a, wf_lp a /\ known_constraints_hold a /\ objective_ok a /\ (exists w, respects_lp a w /\ lp_args_feasible false a w) /\
  (exists text f, write_to_lp show_fraction (fun l => l) a "example.lp" = Some text /\ read_lp read_fraction text = Some f /\ forall x, ~ lp_feasible f x) /\
  (exists f, write_to_mps (fun l => l) a = Some f /\ forall x, ~ mps_feasible f x).
Proof.
  assert (W : wf_lp negative_case).
  { constructor; try (wf_dict || (apply nodupb; vm_compute; reflexivity)); [intros d [[<-|[]]|[]]; wf_dict|intros k c k2 []|split; intros k []]. }
  assert (KC : known_constraints_hold negative_case).
  { intros w _. split; intros d H K; exfalso; [|destruct H]. destruct H as [<-|[]]. specialize (K "x" (or_introl eq_refl)). destruct K as [K|[]]; discriminate K. }
  assert (OB : objective_ok negative_case) by (left; exists "x"; split; [left; reflexivity|intros [K|[]]; discriminate K]).
  assert (NO : forall w, respects_lp negative_case w -> ~ lp_args_feasible true negative_case w).
  { intros w R (H1 & _ & H & _). specialize (H _ (or_introl eq_refl)). rewrite !expr_cons, expr_nil in H. rewrite (R "1" (q 1 1) (or_introl eq_refl)) in H.
    assert (H' : (0 <= w "x")%Qc) by (apply H1; [reflexivity|right; left; reflexivity|intros [K|[]]; discriminate K]).
    change (q 1 1) with 1%Qc in H. apply (Qclt_not_le 0 (w "x" + 1)%Qc); [qclra|]. replace (w "x" + 1)%Qc with (1 * w "x" + (1 * 1 + 0))%Qc by ring. rewrite H. apply Qcle_refl. }
  assert (FD : all_four_decimals negative_case).
  { split.
    - intros d H. assert (B : four_decimalsb (known_contribution negative_case d) = true /\ forallb (fun kc => four_decimalsb (snd kc)) d = true).
      { destruct H as [<-|[<-|[]]]; split; vm_compute; reflexivity. }
      split; [apply four_decimals_ok, (proj1 B)|apply dict_four, (proj2 B)].
    - intros k b [[]|[]]. }
  assert (BO : bounds_ok negative_case) by (intros k b [[]|[]]).
  assert (PI : forall l : list nat, Permutation ((fun l => l) l) l) by (intros l; apply Permutation_refl).
  exists negative_case. split; [exact W|]. split; [exact KC|]. split; [exact OB|]. split; [|split].
  - exists (fun k => if String.eqb k "x" then q (-1) 1 else q 1 1). split.
    + intros k c [E|[]]. assert (k = "1") by congruence. assert (c = q 1 1) by congruence. subst k c. reflexivity.
    + split; [discriminate|]. split; [intros k c k2 []|]. split; [|split; [intros d []|split; intros k b []]]. intros d [<-|[]]. apply Qc_eq_bool_correct. vm_compute. reflexivity.
  - destruct (C29_lp_optimum show_fraction read_fraction (fun l => l) negative_case "example.lp" fraction_format PI) as (text & f & H1 & H2 & H); try assumption; try reflexivity.
    + intros K. vm_compute in K. intuition discriminate.
    + exists text, f. split; [exact H1|]. split; [exact H2|]. intros x Fe.
      assert (V : (lp_value f x <= lp_value f x - 1)%Qc) by (apply (proj2 (H (lp_value f x - 1)%Qc)); [intros w R Fw; exfalso; apply (NO w R Fw)|exact Fe]).
      apply (Qcle_not_lt _ _ V). qclra.
  - destruct (C29_mps_optimum (fun l => l) negative_case PI) as (f & H1 & H); try assumption. exists f. split; [exact H1|]. intros x Fe.
    assert (V : (mps_value f x <= mps_value f x - 1)%Qc) by (apply (proj2 (H (mps_value f x - 1)%Qc)); [intros w R Fw; exfalso; apply (NO w R Fw)|exact Fe]).
    apply (Qcle_not_lt _ _ V). qclra.
Qed.

(** The MPS file rounds to four decimals: max x subject to x/30000 <= 1 is bounded by 30000 in
    memory and unbounded in the file. *)
Definition rounded_case : lp_args :=
  {| variables := ["1"; "x"]; a_objective := [("x", q 1 1)]; a_known := [("1", q 1 1)]; a_semiknown := []; a_equalities := []; a_inequalities := [[("1", q 1 1); ("x", q (-1) 30000)]]; a_lower := []; a_upper := [] |}.
Theorem C29_mps_rounding_refuted : exists a f, wf_lp a /\ known_constraints_hold a /\ bounds_ok a /\ write_to_mps (fun l => l) a = Some f /\
  (forall w, respects_lp a w -> lp_args_feasible true a w -> (lp_args_value a w <= q 30000 1)%Qc) /\ (forall v : Qc, exists x, mps_feasible f x /\ (v <= mps_value f x)%Qc).
Proof.
  destruct (write_to_mps (fun l => l) rounded_case) as [f|] eqn:E; [|vm_compute in E; discriminate E]. exists rounded_case, f.
  split; [constructor; try (wf_dict || (apply nodupb; vm_compute; reflexivity)); [intros d [[]|[<-|[]]]; wf_dict|intros k c k2 []|split; intros k []]|].
  split. { intros w _. split; intros d H K; exfalso; [destruct H|]. destruct H as [<-|[]]. specialize (K "x" (or_intror (or_introl eq_refl))). destruct K as [K|[]]; discriminate K. }
  split; [intros k b [[]|[]]|]. split; [exact E|]. split.
  - intros w R (_ & _ & _ & H & _). specialize (H _ (or_introl eq_refl)). unfold lp_args_value. cbn [rounded_case a_objective]. rewrite !expr_cons, expr_nil in *. rewrite (R "1" (q 1 1) (or_introl eq_refl)) in H.
    assert (A1 : q 30000 1 = (- (q 30000 1 * q (-1) 30000) * q 30000 1)%Qc) by (apply Qc_eq_bool_correct; vm_compute; reflexivity).
    assert (A2 : (q 30000 1 * q (-1) 30000)%Qc = (- (1))%Qc) by (apply Qc_eq_bool_correct; vm_compute; reflexivity).
    change (q 1 1) with 1%Qc in *. assert (A3 : (0 <= q 30000 1)%Qc) by (vm_compute; discriminate).
    assert (A4 : (0 * q 30000 1 <= (1 * 1 + (q (-1) 30000 * w "x" + 0)) * q 30000 1)%Qc) by (apply Qcmult_le_compat_r; assumption).
    replace ((1 * 1 + (q (-1) 30000 * w "x" + 0)) * q 30000 1)%Qc with (q 30000 1 + (q 30000 1 * q (-1) 30000) * w "x")%Qc in A4 by ring. rewrite A2 in A4. qclra.
  - intros v. set (t := if Qclt_le_dec v 0 then 0%Qc else v). assert (T : (0 <= t)%Qc /\ (v <= t)%Qc) by (unfold t; destruct (Qclt_le_dec v 0) as [L|L]; split; try assumption; try apply Qcle_refl; apply Qclt_le_weak; assumption).
    exists (fun _ => t). vm_compute in E. assert (F1 : m_lower f = []) by (inversion E; reflexivity). assert (F2 : m_upper f = []) by (inversion E; reflexivity).
    assert (F3 : m_rows f = [(G_row, 0)]) by (inversion E; reflexivity).
    assert (F4 : exists c1 c2, m_columns f = [(1, Objective, c1); (1, Row 0, c2)] /\ Qc_eq_bool c1 1 = true /\ Qc_eq_bool c2 0 = true) by (inversion E; eexists; eexists; split; [reflexivity|split; vm_compute; reflexivity]).
    assert (F5 : exists c, m_rhs f = [(Row 0, c)] /\ Qc_eq_bool c (- (1))%Qc = true) by (inversion E; eexists; split; [reflexivity|vm_compute; reflexivity]).
    destruct F4 as (c1 & c2 & F4 & G1 & G2). destruct F5 as (c & F5 & G3). apply Qc_eq_bool_correct in G1, G2, G3. subst c1 c2 c. clear E. split.
    + unfold mps_feasible. rewrite F1, F2, F3. split; [intros k _; left; apply T|]. split; [|split; intros k b []]. intros k i [Q|[]]. assert (k = G_row) by congruence. assert (i = 0) by congruence. subst k i.
      unfold row_sum, row_rhs. rewrite F4, F5. cbn [map same_row Nat.eqb]. rewrite !sumQ_cons, sumQ_nil. qclra.
    + unfold mps_value, row_sum, row_rhs. rewrite F4, F5. cbn [map same_row]. rewrite !sumQ_cons, sumQ_nil. destruct T as [_ T]. qclra.
Qed.
