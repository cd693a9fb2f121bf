(** Reading back the LP file. *)
From Coq Require Import List Arith Bool Ascii String QArith Qcanon Permutation Lia.
From Verif Require Import MargModel QcSum SearchModel ProgramModel SDPSolveModel SDPSolveSpec SdpaModel LPWriteModel LPWriteSpec LPWriteProofs.
Import ListNotations.
Open Scope nat_scope.
Open Scope string_scope.

Lemma read_objective_other read ts : hd_error ts <> Some "subject" -> read_objective read ts = read_terms read ts.
Proof.
  intros H. destruct ts as [|a ts]; [reflexivity|]. cbn [hd_error] in H. unfold read_objective. destruct (String.eqb_spec a "subject") as [->|N]; [exfalso; apply H; reflexivity|reflexivity].
Qed.
Lemma take_suffix w ts r : take w (Some ts) = Some r -> ts = w :: r.
Proof. unfold take. destruct ts as [|a ts]; [discriminate|]. destruct (String.eqb_spec a w) as [->|]; [congruence|discriminate]. Qed.
Lemma take2_suffix w w' ts r : take w (take w' (Some ts)) = Some r -> ts = w' :: w :: r.
Proof. destruct (take w' (Some ts)) as [ts'|] eqn:E; [|discriminate]. intros E'. apply take_suffix in E, E'. congruence. Qed.

Section Format.
Variables (show : Qc -> string) (read : string -> option Qc) (order : list nat -> list nat).
Hypothesis F : number_format show read.
Hypothesis O : forall l, Permutation (order l) l.

Definition file_of (p : processed) : lp_file :=
  {| o_terms := terms_of (p_objective p) (unknowns order (p_known p) (p_objective p));
     o_constant := if written order (p_known p) (p_objective p) then known_sum order (p_known p) (p_objective p) else 0%Qc;
     o_constraints := (constraints_of order (p_known p) Eq (p_equalities p) ++ constraints_of order (p_known p) Ineq (p_inequalities p))%list;
     o_lower := []; o_upper := [] |}.
Lemma read_lp_file filename p : all_chars (fun c => negb (Ascii.eqb c "010")) filename = true -> p_lower p = [] -> p_upper p = [] ->
  read_lp read (all_texts show order filename p) = Some (file_of p).
Proof.
  intros FN L U. unfold read_lp. rewrite (words_file show read order F) by assumption.
  assert (B : bwords show p = ["end"]) by (unfold bwords; rewrite L, U; reflexivity). rewrite B.
  set (ts1 := (eqs_words show order p ++ ineqs_words show order p ++ ["bounds"; "end"])%list).
  assert (RO : read_objective read (words (format_constraint_lp show order (p_known p) (p_objective p) Obj) ++ "subject" :: "to" :: ts1)%list
    = Some (o_terms (file_of p), o_constant (file_of p), ("subject" :: "to" :: ts1)%list)).
  { rewrite (words_objective show read order F). unfold file_of. cbn [o_terms o_constant]. unfold written. destruct (unknowns order (p_known p) (p_objective p)) as [|x l] eqn:E; [reflexivity|].
    rewrite <- app_assoc. rewrite read_objective_other.
    - cbn [app]. apply (read_terms_obj show read F (p_objective p) (x :: l)). reflexivity.
    - cbn [flat_map app hd_error]. intros Q. injection Q as Q. apply (show_not_subject show read F) in Q. exact Q. }
  match goal with |- context [take "obj:" (take "maximize" (Some ("maximize" :: "obj:" :: ?t)%list))] => change (take "obj:" (take "maximize" (Some ("maximize" :: "obj:" :: t)%list))) with (Some t) end.
  cbn match. rewrite RO. change (take "to" (take "subject" (Some ("subject" :: "to" :: ts1)%list))) with (Some ts1). cbn match.
  assert (RC : read_constraints read (length ts1) ts1 = Some (o_constraints (file_of p), ["end"])).
  { unfold ts1, eqs_words, ineqs_words, file_of. cbn [o_constraints]. unfold constraints_of.
    set (le := filter (written order (p_known p)) (p_equalities p)). set (li := filter (written order (p_known p)) (p_inequalities p)).
    assert (We : forall d, In d le -> written order (p_known p) d = true) by (intros d H; apply filter_In in H; apply H).
    assert (Wi : forall d, In d li -> written order (p_known p) d = true) by (intros d H; apply filter_In in H; apply H).
    set (wi := cwords_all show order (p_known p) Ineq (length le) li).
    apply (read_constraint_list show read order F) with (fuel := length wi + 1); [discriminate|exact We|lia| |rewrite !app_length; cbn [length]; unfold wi; lia].
    intros f Hf. rewrite <- (app_nil_r (map (constraint_of order (p_known p) Ineq) li)).
    apply (read_constraint_list show read order F) with (fuel := 1); [discriminate|exact Wi|lia| |exact Hf].
    intros f' Hf'. destruct f' as [|f']; [lia|]. reflexivity. }
  rewrite RC. reflexivity.
Qed.

(** ** A file with bounds *)
Lemma word_end v : word v -> word (v ++ "end") /\ v ++ "end" <> "end".
Proof.
  intros [N W]. split; [split|].
  - destruct v; [contradiction|discriminate].
  - rewrite all_chars_app, W. reflexivity.
  - intros E. apply (f_equal String.length) in E. rewrite length_append in E. destruct v; [contradiction|]. cbn in E. lia.
Qed.
Lemma last_bound (l : list string) : l <> [] -> (forall s, In s l -> exists u v, word v /\ s = u ++ String " " v) ->
  exists pre w, words (cat (l ++ ["end"])%list) = (pre ++ [w])%list /\ w <> "end".
Proof.
  intros N H. destruct (exists_last N) as (l' & s & ->). destruct (H s) as (u & v & W & ->); [apply in_app_iff; right; left; reflexivity|].
  exists (words (cat l' ++ u)), (v ++ "end"). split; [|apply word_end; exact W].
  rewrite <- app_assoc, cat_app. cbn [app]. rewrite !cat_cons. change (cat []) with "". 
  replace (cat l' ++ (u ++ String " " v) ++ "end" ++ "") with ((cat l' ++ u) ++ String " " (v ++ "end")) by (rewrite !append_assoc; reflexivity).
  rewrite words_blank by reflexivity. rewrite (words_word (v ++ "end")) by (apply word_end; exact W). reflexivity.
Qed.
Lemma bwords_end p : p_lower p <> [] \/ p_upper p <> [] -> exists pre w, bwords show p = (pre ++ [w])%list /\ w <> "end".
Proof.
  intros N. unfold bwords. rewrite app_assoc. apply last_bound.
  - intros E. apply app_eq_nil in E as [E1 E2]. apply map_eq_nil in E1, E2. destruct N; contradiction.
  - intros s H. apply in_app_iff in H as [H|H]; apply in_map_iff in H as (q & <- & _).
    + exists (show (snd q) ++ " <="), (xname (fst q)). split; [apply xname_word|]. rewrite append_assoc. reflexivity.
    + exists (xname (fst q) ++ " <="), (show (snd q)). split; [apply (show_word show read F)|]. rewrite append_assoc. reflexivity.
Qed.
(** readers consume the beginning of what they are given *)
Lemma read_terms_suffix : forall n ts l k r, (length ts <= n)%nat -> read_terms read ts = Some (l, k, r) -> exists pre, ts = (pre ++ r)%list.
Proof.
  induction n as [|n IH]; intros ts l k r L E; (destruct ts as [|a ts1]; [discriminate E|]); [cbn in L; lia|].
  cbn [read_terms] in E. destruct (read a) as [c|]; [|discriminate E]. destruct ts1 as [|v ts2].
  - exists [a]. cbn [app]. congruence.
  - destruct (is_name v).
    + destruct ts2 as [|plus ts3].
      * exists [a; v]. cbn [app]. congruence.
      * destruct (String.eqb plus "+").
        -- destruct (read_terms read ts3) as [[[l' k'] r']|] eqn:R; [|discriminate E]. apply IH in R; [|cbn in L; lia]. destruct R as [pre ->].
           exists (a :: v :: plus :: pre). cbn [app]. congruence.
        -- exists [a; v]. cbn [app]. congruence.
    + exists [a]. cbn [app]. congruence.
Qed.
Lemma read_constraints_suffix : forall n ts cs r, read_constraints read n ts = Some (cs, r) -> exists pre, ts = (pre ++ r)%list.
Proof.
  induction n as [|n IH]; intros ts cs r E; [destruct ts; discriminate E|]. destruct ts as [|w ts1]; [discriminate E|]. cbn [read_constraints] in E.
  destruct (String.eqb w "bounds"); [exists [w]; cbn [app]; congruence|]. destruct (is_label w); [|discriminate E].
  destruct (read_terms read ts1) as [[[l k] rest]|] eqn:R; [|discriminate E]. apply read_terms_suffix with (n := length ts1) in R; [|lia]. destruct R as [pre ->].
  destruct rest as [|rel [|b ts2]]; [discriminate E|discriminate E|]. destruct (if String.eqb rel "=" then _ else _) as [rl|]; [|discriminate E]. destruct (read b) as [v|]; [|discriminate E].
  destruct (read_constraints read n ts2) as [[cs' rest']|] eqn:R2; [|discriminate E]. apply IH in R2 as [pre2 ->].
  exists (w :: pre ++ rel :: b :: pre2)%list. assert (rest' = r) by congruence. subst rest'. cbn [app]. rewrite <- app_assoc. reflexivity.
Qed.
Lemma read_bounds_end : forall n ts b, (length ts <= n)%nat -> read_bounds read ts = Some b -> exists pre, ts = (pre ++ ["end"])%list.
Proof.
  induction n as [|n IH]; intros ts b L E; [destruct ts; [discriminate E|cbn in L; lia]|].
  destruct ts as [|a [|le [|c ts]]]; [discriminate E| |discriminate E|].
  - cbn [read_bounds] in E. destruct (String.eqb_spec a "end") as [->|]; [|discriminate E]. exists []. reflexivity.
  - cbn [read_bounds] in E. destruct (String.eqb le "<="); [|discriminate E]. destruct (read_bounds read ts) as [b'|] eqn:R; [|discriminate E].
    apply IH in R; [|cbn in L; lia]. destruct R as [pre ->]. exists (a :: le :: c :: pre). reflexivity.
Qed.
Lemma last_word (l l' : list string) a b : (l ++ [a])%list = (l' ++ [b])%list -> a = b.
Proof. intros E. apply app_inj_tail in E. apply E. Qed.
Lemma read_lp_last s f : read_lp read s = Some f -> forall pre w, words (without_comments false s) = (pre ++ [w])%list -> w = "end".
Proof.
  unfold read_lp. generalize (words (without_comments false s)) as ts. intros ts R pre w ->.
  destruct (take "obj:" _) as [t1|] eqn:E1; [|discriminate R]. apply take2_suffix in E1.
  destruct (read_objective read t1) as [[[l k] t2]|] eqn:E2; [|discriminate R].
  assert (S2 : exists p2, t1 = (p2 ++ t2)%list).
  { unfold read_objective in E2. destruct t1 as [|a t1]; [discriminate E2|]. destruct (String.eqb a "subject"); [exists []; cbn [app]; congruence|]. eapply read_terms_suffix; [|exact E2]. apply le_n. }
  destruct (take "to" _) as [t3|] eqn:E3; [|discriminate R]. apply take2_suffix in E3.
  destruct (read_constraints read (length t3) t3) as [[cs t4]|] eqn:E4; [|discriminate R]. apply read_constraints_suffix in E4 as [p4 E4].
  destruct (read_bounds read t4) as [b|] eqn:E5; [|discriminate R]. apply read_bounds_end with (n := length t4) in E5; [|apply le_n]. destruct E5 as [p5 E5].
  destruct S2 as [p2 S2]. subst t4 t3 t2 t1. rewrite !app_comm_cons, !app_assoc in E1. apply last_word in E1. exact E1.
Qed.
Lemma read_lp_bounds filename p : all_chars (fun c => negb (Ascii.eqb c "010")) filename = true -> p_lower p <> [] \/ p_upper p <> [] ->
  read_lp read (all_texts show order filename p) = None.
Proof.
  intros FN N. destruct (bwords_end p N) as (pre & w & B & NE).
  assert (W : exists pre', words (without_comments false (all_texts show order filename p)) = (pre' ++ [w])%list).
  { rewrite (words_file show read order F) by assumption. rewrite B. eexists. repeat first [rewrite app_assoc | rewrite app_comm_cons]. reflexivity. }
  destruct W as [pre' W]. destruct (read_lp read (all_texts show order filename p)) as [f|] eqn:R; [exfalso|reflexivity].
  apply NE. symmetry. apply (read_lp_last _ _ R) in W. congruence.
Qed.
End Format.
