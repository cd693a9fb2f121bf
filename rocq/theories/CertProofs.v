(** Reading back the text of a certificate. *)
From Coq Require Import List Arith Bool Ascii String ZArith QArith Qcanon Lia.
From Verif Require Import QcArith ScenarioModel MargModel QcSum SearchModel SearchProofs ProgramModel ProgramSpec ProgramProofs ProgramProofs2 ProgramProofs3 CertModel CertSpec.
Import ListNotations.
Close Scope Q_scope. Close Scope Qc_scope. Open Scope string_scope. Open Scope nat_scope. Open Scope list_scope.

Lemma sapp_assoc (a b c : string) : ((a ++ b) ++ c = a ++ (b ++ c))%string. Proof. induction a; cbn; congruence. Qed.
Lemma sapp_nil (a : string) : (a ++ "" = a)%string. Proof. induction a; cbn; congruence. Qed.
Lemma has_no_app bad a b : has_no bad (a ++ b)%string = has_no bad a && has_no bad b.
Proof. induction a as [|ch a IH]; cbn; [reflexivity|]. rewrite IH. apply andb_assoc. Qed.
Lemma has_no_impl (bad bad' : ascii -> bool) s : (forall ch, bad' ch = true -> bad ch = true) -> has_no bad s = true -> has_no bad' s = true.
Proof.
  intros H. induction s as [|ch s IH]; cbn; [reflexivity|]. intros E. apply andb_prop in E as [E1 E2]. rewrite (IH E2). destruct (bad' ch) eqn:B; [|reflexivity]. apply H in B. rewrite B in E1. discriminate.
Qed.
Lemma signed_skip s : forall minus acc t, has_no sign s = true -> signed_texts minus acc (s ++ t)%string = signed_texts minus (acc ++ s)%string t.
Proof.
  induction s as [|ch s IH]; intros minus acc t H; cbn [append]; [rewrite sapp_nil; reflexivity|]. cbn [has_no] in H. apply andb_prop in H as [H1 H2]. unfold sign in H1.
  apply negb_true_iff, orb_false_iff in H1 as [H1 H1']. cbn [signed_texts]. rewrite H1, H1', IH by exact H2. rewrite sapp_assoc. reflexivity.
Qed.
Lemma at_star_skip s t : has_no (fun ch => Ascii.eqb ch "*") s = true -> at_star (s ++ String "*" t)%string = (s, Some t).
Proof.
  induction s as [|ch s IH]; cbn [append has_no]; intros H; [reflexivity|]. apply andb_prop in H as [H1 H2]. apply negb_true_iff in H1. cbn [at_star]. rewrite H1, (IH H2). reflexivity.
Qed.
Lemma at_star_none s : has_no (fun ch => Ascii.eqb ch "*") s = true -> at_star s = (s, None).
Proof.
  induction s as [|ch s IH]; cbn [has_no]; intros H; [reflexivity|]. apply andb_prop in H as [H1 H2]. apply negb_true_iff in H1. cbn [at_star]. rewrite H1, (IH H2). reflexivity.
Qed.
Lemma digit_app s t : starts_with_digit s = true -> starts_with_digit (s ++ t)%string = true. Proof. destruct s; [discriminate|]. auto. Qed.

Lemma qabs_zero v : isclose0 (qabs v) = isclose0 v.
Proof.
  unfold isclose0, isclose. f_equal. replace (qabs v - 0)%Qc with (qabs v) by ring. replace (v - 0)%Qc with v by ring.
  destruct (qabs_case (qabs v)) as [(A & ->)|(A & B)]; [reflexivity|]. pose proof (qabs_nonneg v). exfalso. qclra.
Qed.

Section Read.
Variables (name : moment -> string) (show : Qc -> string) (read : string -> option Qc) (SN : sum_numbers show read) (c : context).
Definition clear (v : Qc) : Prop := (isclose0 v = true -> v = 0%Qc) /\ (isclose (qabs v) 1 = true -> qabs v = 1%Qc).
Definition kept (p : moment * Qc) : bool := negb (moment_is_zero c (fst p)) && negb (isclose0 (snd p)).
Definition body (p : moment * Qc) : string :=
  if isclose (qabs (snd p)) 1 then name (fst p) else (show (qabs (snd p)) ++ "*" ++ name (fst p))%string.
Definition piece (p : moment * Qc) : bool * string := (qltb (snd p) 0, body p).
Lemma term_kept p : kept p = true -> term_text name show c p = String (if qltb (snd p) 0 then "-"%char else "+"%char) (body p).
Proof.
  intros K. unfold kept in K. apply andb_prop in K as [K1 K2]. apply negb_true_iff in K1, K2. unfold term_text. rewrite qabs_zero, K1, K2. cbn [orb]. unfold body, qleb. destruct (qltb (snd p) 0); cbn [negb append]; reflexivity.
Qed.
Lemma term_dropped p : kept p = false -> term_text name show c p = "".
Proof.
  intros K. unfold term_text. rewrite qabs_zero. unfold kept in K. destruct (moment_is_zero c (fst p)); [reflexivity|]. destruct (isclose0 (snd p)); [reflexivity|discriminate].
Qed.
Lemma body_ok p : readable_name (name (fst p)) -> has_no sign (body p) = true /\ body p <> "" /\ starts_with_digit (name (fst p)) = false.
Proof.
  intros (NE & ND & NS). unfold body. split; [|split; [|exact ND]].
  - destruct (isclose _ _); [exact NS|]. rewrite !has_no_app, NS. cbn [has_no]. rewrite (has_no_impl _ sign _ (fun ch H => orb_true_intro _ _ (or_introl H)) (sn_chars _ _ SN _ (qabs_nonneg (snd p)))). reflexivity.
  - destruct (isclose _ _); [exact NE|]. pose proof (sn_digit _ _ SN _ (qabs_nonneg (snd p))) as D. destruct (show (qabs (snd p))); discriminate.
Qed.
Fixpoint cat_terms (l : list (moment * Qc)) : string := match l with [] => "" | p :: l' => (term_text name show c p ++ cat_terms l')%string end.
Lemma fold_terms l : forall acc, fold_left (fun s p => s ++ term_text name show c p)%string l acc = (acc ++ cat_terms l)%string.
Proof. induction l as [|p l IH]; intros acc; cbn [fold_left cat_terms]; [rewrite sapp_nil; reflexivity|]. rewrite IH, sapp_assoc. reflexivity. Qed.
Lemma signed_cat l : (forall p, In p l -> kept p = true -> readable_name (name (fst p))) -> forall minus acc,
  signed_texts minus acc (cat_terms l) = (minus, acc) :: map piece (filter kept l).
Proof.
  induction l as [|p l IH]; intros H minus acc; [reflexivity|]. cbn [cat_terms filter]. assert (IH' := IH (fun q Hq => H q (or_intror Hq))). destruct (kept p) eqn:K.
  - rewrite (term_kept p K). destruct (body_ok p (H p (or_introl eq_refl) K)) as (NS & _). cbn [append signed_texts map]. unfold piece at 1. destruct (qltb (snd p) 0); cbn [Ascii.eqb Bool.eqb]; f_equal; rewrite (signed_skip (body p) _ _ _ NS); apply IH'.
  - rewrite (term_dropped p K). cbn [append]. apply IH'.
Qed.
Lemma pieces_full l : (forall p, In p l -> kept p = true -> readable_name (name (fst p))) -> filter (fun t => negb (String.eqb (snd t) "")) (map piece (filter kept l)) = map piece (filter kept l).
Proof.
  induction l as [|p l IH]; intros H; [reflexivity|]. cbn [filter]. assert (IH' := IH (fun q Hq => H q (or_intror Hq))). destruct (kept p) eqn:K; [|exact IH']. cbn [map filter].
  destruct (body_ok p (H p (or_introl eq_refl) K)) as (_ & NE & _). cbn [piece snd]. destruct (String.eqb_spec (body p) ""); [contradiction|]. cbn [negb]. f_equal. exact IH'.
Qed.
Definition meaning (p : moment * Qc) : option string * Qc := (Some (name (fst p)), snd p).
Lemma piece_read p : readable_name (name (fst p)) -> clear (snd p) -> read_term read (piece p) = Some (meaning p).
Proof.
  intros RN (_ & CL). unfold read_term, piece, meaning. cbn [fst snd]. destruct (body_ok p RN) as (_ & _ & ND). unfold body. destruct (isclose (qabs (snd p)) 1) eqn:E.
  - rewrite ND. specialize (CL eq_refl). destruct (qltb (snd p) 0) eqn:Q; do 2 f_equal; [apply qltb_true in Q|apply qltb_false in Q]; destruct (qabs_case (snd p)) as [(A & B)|(A & B)]; rewrite B in CL; try (exfalso; qclra); [rewrite <- CL; ring|congruence].
  - pose proof (qabs_nonneg (snd p)) as PN. rewrite (digit_app _ _ (sn_digit _ _ SN _ PN)). cbn [append]. assert (NS : has_no (fun ch => Ascii.eqb ch "*") (show (qabs (snd p))) = true) by (eapply has_no_impl; [|apply (sn_chars _ _ SN _ PN)]; intros ch Hc; cbv beta in *; rewrite Hc; apply orb_true_r).
    rewrite (at_star_skip _ _ NS). cbn [fst snd]. rewrite (sn_read _ _ SN _ PN). destruct (qltb (snd p) 0) eqn:Q; do 2 f_equal; [apply qltb_true in Q|apply qltb_false in Q]; destruct (qabs_case (snd p)) as [(A & B)|(A & B)]; rewrite B; try (exfalso; qclra); ring.
Qed.
Notation collect := (fold_right (fun t acc => match read_term read t, acc with Some q, Some l => Some (q :: l) | _, _ => None end) (Some [])).
Lemma pieces_read l : (forall p, In p l -> kept p = true -> readable_name (name (fst p)) /\ clear (snd p)) -> collect (map piece (filter kept l)) = Some (map meaning (filter kept l)).
Proof.
  induction l as [|p l IH]; intros H; [reflexivity|]. cbn [filter]. assert (IH' := IH (fun q Hq => H q (or_intror Hq))). destruct (kept p) eqn:K; [|exact IH']. cbn [map fold_right].
  destruct (H p (or_introl eq_refl) K) as [RN CL]. rewrite (piece_read p RN CL), IH'. reflexivity.
Qed.
Definition constant_meaning (v : Qc) : list (option string * Qc) := if Qc_eq_dec v 0 then [] else [(None, v)].
Lemma number_read v : (0 <= v)%Qc -> forall b, read_term read (b, show v) = Some (None, if b then (- v)%Qc else v).
Proof.
  intros V b. unfold read_term. cbn [fst snd]. rewrite (sn_digit _ _ SN v V). assert (NS : has_no (fun ch => Ascii.eqb ch "*") (show v) = true) by (eapply has_no_impl; [|apply (sn_chars _ _ SN v V)]; intros ch Hc; cbv beta in *; rewrite Hc; apply orb_true_r).
  rewrite (at_star_none _ NS). cbn [fst snd]. rewrite (sn_read _ _ SN v V). reflexivity.
Qed.
Lemma number_text v : (0 <= v)%Qc -> has_no sign (show v) = true /\ show v <> "" /\ starts_with_plus (show v) = false /\ forall t, starts_with_plus (show v ++ t)%string = false.
Proof.
  intros V. split; [eapply has_no_impl; [|apply (sn_chars _ _ SN v V)]; intros ch Hc; cbv beta; rewrite Hc; reflexivity|]. pose proof (sn_digit _ _ SN v V) as D. pose proof (sn_chars _ _ SN v V) as NC. destruct (show v) as [|ch s]; [discriminate|]. split; [discriminate|].
  cbn [has_no] in NC. apply andb_prop in NC as [NC _]. apply negb_true_iff, orb_false_iff in NC as [NC _]. apply orb_false_iff in NC as [NC _]. cbn. auto.
Qed.
(** the text before and after the removal of a leading plus reads the same *)
Lemma strip_read text : read_sum read (if starts_with_plus text then tail text else text) = read_sum read text.
Proof.
  destruct text as [|ch s]; [reflexivity|]. cbn [starts_with_plus tail]. destruct (Ascii.eqb ch "+") eqn:E; [|reflexivity]. unfold read_sum. cbn [signed_texts]. rewrite E. cbn [filter snd String.eqb negb]. reflexivity.
Qed.
Lemma text_read v l : (forall p, In p l -> kept p = true -> readable_name (name (fst p)) /\ clear (snd p)) ->
  read_sum read ((if Qc_eq_dec v 0 then "" else str_of show v) ++ cat_terms l)%string = Some (constant_meaning v ++ map meaning (filter kept l)).
Proof.
  intros H. assert (H1 : forall p, In p l -> kept p = true -> readable_name (name (fst p))) by (intros p Hp K; apply (H p Hp K)). unfold read_sum, constant_meaning. destruct (Qc_eq_dec v 0) as [E|E].
  - cbn [append]. rewrite (signed_cat l H1). cbn [filter snd String.eqb negb app]. rewrite (pieces_full l H1). apply (pieces_read l H).
  - unfold str_of. destruct (qltb v 0) eqn:Q.
    + apply qltb_true in Q. assert (P : (0 <= - v)%Qc) by qclra. destruct (number_text _ P) as (NS & NE & _). cbn [append signed_texts Ascii.eqb Bool.eqb]. rewrite (signed_skip _ _ _ _ NS), (signed_cat l H1). cbn [append filter snd String.eqb negb].
      destruct (String.eqb_spec (show (- v)%Qc) ""); [contradiction|]. cbn [negb fold_right]. rewrite (number_read _ P true), (pieces_full l H1), (pieces_read l H). cbn [app]. do 3 f_equal. ring.
    + apply qltb_false in Q. destruct (number_text _ Q) as (NS & NE & _). rewrite (signed_skip _ _ _ _ NS), (signed_cat l H1). cbn [append filter snd].
      destruct (String.eqb_spec (show v) ""); [contradiction|]. cbn [negb fold_right]. rewrite (number_read _ Q false), (pieces_full l H1), (pieces_read l H). reflexivity.
Qed.
Lemma string_reads t dict s : string_from_dict name show t c dict = Some s ->
  let d := sanitise_dict (fun m => m) dict in
  (forall m v, In (m, v) d -> moment_is_zero c m = false -> m <> One -> readable_name (name m) /\ clear v) ->
  exists l, read_sum read s = Some l /\ forall x, sum_value x l = expr_at (fun m => if meq m One then 1%Qc else if moment_is_zero c m then 0%Qc else x (name m)) d.
Proof.
  intros E d H. unfold string_from_dict in E. cbv zeta in E. fold d in E. rewrite fold_terms in E. set (v := match get meq One d with Some v => v | None => 0%Qc end) in *.
  assert (H' : forall p, In p (del meq One d) -> kept p = true -> readable_name (name (fst p)) /\ clear (snd p)).
  { intros (m & w) Hp K. unfold del in Hp. apply filter_In in Hp as [Hp NO]. cbn [fst snd] in *. destruct (meq One m) as [|NO']; [discriminate|]. unfold kept in K. apply andb_prop in K as [K _]. apply negb_true_iff in K. apply (H m w Hp K). congruence. }
  pose proof (text_read v (del meq One d) H') as RD. set (text := ((if Qc_eq_dec v 0 then "" else str_of show v) ++ cat_terms (del meq One d))%string) in *.
  assert (NDd : NoDup (keys d)) by apply sanitise_nodup.
  assert (V : forall x, sum_value x (constant_meaning v ++ map meaning (filter kept (del meq One d))) = expr_at (fun m => if meq m One then 1%Qc else if moment_is_zero c m then 0%Qc else x (name m)) d).
  { intros x. set (f := fun m : moment => if meq m One then 1%Qc else if moment_is_zero c m then 0%Qc else x (name m)).
    assert (S1 : sum_value x (map meaning (filter kept (del meq One d))) = expr_at f (del meq One d)).
    { assert (AL : forall p, In p (del meq One d) -> fst p <> One /\ (moment_is_zero c (fst p) = false -> isclose0 (snd p) = true -> snd p = 0%Qc)).
      { intros (m & w) Hp. unfold del in Hp. apply filter_In in Hp as [Hp NO]. cbn [fst snd] in *. destruct (meq One m) as [|NO']; [discriminate|]. split; [congruence|]. intros MZ. apply (H m w Hp MZ). congruence. }
      revert AL. generalize (del meq One d). intros l AL. induction l as [|(m & w) l IH]; [reflexivity|]. cbn [filter]. rewrite expr_cons. destruct (AL (m, w) (or_introl eq_refl)) as [NO NC]. cbn [fst snd] in NO, NC.
      specialize (IH (fun p Hp => AL p (or_intror Hp))). unfold kept at 1. cbn [fst snd]. unfold f at 1. destruct (meq m One); [contradiction|]. destruct (moment_is_zero c m); cbn [negb andb].
      - rewrite IH. ring.
      - destruct (isclose0 w); cbn [negb].
        + rewrite IH, (NC eq_refl eq_refl). ring.
        + cbn [map]. unfold sum_value in *. cbn [map meaning fst snd]. rewrite sumQ_cons, IH. ring. }
    unfold sum_value. rewrite map_app, sumQ_app. fold (sum_value x (map meaning (filter kept (del meq One d)))). rewrite S1. unfold constant_meaning.
    assert (F1 : f One = 1%Qc) by reflexivity. unfold v. destruct (get meq One d) as [u|] eqn:Gu.
    - rewrite (expr_del f One u d NDd Gu), F1. destruct (Qc_eq_dec u 0) as [->|]; cbn [map fst snd]; rewrite ?sumQ_cons, ?sumQ_nil; ring.
    - rewrite (expr_del_absent f One d) by (intros Hi; apply (proj1 (get_none meq One d) Gu Hi)). destruct (Qc_eq_dec 0 0); [|congruence]. cbn [map]. rewrite sumQ_nil. ring. }
  destruct text as [|ch tx] eqn:ET.
  - destruct t; [discriminate|]. injection E as <-. exists [(None, 0%Qc)]. split.
    + unfold read_sum. cbn [signed_texts Ascii.eqb Bool.eqb append filter snd String.eqb negb fold_right]. unfold read_term. cbn [fst snd starts_with_digit is_digit at_star Ascii.eqb Bool.eqb]. change (is_digit "0") with true. cbv iota. rewrite (sn_zero _ _ SN). reflexivity.
    + intros x. rewrite <- V. assert (N : constant_meaning v ++ map meaning (filter kept (del meq One d)) = []).
      { unfold read_sum in RD. cbn in RD. congruence. }
      rewrite N. reflexivity.
  - injection E as <-. rewrite <- ET in *. exists (constant_meaning v ++ map meaning (filter kept (del meq One d))). split; [|exact V].
    rewrite <- RD. rewrite ET. exact (strip_read (String ch tx)).
Qed.
End Read.
