(** The text of an LP file: its words. *)
From Coq Require Import List Arith Bool Ascii String Decimal DecimalString DecimalNat QArith Qcanon Permutation Lia.
From Verif Require Import MargModel QcSum SearchModel ProgramModel SDPSolveModel SDPSolveSpec SdpaModel LPWriteModel LPWriteSpec.
Import ListNotations.
Open Scope nat_scope.
Open Scope string_scope.

(** ** Strings *)
Lemma append_assoc (a b c : string) : (a ++ b) ++ c = a ++ (b ++ c).
Proof. induction a as [|x a IH]; [reflexivity|]. cbn [append]. rewrite IH. reflexivity. Qed.
Lemma append_nil (a : string) : a ++ "" = a.
Proof. induction a as [|x a IH]; [reflexivity|]. cbn [append]. rewrite IH. reflexivity. Qed.
Lemma length_append (a b : string) : String.length (a ++ b) = (String.length a + String.length b)%nat.
Proof. induction a as [|x a IH]; [reflexivity|]. cbn [append String.length]. rewrite IH. reflexivity. Qed.
Lemma substring_append (a b : string) : substring 0 (String.length a) (a ++ b) = a.
Proof. induction a as [|x a IH]; [destruct b; reflexivity|]. cbn [append String.length substring]. rewrite IH. reflexivity. Qed.
Lemma drop3_spec (a : string) : drop3 (a ++ " + ") = a.
Proof. unfold drop3. rewrite length_append. replace (String.length a + String.length " + " - 3) with (String.length a) by (cbn; lia). apply substring_append. Qed.

Fixpoint all_chars (p : ascii -> bool) (s : string) : bool := match s with "" => true | String c s' => p c && all_chars p s' end.
Lemma all_chars_app p a b : all_chars p (a ++ b) = all_chars p a && all_chars p b.
Proof. induction a as [|x a IH]; [reflexivity|]. cbn [append all_chars]. rewrite IH. apply andb_assoc. Qed.
Lemma all_chars_impl p q s : (forall c, p c = true -> q c = true) -> all_chars p s = true -> all_chars q s = true.
Proof.
  intros H. induction s as [|c s IH]; [reflexivity|]. cbn [all_chars]. intros E. apply andb_true_iff in E as [E1 E2].
  rewrite (H c E1), (IH E2). reflexivity.
Qed.
(** characters of which numbers and names are made *)
Definition solid (c : ascii) : bool := negb (blank c) && negb (Ascii.eqb c "\").
Definition word (s : string) : Prop := s <> "" /\ all_chars solid s = true.

Lemma words_from_blank acc s c t : blank c = true -> words_from acc (s ++ String c t) = (words_from acc s ++ words_from "" t)%list.
Proof.
  intros B. revert acc. induction s as [|x s IH]; intros acc.
  - cbn [append words_from]. rewrite B. destruct (String.eqb acc ""); reflexivity.
  - cbn [append words_from]. destruct (blank x); [destruct (String.eqb acc "")|]; rewrite ?IH; reflexivity.
Qed.
Lemma words_blank s c t : blank c = true -> words (s ++ String c t) = (words s ++ words t)%list.
Proof. apply words_from_blank. Qed.
Lemma words_from_solid s : forall acc, all_chars solid s = true -> words_from acc s = if String.eqb (acc ++ s) "" then [] else [acc ++ s].
Proof.
  induction s as [|c s IH]; intros acc W; [rewrite append_nil; reflexivity|].
  cbn [words_from]. cbn [all_chars] in W. apply andb_true_iff in W as [C W]. unfold solid in C. apply andb_true_iff in C as [C _]. apply negb_true_iff in C. rewrite C.
  rewrite IH by assumption. rewrite append_assoc. cbn [append]. reflexivity.
Qed.
Lemma words_word s : word s -> words s = [s].
Proof.
  intros [N W]. unfold words. rewrite words_from_solid by assumption. cbn [append]. destruct (String.eqb s "") eqn:E; [|reflexivity].
  apply String.eqb_eq in E. contradiction.
Qed.
Lemma words_nil : words "" = []. Proof. reflexivity. Qed.
Lemma words_sp t : words (String " " t) = words t. Proof. apply (words_blank "" " "). reflexivity. Qed.
Lemma words_nl s : words (s ++ nl) = words s.
Proof. unfold nl. rewrite words_blank by reflexivity. rewrite words_nil. apply app_nil_r. Qed.
Lemma words_nl_app s t : words ((s ++ nl) ++ t) = (words s ++ words t)%list.
Proof. rewrite append_assoc. unfold nl. cbn [append]. apply words_blank. reflexivity. Qed.

Lemma no_comment_app s t : all_chars (fun c => negb (Ascii.eqb c "\")) s = true -> without_comments false (s ++ t) = s ++ without_comments false t.
Proof.
  induction s as [|c s IH]; [reflexivity|]. cbn [all_chars append without_comments]. intros E. apply andb_true_iff in E as [E1 E2]. apply negb_true_iff in E1. rewrite E1, IH by assumption. reflexivity.
Qed.
Lemma no_comment s : all_chars (fun c => negb (Ascii.eqb c "\")) s = true -> without_comments false s = s.
Proof. intros E. rewrite <- (append_nil s) at 1. rewrite no_comment_app by assumption. apply append_nil. Qed.
Lemma comment_line s t : all_chars (fun c => negb (Ascii.eqb c "010")) s = true -> without_comments true (s ++ nl ++ t) = nl ++ without_comments false t.
Proof.
  induction s as [|c s IH]; [reflexivity|]. cbn [all_chars append without_comments]. intros E. apply andb_true_iff in E as [E1 E2]. apply negb_true_iff in E1. rewrite E1. apply IH. assumption.
Qed.
Lemma cat_cons a l : cat (a :: l) = a ++ cat l. Proof. reflexivity. Qed.
Lemma cat_app l m : cat (l ++ m)%list = cat l ++ cat m.
Proof. induction l as [|a l IH]; [reflexivity|]. cbn [app]. rewrite !cat_cons, IH, append_assoc. reflexivity. Qed.

(** ** Numerals and names *)
Definition digit (c : ascii) : bool := let k := nat_of_ascii c in (48 <=? k)%nat && (k <=? 57)%nat.
Lemma digits_uint u : all_chars digit (NilEmpty.string_of_uint u) = true.
Proof. induction u; cbn [NilEmpty.string_of_uint all_chars]; rewrite ?IHu; reflexivity. Qed.
Lemma digit_solid c : digit c = true -> solid c = true.
Proof. destruct c as [[] [] [] [] [] [] [] []]; vm_compute; intros H; try reflexivity; discriminate H. Qed.
Lemma dec_solid i : all_chars solid (dec i) = true.
Proof. apply all_chars_impl with digit; [apply digit_solid|apply digits_uint]. Qed.
Lemma dec_inj i j : dec i = dec j -> i = j.
Proof.
  unfold dec. intros E. apply (f_equal NilEmpty.uint_of_string) in E. rewrite !NilEmpty.usu in E. injection E as E. apply DecimalNat.Unsigned.to_uint_inj. exact E.
Qed.
Lemma xname_word i : word (xname i).
Proof. unfold xname. split; [discriminate|]. cbn [append all_chars]. rewrite dec_solid. reflexivity. Qed.
Lemma xname_inj i j : xname i = xname j -> i = j.
Proof. unfold xname. cbn [append]. intros E. injection E as E. apply dec_inj. exact E. Qed.
Lemma xname_is_name i : is_name (xname i) = true.
Proof. reflexivity. Qed.
Lemma is_label_colon s : is_label (s ++ ":") = true.
Proof. induction s as [|c s IH]; [reflexivity|]. cbn [append is_label]. destruct (s ++ ":") eqn:E; [destruct s; discriminate E|]. exact IH. Qed.
Lemma label_word i : word ("c" ++ dec i ++ ":").
Proof. split; [discriminate|]. cbn [append all_chars]. rewrite all_chars_app, dec_solid. reflexivity. Qed.

(** ** What is assumed of the printing of numbers *)
Section Format.
Variables (show : Qc -> string) (read : string -> option Qc) (order : list nat -> list nat).
Hypothesis F : number_format show read.
Hypothesis O : forall l, Permutation (order l) l.

Lemma show_word q : word (show q).
Proof. destruct F as (_ & W & _). specialize (W q) as [N W]. split; [exact N|]. revert W. generalize (show q) as s. clear. intros s. induction s as [|c s IH]; [reflexivity|].
  intros W. cbn [all_chars]. rewrite IH; [|intros x H; apply W; right; exact H]. specialize (W c (or_introl eq_refl)) as (W1 & W2 & W3).
  unfold solid, blank. destruct (Ascii.eqb_spec c " "); [contradiction|]. destruct (Ascii.eqb_spec c "010"); [contradiction|]. destruct (Ascii.eqb_spec c "\"); [contradiction|]. reflexivity. Qed.
Lemma read_show q : read (show q) = Some q. Proof. apply F. Qed.
Lemma show_not_name q : is_name (show q) = false.
Proof. destruct F as (_ & _ & L). specialize (L q). destruct (show q) as [|c s]; [reflexivity|]. cbn [is_name]. rewrite (L c s eq_refl). reflexivity. Qed.
Lemma show_not_subject q : show q <> "subject".
Proof. destruct F as (_ & _ & L). specialize (L q). intros E. rewrite E in L. specialize (L _ _ eq_refl). discriminate L. Qed.

(** ** Terms *)
Section Terms.
Variable d : idict Qc.
Definition term_text (x : nat) : string := show (igetd x d) ++ " " ++ xname x ++ " + ".
Lemma fold_cat {A} (f : A -> string) l : forall acc, fold_left (fun cons x => cons ++ f x) l acc = acc ++ cat (map f l).
Proof. induction l as [|x l IH]; intros acc; [symmetry; apply append_nil|]. cbn [fold_left map]. rewrite IH, cat_cons, append_assoc. reflexivity. Qed.
Lemma terms_text_cat known : terms_text show order known d = cat (map term_text (order (unknown_part known d))).
Proof. unfold terms_text. apply (fold_cat term_text). Qed.
Fixpoint joined (l : list nat) : string :=
  match l with
  | [] => ""
  | x :: l' => match l' with [] => show (igetd x d) ++ " " ++ xname x | _ => term_text x ++ joined l' end
  end.
Lemma cat_joined l : l <> [] -> cat (map term_text l) = joined l ++ " + ".
Proof.
  induction l as [|x l IH]; intros N; [contradiction|]. destruct l as [|y l].
  - cbn [map joined]. rewrite cat_cons. unfold term_text, cat. cbn [fold_right]. rewrite append_nil, !append_assoc. cbn [append]. rewrite ?append_assoc. reflexivity.
  - cbn [map]. rewrite cat_cons. change (term_text y :: map term_text l) with (map term_text (y :: l)). rewrite IH by discriminate.
    change (joined (x :: y :: l)) with (term_text x ++ joined (y :: l)). rewrite append_assoc. reflexivity.
Qed.
Fixpoint term_words (l : list nat) : list string :=
  match l with
  | [] => []
  | x :: l' => match l' with [] => [show (igetd x d); xname x] | _ => show (igetd x d) :: xname x :: "+" :: term_words l' end
  end.
Lemma words_term x t : words (term_text x ++ t) = show (igetd x d) :: xname x :: "+" :: words t.
Proof.
  unfold term_text. rewrite !append_assoc. change (" " ++ xname x ++ " + " ++ t) with (String " " (xname x ++ String " " (String "+" (String " " t)))).
  rewrite words_blank by reflexivity. rewrite (words_word (show _)) by apply show_word. rewrite words_blank by reflexivity. rewrite words_word by apply xname_word.
  change (String "+" (String " " t)) with ("+" ++ String " " t). rewrite words_blank by reflexivity. reflexivity.
Qed.
Lemma words_joined l : words (joined l) = term_words l.
Proof.
  induction l as [|x l IH]; [reflexivity|]. destruct l as [|y l].
  - cbn [joined term_words]. change (" " ++ xname x) with (String " " (xname x)). rewrite words_blank by reflexivity. rewrite (words_word (show _)) by apply show_word. rewrite words_word by apply xname_word. reflexivity.
  - change (joined (x :: y :: l)) with (term_text x ++ joined (y :: l)). rewrite words_term, IH. reflexivity.
Qed.
Lemma words_cat_terms l t : words (cat (map term_text l) ++ t) = (flat_map (fun x => [show (igetd x d); xname x; "+"]) l ++ words t)%list.
Proof. induction l as [|x l IH]; [reflexivity|]. cbn [map]. rewrite cat_cons, append_assoc, words_term, IH. reflexivity. Qed.
Lemma cat_terms_nil l : String.eqb (cat (map term_text l)) "" = match l with [] => true | _ => false end.
Proof.
  destruct l as [|x l]; [reflexivity|]. cbn [map]. rewrite cat_cons. unfold term_text. destruct (show_word (igetd x d)) as [N _]. destruct (show (igetd x d)); [contradiction|]. reflexivity.
Qed.
Definition terms_of (l : list nat) : list (Qc * string) := map (fun x => (igetd x d, xname x)) l.
Lemma read_terms_obj l k rest : (match rest with v :: _ => is_name v = false | [] => True end) ->
  read_terms read (flat_map (fun x => [show (igetd x d); xname x; "+"]) l ++ show k :: rest)%list = Some (terms_of l, k, rest).
Proof.
  intros R. induction l as [|x l IH].
  - cbn [flat_map app read_terms]. rewrite read_show. destruct rest as [|v rest]; [reflexivity|]. rewrite R. reflexivity.
  - cbn [flat_map app]. cbn [read_terms]. rewrite read_show, xname_is_name. change (String.eqb "+" "+") with true. cbn match. rewrite IH. reflexivity.
Qed.
Lemma read_terms_con l rel rest : l <> [] -> rel <> "+" -> read_terms read (term_words l ++ rel :: rest)%list = Some (terms_of l, 0%Qc, (rel :: rest)%list).
Proof.
  intros N R. induction l as [|x l IH]; [contradiction|]. destruct l as [|y l].
  - cbn [term_words app read_terms]. rewrite read_show, xname_is_name. destruct (String.eqb_spec rel "+"); [contradiction|]. reflexivity.
  - change (term_words (x :: y :: l)) with (show (igetd x d) :: xname x :: "+" :: term_words (y :: l)).
    set (m := y :: l) in *. cbn [app]. cbn [read_terms]. rewrite read_show, xname_is_name. change (String.eqb "+" "+") with true. cbn match.
    rewrite IH by discriminate. reflexivity.
Qed.
End Terms.

(** ** The pieces of the file *)
Definition relation_of (t : ctype) : relation := match t with Ineq => Ge_rel | _ => Eq_rel end.
Definition sign_of (t : ctype) : string := match t with Ineq => ">=" | _ => "=" end.
Definition unknowns (known d : idict Qc) : list nat := order (unknown_part known d).
Definition written (known : idict Qc) (d : idict Qc) : bool := match unknowns known d with [] => false | _ => true end.
Definition constraint_of (known : idict Qc) (t : ctype) (d : idict Qc) : list (Qc * string) * relation * Qc :=
  (terms_of d (unknowns known d), relation_of t, (- known_sum order known d)%Qc).
Definition constraints_of (known : idict Qc) (t : ctype) (l : list (idict Qc)) := map (constraint_of known t) (filter (written known) l).

Lemma format_nil known d t : String.eqb (format_constraint_lp show order known d t) "" = negb (written known d).
Proof.
  unfold format_constraint_lp, written. rewrite terms_text_cat, cat_terms_nil. fold (unknowns known d). destruct (unknowns known d) as [|x l] eqn:E; [reflexivity|].
  destruct t.
  - destruct (String.eqb_spec (cat (map (term_text d) (x :: l)) ++ show (known_sum order known d)) "") as [A|A]; [|reflexivity]. exfalso.
    pose proof (cat_terms_nil d (x :: l)) as B. destruct (cat (map (term_text d) (x :: l))); [discriminate B|discriminate A].
  - destruct (String.eqb_spec (drop3 (cat (map (term_text d) (x :: l))) ++ " = " ++ show (- known_sum order known d)%Qc) "") as [A|A]; [|reflexivity]. exfalso.
    apply (f_equal String.length) in A. rewrite !length_append in A. cbn in A. lia.
  - destruct (String.eqb_spec (drop3 (cat (map (term_text d) (x :: l))) ++ " >= " ++ show (- known_sum order known d)%Qc) "") as [A|A]; [|reflexivity]. exfalso.
    apply (f_equal String.length) in A. rewrite !length_append in A. cbn in A. lia.
Qed.
Lemma words_constraint known d t : t <> Obj -> written known d = true ->
  words (format_constraint_lp show order known d t) = (term_words d (unknowns known d) ++ [sign_of t; show (- known_sum order known d)%Qc])%list.
Proof.
  intros T W. unfold format_constraint_lp. rewrite terms_text_cat, cat_terms_nil. fold (unknowns known d). unfold written in W. destruct (unknowns known d) as [|x l] eqn:E; [discriminate W|].
  rewrite cat_joined by discriminate. rewrite drop3_spec. destruct t; [contradiction| |];
    cbn [append]; rewrite words_blank by reflexivity; rewrite words_joined; f_equal;
    match goal with |- words (String "=" ?r) = _ => change (String "=" r) with ("=" ++ r) | |- words (String ">" (String "=" ?r)) = _ => change (String ">" (String "=" r)) with (">=" ++ r) end;
    rewrite words_blank by reflexivity; rewrite (words_word (show _)) by apply show_word; reflexivity.
Qed.
Lemma words_objective known d :
  words (format_constraint_lp show order known d Obj) =
  match unknowns known d with [] => [] | l => (flat_map (fun x => [show (igetd x d); xname x; "+"]) l ++ [show (known_sum order known d)])%list end.
Proof.
  unfold format_constraint_lp. rewrite terms_text_cat, cat_terms_nil. fold (unknowns known d). destruct (unknowns known d) as [|x l] eqn:E; [reflexivity|].
  rewrite words_cat_terms, (words_word (show _)) by apply show_word. reflexivity.
Qed.
Definition cwords (known : idict Qc) (t : ctype) (i : nat) (d : idict Qc) : list string :=
  (("c" ++ dec i ++ ":")%string :: term_words d (unknowns known d) ++ [sign_of t; show (- known_sum order known d)%Qc])%list.
Fixpoint cwords_all (known : idict Qc) (t : ctype) (i : nat) (l : list (idict Qc)) : list string :=
  match l with [] => [] | d :: l' => (cwords known t i d ++ cwords_all known t (S i) l')%list end.
Lemma words_constraints known t l s : t <> Obj -> forall i,
  words (cat (fst (constraint_texts show order known t i l)) ++ s) = (cwords_all known t i (filter (written known) l) ++ words s)%list.
Proof.
  intros T. induction l as [|d l IH]; intros i; [reflexivity|]. cbn [constraint_texts filter]. cbv zeta. rewrite format_nil. destruct (written known d) eqn:W; cbn [negb]; [|apply IH].
  specialize (IH (S i)). destruct (constraint_texts show order known t (S i) l) as [r j] eqn:E. cbn [fst] in *. rewrite cat_cons. cbn [cwords_all].
  replace ((("c" ++ dec i ++ ": " ++ format_constraint_lp show order known d t ++ nl) ++ cat r) ++ s)
    with ((("c" ++ dec i ++ ":") ++ String " " (format_constraint_lp show order known d t)) ++ String "010" (cat r ++ s)).
  2: { unfold nl. repeat (progress (rewrite ?append_assoc; cbn [append])). reflexivity. }
  rewrite words_blank by reflexivity. rewrite words_blank by reflexivity. rewrite (words_word ("c" ++ dec i ++ ":")) by apply label_word.
  rewrite words_constraint by assumption. rewrite IH. unfold cwords. cbn [app]. rewrite <- !app_assoc. reflexivity.
Qed.
Lemma read_constraint_list known t l rest cs : t <> Obj -> (forall d, In d l -> written known d = true) -> forall i fuel tail,
  (length (cwords_all known t i l) + fuel >= fuel)%nat ->
  (forall fuel', (fuel <= fuel')%nat -> read_constraints read fuel' tail = Some (cs, rest)) ->
  forall fuel', (length (cwords_all known t i l) + fuel <= fuel')%nat ->
  read_constraints read fuel' (cwords_all known t i l ++ tail)%list = Some ((map (constraint_of known t) l ++ cs)%list, rest).
Proof.
  intros T. induction l as [|d l IH]; intros W i fuel tail _ R fuel' L.
  - cbn [cwords_all app map]. apply R. cbn in L. lia.
  - cbn [cwords_all] in *. rewrite app_length in L. unfold cwords in *. cbn [length app] in L. rewrite app_length in L. cbn [length] in L.
    destruct fuel' as [|fuel']; [lia|]. cbn [app]. cbn [read_constraints].
    destruct (String.eqb_spec ("c" ++ dec i ++ ":") "bounds") as [A|_]; [discriminate A|].
    replace (is_label ("c" ++ dec i ++ ":")) with true by (symmetry; apply (is_label_colon ("c" ++ dec i))).
    rewrite <- !app_assoc. cbn [app].
    assert (N : unknowns known d <> []). { specialize (W d (or_introl eq_refl)). unfold written in W. destruct (unknowns known d); [discriminate W|discriminate]. }
    rewrite read_terms_con; [|exact N|destruct t; discriminate].
    assert (SR : (if String.eqb (sign_of t) "=" then Some Eq_rel else if String.eqb (sign_of t) ">=" then Some Ge_rel else None) = Some (relation_of t)) by (destruct t; reflexivity).
    rewrite SR, read_show.
    rewrite (IH (fun d' H => W d' (or_intror H)) (S i) fuel tail ltac:(lia) R fuel' ltac:(lia)).
    assert (CE : constraint_of known t d = (terms_of d (unknowns known d), relation_of t, (- known_sum order known d - 0)%Qc)) by (unfold constraint_of; f_equal; ring).
    cbn [map app]. rewrite CE. reflexivity.
Qed.

(** ** Bounds *)
Definition bwords (p : processed) : list string := words (cat (map (fun q => show (snd q) ++ " <= " ++ xname (fst q))%string (p_lower p)
  ++ map (fun q => xname (fst q) ++ " <= " ++ show (snd q))%string (p_upper p) ++ ["end"])%list).

Definition all_texts (filename : string) (p : processed) : string := cat (lp_texts show order filename p).
Lemma nobs_words s : word s -> all_chars (fun c => negb (Ascii.eqb c "\")) s = true.
Proof. intros [_ W]. revert W. apply all_chars_impl. intros c E. unfold solid in E. apply andb_true_iff in E as [_ E]. exact E. Qed.
Definition nobs (s : string) : Prop := all_chars (fun c => negb (Ascii.eqb c "\")) s = true.
Lemma nobs_app a b : nobs a -> nobs b -> nobs (a ++ b).
Proof. unfold nobs. intros A B. rewrite all_chars_app, A, B. reflexivity. Qed.
Lemma nobs_cat l : (forall s, In s l -> nobs s) -> nobs (cat l).
Proof. induction l as [|a l IH]; intros H; [reflexivity|]. rewrite cat_cons. apply nobs_app; [apply H; left; reflexivity|apply IH; intros s Hs; apply H; right; exact Hs]. Qed.
Lemma nobs_show q : nobs (show q). Proof. apply nobs_words, show_word. Qed.
Lemma nobs_xname q : nobs (xname q). Proof. apply nobs_words, xname_word. Qed.
Lemma nobs_dec q : nobs (dec q). Proof. pose proof (dec_solid q) as W. revert W. apply all_chars_impl. intros c E. unfold solid in E. apply andb_true_iff in E as [_ E]. exact E. Qed.
Lemma nobs_term d x : nobs (term_text d x).
Proof. unfold term_text. repeat apply nobs_app; try apply nobs_show; try apply nobs_xname; reflexivity. Qed.
Lemma nobs_joined d l : nobs (joined d l).
Proof.
  induction l as [|x l IH]; [reflexivity|]. destruct l as [|y l]; [cbn [joined]; repeat apply nobs_app; try apply nobs_show; try apply nobs_xname; reflexivity|].
  change (joined d (x :: y :: l)) with (term_text d x ++ joined d (y :: l)). apply nobs_app; [apply nobs_term|exact IH].
Qed.
Lemma nobs_format known d t : nobs (format_constraint_lp show order known d t).
Proof.
  unfold format_constraint_lp. rewrite terms_text_cat, cat_terms_nil. fold (unknowns known d). destruct (unknowns known d) as [|x l] eqn:E; [reflexivity|].
  rewrite cat_joined by discriminate. rewrite drop3_spec. destruct t; repeat apply nobs_app; try apply nobs_joined; try apply nobs_show; reflexivity.
Qed.
Lemma nobs_constraint_texts known t l : forall i s, In s (fst (constraint_texts show order known t i l)) -> nobs s.
Proof.
  induction l as [|d l IH]; intros i s H; [destruct H|]. cbn [constraint_texts] in H. cbv zeta in H. destruct (String.eqb _ ""); [apply IH in H; exact H|].
  specialize (IH (S i)). destruct (constraint_texts show order known t (S i) l) as [r j]. cbn [fst] in *. destruct H as [<-|H]; [|apply IH; exact H].
  repeat apply nobs_app; try apply nobs_format; try apply nobs_dec; reflexivity.
Qed.
Lemma nobs_bounds p s : In s (map (fun q => show (snd q) ++ " <= " ++ xname (fst q))%string (p_lower p)
  ++ map (fun q => xname (fst q) ++ " <= " ++ show (snd q))%string (p_upper p) ++ ["end"])%list -> nobs s.
Proof.
  intros H. apply in_app_iff in H as [H|H]; [|apply in_app_iff in H as [H|H]].
  - apply in_map_iff in H as (q & <- & _). repeat apply nobs_app; try apply nobs_show; try apply nobs_xname; reflexivity.
  - apply in_map_iff in H as (q & <- & _). repeat apply nobs_app; try apply nobs_show; try apply nobs_xname; reflexivity.
  - destruct H as [<-|[]]. reflexivity.
Qed.

Definition eqs_words (p : processed) := cwords_all (p_known p) Eq 0 (filter (written (p_known p)) (p_equalities p)).
Lemma constraint_texts_next known t l : forall i, snd (constraint_texts show order known t i l) = (i + length (filter (written known) l))%nat.
Proof.
  induction l as [|d l IH]; intros i; [cbn; lia|]. cbn [constraint_texts filter]. cbv zeta. rewrite format_nil. destruct (written known d); cbn [negb]; [|apply IH].
  specialize (IH (S i)). destruct (constraint_texts show order known t (S i) l) as [r j]. cbn [snd length] in *. lia.
Qed.
Definition ineqs_words (p : processed) := cwords_all (p_known p) Ineq (length (filter (written (p_known p)) (p_equalities p))) (filter (written (p_known p)) (p_inequalities p)).
Lemma words_file filename p : all_chars (fun c => negb (Ascii.eqb c "010")) filename = true ->
  words (without_comments false (all_texts filename p)) =
  ("maximize" :: "obj:" :: (words (format_constraint_lp show order (p_known p) (p_objective p) Obj) ++ "subject" :: "to" :: (eqs_words p ++ ineqs_words p ++ "bounds" :: bwords p)))%list.
Proof.
  intros FN. unfold all_texts, lp_texts. pose proof (constraint_texts_next (p_known p) Eq (p_equalities p) 0) as NX. pose proof (fun s => words_constraints (p_known p) Eq (p_equalities p) s ltac:(discriminate) 0) as WE.
  pose proof (nobs_constraint_texts (p_known p) Eq (p_equalities p) 0) as NE.
  destruct (constraint_texts show order (p_known p) Eq 0 (p_equalities p)) as [eqs i]. cbn [fst snd Nat.add] in *. subst i.
  set (n := length (filter (written (p_known p)) (p_equalities p))) in *.
  pose proof (fun s => words_constraints (p_known p) Ineq (p_inequalities p) s ltac:(discriminate) n) as WI.
  pose proof (nobs_constraint_texts (p_known p) Ineq (p_inequalities p) n) as NI.
  destruct (constraint_texts show order (p_known p) Ineq n (p_inequalities p)) as [ineqs j]. cbn [fst snd] in *.
  set (B := (map (fun q => show (snd q) ++ " <= " ++ xname (fst q))%string (p_lower p) ++ map (fun q => xname (fst q) ++ " <= " ++ show (snd q))%string (p_upper p) ++ ["end"])%list).
  assert (NB : forall s, In s B -> nobs s) by (unfold B; apply nobs_bounds).
  change (eqs_words p) with (cwords_all (p_known p) Eq 0 (filter (written (p_known p)) (p_equalities p))). change (ineqs_words p) with (cwords_all (p_known p) Ineq n (filter (written (p_known p)) (p_inequalities p))).
  change (bwords p) with (words (cat B)).
  cbn [app]. set (obj := format_constraint_lp show order (p_known p) (p_objective p) Obj) in *. rewrite cat_cons.
  set (R := ("maximize" ++ nl) :: ("obj: " ++ obj ++ nl) :: ("subject to" ++ nl) :: (eqs ++ ineqs ++ ["bounds" ++ nl]%string ++ B)%list).
  assert (NR : nobs (cat R)).
  { apply nobs_cat. intros s H. unfold R in H. destruct H as [<-|[<-|[<-|H]]]; [reflexivity|repeat apply nobs_app; try apply nobs_format; reflexivity|reflexivity|].
    apply in_app_iff in H as [H|H]; [apply NE; exact H|]. apply in_app_iff in H as [H|H]; [apply NI; exact H|]. apply in_app_iff in H as [[<-|[]]|H]; [reflexivity|apply NB; exact H]. }
  change (eqs ++ ineqs ++ ("bounds" ++ nl)%string :: B)%list with (eqs ++ ineqs ++ ["bounds" ++ nl]%string ++ B)%list. fold R.
  replace (without_comments false (("\ File: " ++ filename ++ nl) ++ cat R)) with (nl ++ cat R).
  2: { replace (("\ File: " ++ filename ++ nl) ++ cat R) with (String "\" ((" File: " ++ filename) ++ nl ++ cat R)) by (cbn [append]; rewrite !append_assoc; reflexivity).
       cbn [without_comments]. rewrite Ascii.eqb_refl, comment_line by (rewrite all_chars_app, FN; reflexivity). rewrite no_comment by exact NR. reflexivity. }
  unfold R. clear R NR. match goal with |- words (nl ++ ?t) = _ => change (words (nl ++ t)) with (words t) end.
  rewrite cat_cons, words_nl_app. change (words "maximize") with ["maximize"]. cbn [app]. f_equal.
  rewrite cat_cons.
  match goal with |- words (("obj: " ++ obj ++ nl) ++ ?t) = _ => change (words (("obj: " ++ obj ++ nl) ++ t)) with (words ("obj:" ++ String " " ((obj ++ nl) ++ t))) end.
  rewrite words_blank by reflexivity. change (words "obj:") with ["obj:"]. cbn [app]. f_equal. rewrite words_nl_app. f_equal.
  rewrite cat_cons, words_nl_app. change (words "subject to") with ["subject"; "to"]. cbn [app]. do 2 f_equal.
  rewrite !cat_app, WE, WI. do 2 f_equal.
Qed.
End Format.
