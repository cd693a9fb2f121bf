(** Interpretation of texts. *)
From Coq Require Import List Arith Bool Ascii String Lia.
From Verif Require Import CanonModel CanonSpec ScenarioModel ScenarioSpec ScenarioProofs SymModel SymSpec SymProofs ColumnModel ColsModel MemoModel MemoSpec MemoProofs ProgramModel NameModel NameSpec NameProofs NameProofs2 NameProofs3 NameProofs4 NameProofs5 NameProofs8.
From Verif Require ColumnProofs3.
Import ListNotations.
Open Scope string_scope. Open Scope nat_scope. Open Scope list_scope.

Lemma last_char_app a c : last_char (a ++ String c "")%string = Some c.
Proof.
  unfold last_char. assert (E : String.length (a ++ String c "")%string - 1 = String.length a).
  { induction a as [|d a IH]; [reflexivity|]. cbn [String.append String.length] in *. destruct a; [reflexivity|]. cbn [String.append String.length] in *. lia. }
  rewrite E. clear E. induction a as [|d a IH]; [reflexivity|]. cbn [String.append String.length String.get]. exact IH.
Qed.
Lemma chop_app a c : chop (a ++ String c "")%string = a.
Proof.
  unfold chop. assert (E : String.length (a ++ String c "")%string - 1 = String.length a).
  { induction a as [|d a IH]; [reflexivity|]. cbn [String.append String.length] in *. destruct a; [reflexivity|]. cbn [String.append String.length] in *. lia. }
  rewrite E. clear E. induction a as [|d a IH]; [reflexivity|]. cbn [String.append String.length substring]. f_equal. exact IH.
Qed.
(** no opening parenthesis after P or p *)
Definition opens (s : string) : bool := match s with String "(" _ => true | _ => false end.
Fixpoint pok (s : string) : bool :=
  match s with
  | EmptyString => true
  | String c s' => negb ((isc "P" c || isc "p" c) && opens s') && pok s'
  end.
Definition no_open : ascii -> bool := fun c => negb (isc "(" c).
Lemma opens_spec s : opens s = true -> exists s', s = String "(" s'.
Proof. destruct s as [|c s]; [discriminate|]. intros H. exists s. f_equal. destruct c as [[] [] [] [] [] [] [] []]; try discriminate H. reflexivity. Qed.
Lemma no_open_opens s : every no_open s = true -> opens s = false.
Proof. intros H. destruct (opens s) eqn:E; [|reflexivity]. apply opens_spec in E as (s' & ->). discriminate H. Qed.
Lemma no_open_pok s : every no_open s = true -> pok s = true.
Proof.
  induction s as [|c s IH]; [reflexivity|]. cbn [every pok]. intros H. apply andb_true_iff in H as [_ H]. rewrite (IH H), (no_open_opens s H), andb_false_r. reflexivity.
Qed.
Lemma pok_app a b : pok a = true -> pok b = true -> opens b = false -> pok (a ++ b)%string = true.
Proof.
  induction a as [|c a IH]; intros Ha Hb Ho; [exact Hb|]. cbn [String.append pok] in *. apply andb_true_iff in Ha as [H1 H2]. rewrite (IH H2 Hb Ho), andb_true_r.
  destruct a as [|d a]; [cbn [String.append]; rewrite Ho, andb_false_r; reflexivity|]. cbn [String.append]. exact H1.
Qed.
Lemma pok_replace c rep s : c = "P"%char \/ c = "p"%char -> pok s = true -> replace (String c "(") rep s = s.
Proof.
  intros Hc. unfold replace. induction s as [|d s IH]; intros H; [reflexivity|]. cbn [pok] in H. apply andb_true_iff in H as [H1 H2]. cbn [replace_from].
  assert (Q : prefix (String c "(") (String d s) = false).
  { cbn [prefix]. destruct (ascii_dec c d) as [<-|_]; [|reflexivity]. destruct s as [|e s]; [reflexivity|]. cbn [prefix]. destruct (ascii_dec "(" e) as [<-|_]; [|destruct s; reflexivity]. exfalso. destruct Hc as [-> | ->]; discriminate H1. }
  rewrite Q, (IH H2). reflexivity.
Qed.
(** a text of an operator *)
Record op_text (t : string) : Prop := {
  ot_blank : without " " t; ot_less : without "<" t; ot_square : without "[" t; ot_star : without "*" t;
  ot_pok : pok t = true; ot_opens : opens t = false; ot_amp : t <> "&"%string; ot_ne : t <> ""%string }.
Lemma every_pok_concat ts : (forall t, In t ts -> op_text t) -> pok (String.concat " " ts) = true /\ opens (String.concat " " ts) = false.
Proof.
  induction ts as [|t ts IH]; intros H; [split; reflexivity|]. destruct IH as [IH1 IH2]; [intros u Hu; apply H; right; exact Hu|].
  destruct (H t (or_introl eq_refl)) as [_ _ _ _ P O _ N]. rewrite concat_cons. split.
  - apply pok_app; [exact P| |destruct ts; reflexivity]. destruct ts as [|u ts]; [reflexivity|]. cbn [pok]. rewrite IH1. reflexivity.
  - destruct t; [contradiction|]. cbn [String.append]. cbn [opens] in O. exact O.
Qed.
Lemma without_concat c ts : Ascii.eqb c " " = false -> (forall t, In t ts -> without c t) -> without c (String.concat " " ts).
Proof. intros N H. unfold without. apply every_concat; [unfold isc; rewrite N; reflexivity|exact H]. Qed.
Lemma amp_concat ts : (forall t, In t ts -> op_text t) -> replace " & " " " (String.concat " " ts) = String.concat " " ts.
Proof.
  induction ts as [|t ts IH]; intros H; [reflexivity|]. rewrite concat_cons. rewrite replace_before by (apply (H t (or_introl eq_refl))). f_equal.
  destruct ts as [|u ts]; [reflexivity|]. set (r := String.concat " " (u :: ts)) in *. unfold replace. cbn [replace_from].
  assert (Q : prefix " & " (String " " r) = false).
  { cbn [prefix]. destruct (ascii_dec " " " ") as [_|C]; [|congruence]. unfold r. rewrite concat_cons. destruct (H u (or_intror (or_introl eq_refl))) as [B _ _ _ _ _ A N].
    destruct u as [|a u]; [contradiction|]. cbn [String.append prefix]. destruct (ascii_dec "&" a) as [<-|_]; [|reflexivity]. destruct u as [|b u]; [contradiction|]. cbn [String.append prefix].
    destruct (ascii_dec " " b) as [<-|_]; [discriminate B|reflexivity]. }
  rewrite Q. f_equal. apply IH. intros v Hv. apply H. right. exact Hv.
Qed.
Local Notation kills := substrings_to_kill.
Lemma square_replace c rep s : without "[" s -> replace (String c "[") rep s = s.
Proof.
  unfold without, replace. induction s as [|d s IH]; intros H; [reflexivity|]. cbn [every] in H. apply andb_true_iff in H as [H1 H2]. cbn [replace_from].
  assert (Q : prefix (String c "[") (String d s) = false).
  { cbn [prefix]. destruct (ascii_dec c d) as [_|_]; [|reflexivity]. destruct s as [|e s]; [reflexivity|]. cbn [prefix]. cbn [every] in H2. apply andb_true_iff in H2 as [H2 _]. destruct (ascii_dec "[" e) as [<-|_]; [discriminate H2|destruct s; reflexivity]. }
  rewrite Q, (IH H2). reflexivity.
Qed.
Lemma kill_body ts kill : (forall t, In t ts -> op_text t) -> (forall k, In k kill -> In k kills) -> fold_left (fun t k => replace k "" t) kill (String.concat " " ts) = String.concat " " ts.
Proof.
  intros H. induction kill as [|k kill IH]; intros HK; [reflexivity|]. cbn [fold_left].
  assert (Q : replace k "" (String.concat " " ts) = String.concat " " ts).
  { destruct (every_pok_concat ts H) as [P _]. destruct (HK k (or_introl eq_refl)) as [<-|[<-|[<-|[<-|[<-|[]]]]]].
    - apply square_replace, without_concat; [reflexivity|]. intros t Ht. apply (H t Ht).
    - apply pok_replace; [left; reflexivity|exact P].
    - apply square_replace, without_concat; [reflexivity|]. intros t Ht. apply (H t Ht).
    - apply pok_replace; [right; reflexivity|exact P].
    - apply replace_absent. apply without_concat; [reflexivity|]. intros t Ht. apply (H t Ht). }
  rewrite Q. apply IH. intros k' Hk'. apply HK. right. exact Hk'.
Qed.
Lemma kill_bracket ts kill : (forall t, In t ts -> op_text t) -> (forall k, In k kill -> In k kills) -> In "<" kill ->
  fold_left (fun t k => replace k "" t) kill ("<" ++ String.concat " " ts)%string = String.concat " " ts.
Proof.
  intros H. induction kill as [|k kill IH]; intros HK Hin; [destruct Hin|]. cbn [fold_left]. destruct (every_pok_concat ts H) as [P O].
  assert (HK' : forall k', In k' kill -> In k' kills) by (intros k' Hk'; apply HK; right; exact Hk').
  destruct (string_dec k "<") as [->|N].
  - rewrite replace_here by discriminate. rewrite replace_absent by (apply without_concat; [reflexivity|]; intros t Ht; apply (H t Ht)). cbn [String.append]. apply kill_body; assumption.
  - destruct Hin as [Hin|Hin]; [congruence|].
    assert (Q : replace k "" ("<" ++ String.concat " " ts)%string = ("<" ++ String.concat " " ts)%string).
    { assert (SQ : without "[" ("<" ++ String.concat " " ts)) by (unfold without; rewrite every_app; rewrite (without_concat "["); [reflexivity|reflexivity|intros t Ht; apply (H t Ht)]).
      assert (PQ : pok ("<" ++ String.concat " " ts) = true) by (cbn [String.append pok]; rewrite P; reflexivity).
      destruct (HK k (or_introl eq_refl)) as [<-|[<-|[<-|[<-|[<-|[]]]]]]; [apply square_replace, SQ|apply pok_replace; [left; reflexivity|exact PQ]|apply square_replace, SQ|apply pok_replace; [right; reflexivity|exact PQ]|contradiction]. }
    rewrite Q. apply IH; assumption.
Qed.
Lemma parse_bracket known kill table ts xs : known ("<" ++ String.concat " " ts ++ ">")%string = None -> ts <> [] ->
  (forall k, In k kill <-> In k kills) -> Forall2 (fun t x => op_text t /\ first_named t table = Some x) ts xs ->
  interpret_atomic_string known kill table ("<" ++ String.concat " " ts ++ ">")%string = Some xs.
Proof.
  intros K NE HK F. unfold interpret_atomic_string. rewrite K.
  assert (H : forall t, In t ts -> op_text t). { clear - F. induction F as [|t x ts xs [A _] _ IH]; [intros t []|]. intros u [<-|Hu]; [exact A|exact (IH u Hu)]. }
  change ("<" ++ String.concat " " ts ++ ">")%string with (("<" ++ String.concat " " ts) ++ String ">" "")%string.
  assert (E1 : first_char (("<" ++ String.concat " " ts) ++ String ">" "")%string = Some "<"%char) by reflexivity.
  rewrite last_char_app, chop_app, E1. change (is_char "<" (Some "<"%char)) with true. change (is_char ">" (Some ">"%char)) with true. cbn [andb orb].
  rewrite (kill_bracket ts kill H (fun k => proj1 (HK k)) (proj2 (HK "<") ltac:(cbn; tauto))), (amp_concat ts H), split_concat; [|exact NE|intros t Ht; apply (H t Ht)].
  apply map_opt_some. clear - F. induction F as [|t x ts xs [_ A] _ IH]; constructor; [exact A|exact IH].
Qed.

Section Texts.
Variables (sc : scenario) (names : list string).
Hypotheses (W : wf_scenario sc) (GN : good_names sc names).
Notation D := (D sc names).
Lemma new_text x inc : is_letter sc x -> op_text (interpretation_to_name (D x) inc).
Proof.
  intros Hx. assert (N := D_nice sc names W GN x Hx). assert (I := name_inside (D x) inc N).
  assert (EQ := new_name_eq (D x) inc). unfold has_eq in EQ.
  assert (K : forall s, nice s -> every no_open s = true) by (intros s; apply every_impl; intros c Hc; char_cases c Hc).
  set (A := (i_party (D x) ++ private_text (D x) ++ (if inc then copies_text (D x) else "") ++ "=" ++ dec (i_outcome (D x)))%string).
  assert (E : interpretation_to_name (D x) inc = (A ++ do_suffix (i_do (D x)))%string) by (rewrite name_parts; unfold A; rewrite !sapp_assoc; reflexivity).
  assert (NA : every no_open A = true).
  { unfold A. rewrite !every_app, (K _ (nd_party _ N)), (K _ (dec_nice _)).
    assert (P : every no_open (private_text (D x)) = true) by (unfold private_text; destruct (i_private_trivial (D x)); [reflexivity|]; cbn [String.append every]; rewrite (K _ (dec_nice _)); reflexivity).
    rewrite P. cbn [every andb]. rewrite andb_true_r. destruct inc; [|reflexivity]. unfold copies_text.
    assert (J : forall c l, no_open c = true -> every no_open (String.concat (String c "") (map dec l)) = true).
    { intros c l Hc. apply every_concat; [exact Hc|]. intros s Hs. apply in_map_iff in Hs as (i & <- & _). apply K, dec_nice. }
    rewrite !every_app, (J "_"%char) by reflexivity. destruct (i_relevant (D x)); [reflexivity|]. rewrite !every_app, (J ","%char) by reflexivity. reflexivity. }
  constructor.
  - apply (every_impl inside); [intros c Hc; char_cases c Hc|exact I].
  - apply (every_impl inside); [intros c Hc; char_cases c Hc|exact I].
  - apply (every_impl inside); [intros c Hc; char_cases c Hc|exact I].
  - apply (every_impl inside); [intros c Hc; char_cases c Hc|exact I].
  - rewrite E. apply pok_app; [apply no_open_pok, NA| |unfold do_suffix; destruct (i_do (D x)); reflexivity].
    unfold do_suffix. destruct (i_do (D x)) as [|a l] eqn:Ed; [reflexivity|]. cbn [String.append pok]. cbn [opens isc Ascii.eqb Bool.eqb andb orb negb].
    rewrite no_open_pok; [reflexivity|]. rewrite every_app. rewrite (every_concat no_open ","%char); [reflexivity|reflexivity|].
    intros s Hs. apply in_map_iff in Hs as (kv & <- & Hk). apply (every_impl (fun c => name_char c || isc "=" c)); [|apply do_text_chars, (nd_keys _ N); rewrite Ed; exact Hk].
    intros c Hc. apply orb_true_iff in Hc as [Hc|Hc]; [char_cases c Hc|apply Ascii.eqb_eq in Hc; subst c; reflexivity].
  - rewrite E. destruct A as [|a A'] eqn:EA; [exfalso; unfold A in EA; destruct (i_party (D x)); [|discriminate EA]; unfold private_text in EA; destruct (i_private_trivial (D x)); [|discriminate EA]; destruct inc; [|discriminate EA]; unfold copies_text in EA; destruct (i_relevant (D x)); discriminate EA|].
    cbn [String.append]. apply no_open_opens in NA. exact NA.
  - intros Q. rewrite Q in EQ. discriminate EQ.
  - intros Q. rewrite Q in EQ. discriminate EQ.
Qed.
Lemma plain_text t : (forall f, special f -> f "_"%char = false -> every (fun c => negb (f c)) "∅" = true -> every (fun c => negb (f c)) t = true) ->
  every (fun c => negb (isc "_" c)) t = false -> op_text t.
Proof.
  intros H U. assert (O : every no_open t = true) by (apply (H (isc "(")); [intros c Hc; char_cases c Hc|reflexivity|reflexivity]).
  constructor; try (apply H; [intros c Hc; char_cases c Hc|reflexivity|reflexivity]).
  - apply no_open_pok, O.
  - apply no_open_opens, O.
  - intros Q. rewrite Q in U. discriminate U.
  - intros Q. rewrite Q in U. discriminate U.
Qed.
Lemma old_text x : is_letter sc x -> op_text (old_name (D x)).
Proof.
  intros Hx. assert (N := D_nice sc names W GN x Hx). apply plain_text; [|apply underscore_in, N]. intros f F1 F2 F3. apply old_name_inside; assumption.
Qed.
Lemma old2_text' x : is_letter sc x -> op_text (old_name2 (D x)).
Proof.
  intros Hx. assert (N := D_nice sc names W GN x Hx). apply plain_text; [|apply (underscore_in2 sc names W GN x Hx)]. intros f F1 F2 F3. rewrite (old2_spec sc names W GN x Hx). unfold old2_text.
  rewrite !every_app, (nice_avoids f _ F1 (nd_party _ N)). cbn [every andb]. rewrite F2. cbn [negb andb]. apply every_concat; [rewrite F2; reflexivity|].
  intros s Hs. apply in_app_or in Hs as [Hs|[<-|[<-|[]]]]; [apply in_map_iff in Hs as (i & <- & _)| |]; apply dec_avoids, special_digit, F1.
Qed.

(** the conjugation of the code is one *)
Lemma code_conj_ok commuting : (commuting = true -> forall a b, sdp_notcomm sc a b = false) -> conjugates sc (code_conj sc commuting).
Proof.
  intros Hc w. split.
  - intros H. unfold code_conj, memo_conj. destruct (sub_any (sdp_notcomm sc) w) eqn:E; [|reflexivity]. apply sub_any_spec in E as (a & b & Ha & Hb & E). rewrite (H a b Ha Hb) in E. discriminate.
  - intros (NE & R & HW & RED) (a & b & Ha & Hb & E).
    pose proof (scenario_good_tables sc W) as G. pose proof (ColumnProofs3.scenario_symmetries sc W) as OS.
    assert (GC : good_call (sdp_notcomm sc) (sdp_orthomat sc) (S (List.length (lexorder sc))) (Conj w)).
    { right; right. split; [exact RED|]. intros x Hx. specialize (R x Hx). lia. }
    destruct (memo_conj_ok _ _ commuting _ _ G Hc OS w memo_empty (inv_empty _ _ _ _ _) GC) as (r & m' & Er & _ & A).
    unfold code_conj. rewrite Er. cbn [right_answer] in A. destruct A as [[A _]|[_ A]]; [|exact A]. rewrite (A a b Ha Hb) in E. discriminate.
Qed.
End Texts.
