(** The legacy names of atoms determine them. *)
From Coq Require Import List Arith Bool Ascii String Lia.
From Verif Require Import CanonModel CanonSpec ScenarioModel ScenarioSpec ScenarioProofs SymModel SymProofs ColumnModel MemoModel MemoSpec MemoProofs KnowModel KnowSpec KnowProofs ProgramModel NameModel NameSpec NameProofs NameProofs2 NameProofs3 NameProofs4.
From Verif Require PropKnow.
Import ListNotations.
Open Scope string_scope. Open Scope nat_scope. Open Scope list_scope.

(** ** Concatenations *)
Lemma sapp_prefix (a : string) : forall b s t, (a ++ s)%string = (b ++ t)%string -> (exists u, b = (a ++ u)%string) \/ (exists u, a = (b ++ u)%string).
Proof.
  induction a as [|x a IH]; intros b s t E; [left; exists b; reflexivity|]. destruct b as [|y b]; [right; exists (String x a); reflexivity|].
  cbn [String.append] in E. injection E as <- E. destruct (IH b s t E) as [(u & ->)|(u & ->)]; [left|right]; exists u; reflexivity.
Qed.
Lemma concat0_cons x l : String.concat "" (x :: l) = (x ++ String.concat "" l)%string.
Proof. destruct l; [symmetry; apply sapp_nil|reflexivity]. Qed.
Lemma prefix_free_inj names l1 : prefix_free names -> forall l2, (forall s, In s l1 -> In s names) -> (forall s, In s l2 -> In s names) ->
  String.concat "" l1 = String.concat "" l2 -> l1 = l2.
Proof.
  intros [P0 P1]. induction l1 as [|x l1 IH]; intros [|y l2] H1 H2 E; [reflexivity| | |].
  - exfalso. rewrite concat0_cons in E. specialize (P0 y (H2 y (or_introl eq_refl))). destruct y; [contradiction|discriminate E].
  - exfalso. rewrite concat0_cons in E. specialize (P0 x (H1 x (or_introl eq_refl))). destruct x; [contradiction|discriminate E].
  - rewrite !concat0_cons in E. assert (x = y) as <-.
    { destruct (sapp_prefix _ _ _ _ E) as [(u & Eu)|(u & Eu)].
      - assert (u = "") as ->; [|rewrite sapp_nil in Eu; congruence]. apply (P1 x u); [apply H1; left; reflexivity|rewrite <- Eu; apply H2; left; reflexivity].
      - assert (u = "") as ->; [|rewrite sapp_nil in Eu; congruence]. apply (P1 y u); [apply H2; left; reflexivity|rewrite <- Eu; apply H1; left; reflexivity]. }
    f_equal. apply sapp_cancel in E. apply IH; [intros s Hs; apply H1; right; exact Hs|intros s Hs; apply H2; right; exact Hs|exact E].
Qed.
(** numerals joined with the divider that fits *)
Lemma every_concat0 f l : (forall s, In s l -> every f s = true) -> every f (String.concat "" l) = true.
Proof.
  induction l as [|x l IH]; intros H; [reflexivity|]. rewrite concat0_cons, every_app, (H x (or_introl eq_refl)). apply IH. intros s Hs. apply H. right. exact Hs.
Qed.
Lemma single_inj l1 : forall l2, (forall s, In s l1 -> String.length s = 1) -> (forall s, In s l2 -> String.length s = 1) ->
  String.concat "" l1 = String.concat "" l2 -> l1 = l2.
Proof.
  assert (K : forall s, String.length s = 1 -> exists c, s = String c "") by (intros [|c [|d s]] H; try discriminate H; exists c; reflexivity).
  induction l1 as [|x l1 IH]; intros [|y l2] H1 H2 E; [reflexivity| | |].
  - exfalso. rewrite concat0_cons in E. destruct (K y (H2 y (or_introl eq_refl))) as (c & ->). discriminate E.
  - exfalso. rewrite concat0_cons in E. destruct (K x (H1 x (or_introl eq_refl))) as (c & ->). discriminate E.
  - rewrite !concat0_cons in E. destruct (K y (H2 y (or_introl eq_refl))) as (c & ->). destruct (K x (H1 x (or_introl eq_refl))) as (d & ->). injection E as -> E.
    f_equal. apply IH; [intros s Hs; apply H1; right; exact Hs|intros s Hs; apply H2; right; exact Hs|exact E].
Qed.
Lemma divided_digits l : every (fun d => digit d || isc "," d) (String.concat (divider (map dec l)) (map dec l)) = true.
Proof.
  unfold divider. destruct (forallb _ _); [|apply joined_digits]. apply every_concat0. intros s Hs. apply in_map_iff in Hs as (i & <- & _).
  apply (every_impl digit); [intros d ->; reflexivity|apply dec_digits].
Qed.
Lemma comma_in l : 2 <= List.length l -> every digit (String.concat "," (map dec l)) = false.
Proof.
  destruct l as [|a [|b l]]; cbn [List.length]; intros H; try lia. cbn [map]. rewrite concat_cons, every_app. cbn [every].
  replace (digit ",") with false by reflexivity. cbn [andb]. apply andb_false_r.
Qed.
Lemma divided_inj l1 l2 : List.length l1 = List.length l2 ->
  String.concat (divider (map dec l1)) (map dec l1) = String.concat (divider (map dec l2)) (map dec l2) -> l1 = l2.
Proof.
  intros L E. apply map_dec_inj. unfold divider in E.
  destruct (forallb (fun s => String.length s =? 1) (map dec l1)) eqn:F1, (forallb (fun s => String.length s =? 1) (map dec l2)) eqn:F2.
  - rewrite forallb_forall in F1, F2. apply single_inj; [intros s Hs; apply Nat.eqb_eq, F1, Hs|intros s Hs; apply Nat.eqb_eq, F2, Hs|exact E].
  - exfalso. destruct (Nat.le_gt_cases 2 (List.length l2)) as [G|G].
    + apply (f_equal (every digit)) in E. rewrite (comma_in l2 G), every_concat0 in E; [discriminate|]. intros s Hs. apply in_map_iff in Hs as (i & <- & _). apply dec_digits.
    + destruct l2 as [|b [|b' l2]]; cbn [List.length] in *; [discriminate F2| |lia]. destruct l1 as [|a [|a' l1]]; cbn [List.length] in *; try lia. cbn [map String.concat] in E. cbn [map forallb] in *. rewrite E in F1. congruence.
  - exfalso. destruct (Nat.le_gt_cases 2 (List.length l1)) as [G|G].
    + apply (f_equal (every digit)) in E. rewrite (comma_in l1 G), every_concat0 in E; [discriminate|]. intros s Hs. apply in_map_iff in Hs as (i & <- & _). apply dec_digits.
    + destruct l1 as [|b [|b' l1]]; cbn [List.length] in *; [discriminate F1| |lia]. destruct l2 as [|a [|a' l2]]; cbn [List.length] in *; try lia. cbn [map String.concat] in E. cbn [map forallb] in *. rewrite E in F1. congruence.
  - apply (concat_inj ","); [| |destruct l1, l2; cbn [map List.length] in *; try lia; split; intros Q; try discriminate Q; reflexivity|exact E].
    + intros s Hs. apply in_map_iff in Hs as (i & <- & _). apply dec_avoids. nodigit.
    + intros s Hs. apply in_map_iff in Hs as (i & <- & _). apply dec_avoids. nodigit.
Qed.

Section Legacy.
Variables (sc : scenario) (names : list string).
Hypotheses (W : wf_scenario sc) (GN : good_names sc names) (PF : prefix_free names).
Notation D := (D sc names).

Lemma is_knowable_spec w : w <> [] -> letters sc w -> exists b, is_knowable sc w = Some b /\
  (b = true -> one_operator_per_party (rows_of sc w) /\ one_copy_per_source (rows_of sc w) /\ parents_agree sc (rows_of sc w)).
Proof.
  intros NE H. unfold is_knowable. destruct w as [|x w0] eqn:Ew; [contradiction|]. rewrite <- Ew in *. clear Ew NE x w0.
  rewrite (not_zero sc w H). assert (V := rows_of_valid sc names W GN w H).
  destruct (nb_is_do_conditional (nr_sources sc) (rows_of sc w) && is_all_commuting sc w); [|exists false; split; [reflexivity|discriminate]].
  unfold atomic_knowable_q. destruct (nb_is_knowable (nr_sources sc) (rows_of sc w)) eqn:K; cbn [negb]; [|exists false; split; [reflexivity|discriminate]].
  apply (nb_is_knowable_spec sc _ V) in K as [K1 K2].
  destruct (is_network sc) eqn:N.
  - exists true. split; [reflexivity|]. intros _. split; [exact K1|]. split; [exact K2|]. apply network_parents_agree; assumption.
  - destruct (non_networks_spec sc _ V K1) as (b & E & B). exists b. split; [exact E|]. intros Hb. split; [exact K1|]. split; [exact K2|]. apply B, Hb.
Qed.
Lemma rows_in w : letters sc w -> forall r, In r (rows_of sc w) -> In r (lexorder sc).
Proof.
  intros H r Hr. unfold rows_of in Hr. apply in_map_iff in Hr as (x & <- & Hx). destruct (is_letter_letter sc names W GN x (H x Hx)) as (p & c & s & o & v & os & LX).
  assert (E := l_row' _ _ _ _ _ _ _ _ _ LX). unfold row_of in E. rewrite E. apply (nth_error_In _ (x - 1)). apply LX.
Qed.
Definition known_text (rect : list (list nat)) : string :=
  ("p" ++ String.concat "" (map (fun r => nth (nth 0 r 0 - 1) names "") rect)
   ++ "(" ++ String.concat (divider (map dec (map (fun r => nth 2 r 0) rect))) (map dec (map (fun r => nth 2 r 0) rect))
   ++ "|" ++ String.concat (divider (map dec (map (fun r => nth 1 r 0) rect))) (map dec (map (fun r => nth 1 r 0) rect)) ++ ")")%string.
Definition good_row (r : list nat) : Prop := List.length r = 3 /\ 1 <= nth 0 r 0 <= nr_parties sc.
Lemma legacy_form w n : atom_word sc w -> legacy_name sc names w = Some n ->
  (exists rect, n = known_text rect /\ rectify_fake_setting sc (map take3 (rows_of sc w)) = Some rect /\ rect <> [] /\ (forall r, In r rect -> good_row r) /\
     one_operator_per_party (rows_of sc w) /\ one_copy_per_source (rows_of sc w) /\ parents_agree sc (rows_of sc w)) \/
  n = ("<" ++ String.concat " " (map (fun x => old_name (D x)) w) ++ ">")%string.
Proof.
  intros A. assert (NE : w <> []) by apply A. assert (H := atom_letters sc w A). unfold legacy_name. destruct (is_knowable_spec w NE H) as (b & K & B). 
  destruct w as [|x w0] eqn:Ew; [contradiction|]. rewrite <- Ew in *. rewrite (not_zero sc w H), K.
  destruct b.
  - destruct (PropKnow.C15_private_setting sc (rows_of sc w) W (rows_in w H)) as (rect & E & F). rewrite E. intros Q. injection Q as <-. left. exists rect. split; [unfold known_text; rewrite !map_map; reflexivity|]. split; [reflexivity|].
    split; [intros ->; inversion F as [Q1|]; subst w; cbn [rows_of map] in Q1; discriminate Q1|]. split; [|apply B; reflexivity].
    intros r Hr. clear - F Hr W GN H. assert (V := rows_of_valid sc names W GN w H). revert V. generalize dependent (rows_of sc w). intros l F V. clear H. induction F as [|a r0 l m Q F IH]; [destruct Hr|]. destruct Hr as [->|Hr].
    + destruct Q as (p & c & s & o & x & os & -> & _ & _ & ->). split; [reflexivity|]. cbn [nth]. destruct (V _ (or_introl eq_refl)) as (p' & c' & s' & o' & E & Vo). apply mkrow_inj in E as (E & _). destruct Vo as (Vo & _). lia.
    + apply IH; [exact Hr|]. intros r' Hr'. apply V. right. exact Hr'.
  - rewrite (dicts_of_letters sc names W GN w H). intros Q. injection Q as <-. right. rewrite map_map. reflexivity.
Qed.
Lemma legacy_total w : atom_word sc w -> exists n, legacy_name sc names w = Some n.
Proof.
  intros A. assert (NE : w <> []) by apply A. assert (H := atom_letters sc w A). unfold legacy_name. destruct (is_knowable_spec w NE H) as (b & K & B). 
  destruct w as [|x w0] eqn:Ew; [contradiction|]. rewrite <- Ew in *. rewrite (not_zero sc w H), K.
  destruct b; [|rewrite (dicts_of_letters sc names W GN w H); eauto].
  destruct (PropKnow.C15_private_setting sc (rows_of sc w) W (rows_in w H)) as (rect & E & F). rewrite E. eauto.
Qed.
Lemma known_text_inj r1 r2 : (forall r, In r r1 -> good_row r) -> (forall r, In r r2 -> good_row r) -> known_text r1 = known_text r2 -> r1 = r2.
Proof.
  intros G1 G2 E. unfold known_text in E. apply (sapp_cancel "p") in E.
  assert (S1 : special (isc "(")) by (intros c Hc; char_cases c Hc).
  assert (P : forall r, (forall x, In x r -> good_row x) -> every (fun c => negb (isc "(" c)) (String.concat "" (map (fun r => nth (nth 0 r 0 - 1) names "") r)) = true).
  { intros r G. apply every_concat0. intros s Hs. apply in_map_iff in Hs as (x & <- & Hx). apply nice_avoids; [exact S1|]. apply (name_nice sc names GN). destruct (G x Hx) as [_ Q]. lia. }
  apply (split_eq (isc "(")) in E as [E1 E]; [|apply P, G1|apply P, G2|reflexivity|reflexivity]. apply (sapp_cancel "(") in E.
  assert (PP : map (fun r => nth 0 r 0) r1 = map (fun r => nth 0 r 0) r2).
  { apply (prefix_free_inj names) in E1; [|exact PF| |].
    - apply Forall2_map_eq in E1. apply Forall2_map_eq. revert E1. apply Forall2_impl_in. intros x y Hx Hy Q. destruct (G1 x Hx) as [_ X], (G2 y Hy) as [_ Y].
      apply (name_inj_party sc names GN) in Q; lia.
    - intros s Hs. apply in_map_iff in Hs as (x & <- & Hx). apply nth_In. rewrite (gn_length _ _ GN). destruct (G1 x Hx) as [_ Q]. lia.
    - intros s Hs. apply in_map_iff in Hs as (x & <- & Hx). apply nth_In. rewrite (gn_length _ _ GN). destruct (G2 x Hx) as [_ Q]. lia. }
  assert (LL : List.length r1 = List.length r2) by (rewrite <- (map_length (fun r => nth 0 r 0) r1), PP, map_length; reflexivity).
  assert (DV : forall l f, no_digit f -> f ","%char = false -> every (fun d => negb (f d)) (String.concat (divider (map dec l)) (map dec l)) = true).
  { intros l f N1 N2. apply (every_impl (fun d => digit d || isc "," d)); [|apply divided_digits]. intros d Hd. apply orb_true_iff in Hd as [Hd|Hd]; [rewrite (N1 d Hd); reflexivity|].
    apply Ascii.eqb_eq in Hd. subst d. rewrite N2. reflexivity. }
  apply (split_eq (isc "|")) in E as [E2 E]; [|apply DV; [nodigit|reflexivity]|apply DV; [nodigit|reflexivity]|reflexivity|reflexivity]. apply (sapp_cancel "|") in E. apply sapp_cancel_r in E.
  apply divided_inj in E; [|rewrite !map_length; exact LL]. apply divided_inj in E2; [|rewrite !map_length; exact LL].
  apply Forall2_map_eq in PP, E, E2. apply Forall2_eq. assert (Q := Forall2_conj _ _ _ _ PP (Forall2_conj _ _ _ _ E E2)). revert Q. apply Forall2_impl_in. intros x y Hx Hy (Q1 & Q2 & Q3).
  destruct (G1 x Hx) as [X _], (G2 y Hy) as [Y _]. destruct x as [|a [|b [|c [|d x]]]]; try discriminate X. destruct y as [|a' [|b' [|c' [|d' y]]]]; try discriminate Y. cbn [nth] in *. congruence.
Qed.
Definition old_char (c : ascii) : bool := negb (within [" "; "*"; "="; ")"; "("; "]"; "["; ">"; "<"; "p"]%char c || isc "^" c).
Lemma old_name_inside d f : nice_dict d -> special f -> f "_"%char = false -> every (fun c => negb (f c)) "∅" = true -> every (fun c => negb (f c)) (old_name d) = true.
Proof.
  intros N Sp F1 F2. rewrite old_name_parts by apply N. rewrite !every_app, (nice_avoids f _ Sp (nd_party _ N)). cbn [andb every]. rewrite F1. cbn [negb andb].
  apply every_concat; [rewrite F1; reflexivity|]. intros s Hs. unfold old_list in Hs. apply in_app_or in Hs as [Hs|[<-|[<-|[]]]].
  - apply in_map_iff in Hs as (i & <- & _). apply dec_avoids, special_digit, Sp.
  - unfold setting_text. destruct (i_composite_trivial d); [exact F2|apply dec_avoids, special_digit, Sp].
  - apply dec_avoids, special_digit, Sp.
Qed.
Lemma old_letter_inj x y : is_letter sc x -> is_letter sc y -> old_name (D x) = old_name (D y) -> x = y.
Proof.
  intros Hx Hy. destruct (is_letter_letter sc names W GN x Hx) as (p & c & s & o & v & os & LX). destruct (is_letter_letter sc names W GN y Hy) as (p' & c' & s' & o' & v' & os' & LY).
  rewrite (l_dict _ _ _ _ _ _ _ _ _ LX), (l_dict _ _ _ _ _ _ _ _ _ LY). intros E.
  apply (old_names_inj sc names W GN) in E; [|apply LX|apply LY]. destruct E as (-> & -> & -> & ->).
  apply (letter_inj sc names W GN); [assumption|assumption|]. rewrite (l_row' _ _ _ _ _ _ _ _ _ LX), (l_row' _ _ _ _ _ _ _ _ _ LY). reflexivity.
Qed.
(** the two forms of a legacy name determine the word *)
Definition known_form (w : word) (n : string) : Prop := exists rect, n = known_text rect /\ rectify_fake_setting sc (map take3 (rows_of sc w)) = Some rect /\ rect <> [] /\ (forall r, In r rect -> good_row r) /\
     one_operator_per_party (rows_of sc w) /\ one_copy_per_source (rows_of sc w) /\ parents_agree sc (rows_of sc w).
Definition old_form (w : word) (n : string) : Prop := n = ("<" ++ String.concat " " (map (fun x => old_name (D x)) w) ++ ">")%string.
Lemma legacy_forms_inj w1 w2 n : first_word sc w1 -> first_word sc w2 -> known_form w1 n \/ old_form w1 n -> known_form w2 n \/ old_form w2 n -> w1 = w2.
Proof.
  intros A1 A2 E1 E2. assert (H1 := first_letters sc w1 A1). assert (H2 := first_letters sc w2 A2). unfold known_form, old_form in *.
  destruct E1 as [(r1 & -> & R1 & _ & G1 & P1 & O1 & B1)| -> ]; destruct E2 as [(r2 & Q & R2 & _ & G2 & P2 & O2 & B2)|Q]; try discriminate Q.
  - apply known_text_inj in Q; [|exact G1|exact G2]. subst r2.
    assert (T := PropKnow.C15_injective_on_knowable sc _ _ r1 W (rows_in w1 H1) (rows_in w2 H2) P1 B1 B2 R1 R2).
    unfold rows_of in T. rewrite !map_map in T. apply Forall2_map_eq in T. apply Forall2_eq. revert T. apply Forall2_impl_in. intros x y Hx Hy Q.
    destruct (is_letter_letter sc names W GN x (H1 x Hx)) as (p & c & s & o & v & os & LX). destruct (is_letter_letter sc names W GN y (H2 y Hy)) as (p' & c' & s' & o' & v' & os' & LY).
    assert (EX := l_row' _ _ _ _ _ _ _ _ _ LX). assert (EY := l_row' _ _ _ _ _ _ _ _ _ LY). unfold row_of in EX, EY. rewrite EX, EY, !take3_mkrow in Q. injection Q as Q1 Q2 Q3. assert (p' = p) by lia. subst p' s' o'.
    assert (C := first_copies_eq sc names W GN w1 w2 x y A1 A2 O1 O2 Hx Hy). rewrite (l_dict _ _ _ _ _ _ _ _ _ LX), (l_dict _ _ _ _ _ _ _ _ _ LY) in C. cbn [dict_of i_party i_copies] in C. specialize (C eq_refl). subst c'.
    apply (letter_inj sc names W GN); [apply H1, Hx|apply H2, Hy|]. unfold row_of. rewrite EX, EY. reflexivity.
  - apply (sapp_cancel "<") in Q. apply sapp_cancel_r in Q. apply (concat_inj " ") in Q.
    + apply Forall2_map_eq in Q. apply Forall2_eq. revert Q. apply Forall2_impl_in. intros x y Hx Hy. apply old_letter_inj; [apply H1, Hx|apply H2, Hy].
    + intros s Hs. apply in_map_iff in Hs as (x & <- & Hx). apply old_name_inside; [apply (D_nice sc names W GN), H1, Hx|intros c Hc; char_cases c Hc|reflexivity|reflexivity].
    + intros s Hs. apply in_map_iff in Hs as (x & <- & Hx). apply old_name_inside; [apply (D_nice sc names W GN), H2, Hx|intros c Hc; char_cases c Hc|reflexivity|reflexivity].
    + assert (w1 <> []) by apply A1. assert (w2 <> []) by apply A2. split; intros G; apply map_eq_nil in G; contradiction.
Qed.
Lemma legacy_inj w1 w2 n : atom_word sc w1 -> atom_word sc w2 -> legacy_name sc names w1 = Some n -> legacy_name sc names w2 = Some n -> w1 = w2.
Proof.
  intros A1 A2 E1 E2. apply (legacy_forms_inj w1 w2 n (atom_first sc w1 A1) (atom_first sc w2 A2)).
  - exact (legacy_form w1 n A1 E1).
  - exact (legacy_form w2 n A2 E2).
Qed.
End Legacy.
