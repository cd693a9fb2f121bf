(** Texts: splitting, numerals, joined lists; names of operators determine them. *)
From Coq Require Import List Arith Bool Ascii String DecimalString DecimalNat Lia.
From Verif Require Import NameModel NameSpec ProgramModel.
Import ListNotations.
Open Scope string_scope. Open Scope nat_scope. Open Scope list_scope.

Definition starts (f : ascii -> bool) (s : string) : Prop :=
  match s with EmptyString => True | String c _ => f c = true end.
Lemma sapp_assoc (a b c : string) : ((a ++ b) ++ c = a ++ (b ++ c))%string.
Proof. induction a as [|x a IH]; [reflexivity|]. cbn [String.append]. rewrite IH. reflexivity. Qed.
Lemma sapp_nil (a : string) : (a ++ "" = a)%string.
Proof. induction a as [|x a IH]; [reflexivity|]. cbn [String.append]. rewrite IH. reflexivity. Qed.
Lemma every_app f a b : every f (a ++ b)%string = every f a && every f b.
Proof. induction a as [|x a IH]; [reflexivity|]. cbn [String.append every]. rewrite IH, andb_assoc. reflexivity. Qed.
Lemma every_impl (f g : ascii -> bool) s : (forall c, f c = true -> g c = true) -> every f s = true -> every g s = true.
Proof. intros H. induction s as [|x a IH]; [reflexivity|]. cbn [every]. rewrite !andb_true_iff. intros [A B]. auto. Qed.
(** the point where a text is first left by a class of characters *)
Lemma split_eq f s1 : forall t1 s2 t2, every (fun c => negb (f c)) s1 = true -> every (fun c => negb (f c)) s2 = true ->
  starts f t1 -> starts f t2 -> (s1 ++ t1)%string = (s2 ++ t2)%string -> s1 = s2 /\ t1 = t2.
Proof.
  induction s1 as [|a s1 IH]; intros t1 s2 t2 E1 E2 T1 T2 E.
  - destruct s2 as [|b s2]; [auto|]. cbn [String.append] in E. subst t1. cbn [starts every] in *. apply andb_true_iff in E2 as [E2 _]. rewrite T1 in E2. discriminate.
  - destruct s2 as [|b s2].
    + cbn [String.append] in E. subst t2. cbn [starts every] in *. apply andb_true_iff in E1 as [E1 _]. rewrite T2 in E1. discriminate.
    + cbn [String.append] in E. injection E as <- E. cbn [every] in *. apply andb_true_iff in E1 as [_ E1]. apply andb_true_iff in E2 as [_ E2].
      destruct (IH t1 s2 t2 E1 E2 T1 T2 E) as [-> ->]. auto.
Qed.
(** cancelling a common beginning *)
Lemma sapp_cancel s t1 t2 : (s ++ t1)%string = (s ++ t2)%string -> t1 = t2.
Proof. induction s as [|a s IH]; intros E; [exact E|]. injection E as E. auto. Qed.
Lemma sapp_cancel_r s1 : forall s2 t, (s1 ++ t)%string = (s2 ++ t)%string -> s1 = s2.
Proof.
  assert (L : forall a b : string, String.length (a ++ b)%string = String.length a + String.length b) by (induction a; cbn; intros; [reflexivity|]; rewrite IHa; reflexivity).
  induction s1 as [|a s1 IH]; intros [|b s2] t E; [reflexivity| | |].
  - apply (f_equal String.length) in E. cbn [String.append String.length] in E. rewrite L in E. lia.
  - apply (f_equal String.length) in E. cbn [String.append String.length] in E. rewrite L in E. lia.
  - cbn [String.append] in E. injection E as <- E. f_equal. exact (IH _ _ E).
Qed.

(** ** Numerals *)
Definition digit (c : ascii) : bool := let k := nat_of_ascii c in (48 <=? k)%nat && (k <=? 57)%nat.
Lemma digits_uint u : every digit (NilEmpty.string_of_uint u) = true.
Proof. induction u; cbn [NilEmpty.string_of_uint every]; rewrite ?IHu; reflexivity. Qed.
Lemma dec_digits i : every digit (dec i) = true.
Proof. apply digits_uint. Qed.
Lemma dec_inj i j : dec i = dec j -> i = j.
Proof.
  unfold dec. intros E. apply (f_equal NilEmpty.uint_of_string) in E. rewrite !NilEmpty.usu in E. injection E as E. apply DecimalNat.Unsigned.to_uint_inj. exact E.
Qed.
Lemma dec_nonempty i : dec i <> "".
Proof.
  unfold dec. destruct (Nat.to_uint i) eqn:E; try discriminate. exfalso.
  assert (Nat.of_uint (Nat.to_uint i) = Nat.of_uint Decimal.Nil) by (rewrite E; reflexivity). rewrite DecimalNat.Unsigned.of_to in H. cbn in H. subst i. discriminate E.
Qed.
(** a class of characters without digits *)
Definition no_digit (f : ascii -> bool) : Prop := forall c, digit c = true -> f c = false.
Lemma dec_avoids f i : no_digit f -> every (fun c => negb (f c)) (dec i) = true.
Proof. intros N. apply (every_impl digit); [intros c Hc; rewrite (N c Hc); reflexivity|apply dec_digits]. Qed.
Ltac nodigit := let c := fresh in let H := fresh in intros c H; destruct c as [[] [] [] [] [] [] [] []]; try (vm_compute in H; discriminate H); reflexivity.

(** ** Joined lists *)
Definition isc (c : ascii) : ascii -> bool := Ascii.eqb c.
Definition without (c : ascii) (s : string) : Prop := every (fun d => negb (isc c d)) s = true.
Lemma concat_cons c x l : String.concat (String c "") (x :: l) = (x ++ match l with [] => "" | _ => String c (String.concat (String c "") l) end)%string.
Proof. destruct l as [|y l]; [cbn [String.concat]; symmetry; apply sapp_nil|]. reflexivity. Qed.
Lemma concat_inj c l1 : forall l2, (forall s, In s l1 -> without c s) -> (forall s, In s l2 -> without c s) ->
  (l1 = [] <-> l2 = []) -> String.concat (String c "") l1 = String.concat (String c "") l2 -> l1 = l2.
Proof.
  induction l1 as [|x l1 IH]; intros [|y l2] H1 H2 N E; try reflexivity.
  - exfalso. destruct N as [N _]. specialize (N eq_refl). discriminate.
  - exfalso. destruct N as [_ N]. specialize (N eq_refl). discriminate.
  - rewrite !concat_cons in E.
    assert (T : forall l, starts (isc c) match l with [] => "" | _ :: _ => String c (String.concat (String c "") l) end) by (intros [|z l]; [exact I|apply Ascii.eqb_refl]).
    destruct (split_eq (isc c) _ _ _ _ (H1 x (or_introl eq_refl)) (H2 y (or_introl eq_refl)) (T l1) (T l2) E) as [-> E'].
    f_equal. apply IH; [intros s Hs; apply H1; right; exact Hs|intros s Hs; apply H2; right; exact Hs| |].
    + destruct l1, l2; split; intros Q; try reflexivity; try discriminate; discriminate E'.
    + destruct l1, l2; try reflexivity; try discriminate E'. injection E' as E'. exact E'.
Qed.
Lemma every_concat f c l : f c = true -> (forall s, In s l -> every f s = true) -> every f (String.concat (String c "") l) = true.
Proof.
  intros Hc. induction l as [|x l IH]; intros H; [reflexivity|]. rewrite concat_cons, every_app, (H x (or_introl eq_refl)). cbn [andb].
  destruct l as [|y l]; [reflexivity|]. cbn [every]. rewrite Hc. apply IH. intros s Hs. apply H. right. exact Hs.
Qed.
Lemma map_dec_inj l1 : forall l2, map dec l1 = map dec l2 -> l1 = l2.
Proof. induction l1 as [|a l1 IH]; intros [|b l2] E; try discriminate E; [reflexivity|]. injection E as E1 E2. apply dec_inj in E1. f_equal; auto. Qed.
(** joined numerals followed by a character that is neither a digit nor the separator *)
Lemma joined_digits c l : every (fun d => digit d || isc c d) (String.concat (String c "") (map dec l)) = true.
Proof.
  apply every_concat; [unfold isc; rewrite Ascii.eqb_refl, orb_true_r; reflexivity|]. intros s Hs. apply in_map_iff in Hs as (i & <- & _).
  apply (every_impl digit); [intros d ->; reflexivity|apply dec_digits].
Qed.
Lemma joined_inj c f l1 l2 t1 t2 : no_digit f -> f c = false -> digit c = false -> (l1 = [] <-> l2 = []) ->
  starts f t1 -> starts f t2 ->
  (String.concat (String c "") (map dec l1) ++ t1 = String.concat (String c "") (map dec l2) ++ t2)%string -> l1 = l2 /\ t1 = t2.
Proof.
  intros N Hc Hd Hn T1 T2 E.
  assert (A : forall l, every (fun d => negb (f d)) (String.concat (String c "") (map dec l)) = true).
  { intros l. apply (every_impl (fun d => digit d || isc c d)); [|apply joined_digits]. intros d Hx. apply orb_true_iff in Hx as [Hx|Hx]; [rewrite (N d Hx); reflexivity|].
    apply Ascii.eqb_eq in Hx. subst d. rewrite Hc. reflexivity. }
  destruct (split_eq f _ _ _ _ (A l1) (A l2) T1 T2 E) as [E1 E2]. split; [|exact E2]. apply map_dec_inj, (concat_inj c); [| | |exact E1].
  - intros s Hs. apply in_map_iff in Hs as (i & <- & _). apply dec_avoids. intros d Hx. unfold isc. destruct (Ascii.eqb c d) eqn:Q; [|reflexivity]. apply Ascii.eqb_eq in Q. subst d. congruence.
  - intros s Hs. apply in_map_iff in Hs as (i & <- & _). apply dec_avoids. intros d Hx. unfold isc. destruct (Ascii.eqb c d) eqn:Q; [|reflexivity]. apply Ascii.eqb_eq in Q. subst d. congruence.
  - destruct l1, l2; cbn [map]; intuition discriminate.
Qed.

(** ** Names of operators *)
Definition nice (s : string) : Prop := every name_char s = true.
Definition within (l : list ascii) (c : ascii) : bool := existsb (Ascii.eqb c) l.
Ltac char_cases c H := destruct c as [[] [] [] [] [] [] [] []]; try (vm_compute in H; discriminate H); reflexivity.
(** characters that are neither in names nor digits *)
Definition special (f : ascii -> bool) : Prop := forall c, name_char c = true -> f c = false.
Lemma special_digit f : special f -> no_digit f.
Proof. intros H c Hc. apply H. char_cases c Hc. Qed.
Lemma nice_avoids f s : special f -> nice s -> every (fun c => negb (f c)) s = true.
Proof. intros F. apply every_impl. intros c Hc. rewrite (F c Hc). reflexivity. Qed.
Lemma special_within l : forallb (fun c => negb (name_char c)) l = true -> special (within l).
Proof.
  intros H c Hc. unfold within. destruct (existsb (Ascii.eqb c) l) eqn:E; [|reflexivity]. apply existsb_exists in E as (d & Hd & Q). apply Ascii.eqb_eq in Q. subst d.
  rewrite forallb_forall in H. specialize (H c Hd). rewrite Hc in H. discriminate.
Qed.
Lemma dec_nice i : nice (dec i).
Proof. apply (every_impl digit); [intros c Hc; char_cases c Hc|apply dec_digits]. Qed.

Definition do_suffix (d : list (string * nat)) : string :=
  match d with [] => "" | _ => ("|do(" ++ String.concat "," (map do_text d) ++ ")")%string end.
Definition nice_keys (d : list (string * nat)) : Prop := forall kv, In kv d -> nice (fst kv).
Lemma do_text_inj a b : nice (fst a) -> nice (fst b) -> do_text a = do_text b -> a = b.
Proof.
  unfold do_text. intros A B E. assert (S : special (within ["="%char])) by (apply special_within; reflexivity).
  apply (split_eq (within ["="%char])) in E as [E1 E2]; [|apply nice_avoids; assumption|apply nice_avoids; assumption|reflexivity|reflexivity].
  injection E2 as E2. apply dec_inj in E2. destruct a, b; cbn [fst snd] in *. congruence.
Qed.
Lemma do_text_chars kv : nice (fst kv) -> every (fun c => name_char c || isc "=" c) (do_text kv) = true.
Proof.
  intros N. unfold do_text. rewrite !every_app. assert (K : forall s, nice s -> every (fun c => name_char c || isc "=" c) s = true) by (intros s; apply every_impl; intros c ->; reflexivity).
  rewrite (K _ N), (K _ (dec_nice _)). reflexivity.
Qed.
Lemma map_do_text_inj d1 : forall d2, nice_keys d1 -> nice_keys d2 -> map do_text d1 = map do_text d2 -> d1 = d2.
Proof.
  induction d1 as [|a d1 IH]; intros [|b d2] N1 N2 E; try discriminate E; [reflexivity|]. cbn [map] in E. injection E as E1 E2. f_equal.
  - apply do_text_inj; [apply N1; left; reflexivity|apply N2; left; reflexivity|exact E1].
  - apply IH; [intros kv H; apply N1; right; exact H|intros kv H; apply N2; right; exact H|exact E2].
Qed.
Lemma do_suffix_inj d1 d2 : nice_keys d1 -> nice_keys d2 -> do_suffix d1 = do_suffix d2 -> d1 = d2.
Proof.
  intros N1 N2. unfold do_suffix. destruct d1 as [|a d1], d2 as [|b d2]; try (intros E; discriminate E); [reflexivity|]. intros E.
  apply sapp_cancel in E. apply sapp_cancel_r in E. apply map_do_text_inj; try assumption.
  apply (concat_inj ","); [| |split; intros Q; discriminate Q|exact E].
  - intros s Hs. apply in_map_iff in Hs as (kv & <- & Hk). apply (every_impl (fun c => name_char c || isc "=" c)); [|apply do_text_chars, N1, Hk].
    intros c Hc. apply orb_true_iff in Hc as [Hc|Hc]; [char_cases c Hc|apply Ascii.eqb_eq in Hc; subst c; reflexivity].
  - intros s Hs. apply in_map_iff in Hs as (kv & <- & Hk). apply (every_impl (fun c => name_char c || isc "=" c)); [|apply do_text_chars, N2, Hk].
    intros c Hc. apply orb_true_iff in Hc as [Hc|Hc]; [char_cases c Hc|apply Ascii.eqb_eq in Hc; subst c; reflexivity].
Qed.
(** the characters of a do-suffix: no blank, no star, no closing bracket, ... *)
Definition inside (c : ascii) : bool := negb (within [" "; "*"; "]"; ">"; "<"; "["; "226"]%char c).
Lemma nice_inside s : nice s -> every inside s = true.
Proof. apply every_impl. intros c Hc. char_cases c Hc. Qed.
Lemma do_suffix_inside d : nice_keys d -> every inside (do_suffix d) = true.
Proof.
  intros N. unfold do_suffix. destruct d as [|a d]; [reflexivity|]. rewrite !every_app. rewrite (every_concat inside ","); [reflexivity|reflexivity|].
  intros s Hs. apply in_map_iff in Hs as (kv & <- & Hk). apply (every_impl (fun c => name_char c || isc "=" c)); [|apply do_text_chars, N, Hk].
  intros c Hc. apply orb_true_iff in Hc as [Hc|Hc]; [char_cases c Hc|apply Ascii.eqb_eq in Hc; subst c; reflexivity].
Qed.

Definition copies_text (d : interp) : string :=
  ((match i_relevant d with [] => "" | _ => "^{" ++ String.concat "," (map dec (i_relevant d)) ++ "}" end)
   ++ "_" ++ String.concat "_" (map dec (i_copies d)))%string.
Definition private_text (d : interp) : string := if i_private_trivial d then "" else ("_" ++ dec (i_private d))%string.
Lemma name_parts d inc : interpretation_to_name d inc =
  (i_party d ++ (private_text d ++ ((if inc then copies_text d else "") ++ ("=" ++ (dec (i_outcome d) ++ do_suffix (i_do d))))))%string.
Proof. reflexivity. Qed.
(** well-formed dictionaries *)
Record nice_dict (d : interp) : Prop := {
  nd_party : nice (i_party d); nd_keys : nice_keys (i_do d); nd_copies : i_copies d <> []; nd_relevant : i_relevant d <> [] }.
Definition ends_name (c : ascii) : bool := within ["_"; "^"; "="]%char c.
Lemma tail_starts (inc : bool) d s : starts ends_name ((if inc then copies_text d else "") ++ ("=" ++ s))%string.
Proof. destruct inc; [|reflexivity]. unfold copies_text. destruct (i_relevant d); reflexivity. Qed.
Lemma name_inj inc d1 d2 : nice_dict d1 -> nice_dict d2 ->
  (i_party d1 = i_party d2 -> i_private_trivial d1 = i_private_trivial d2) ->
  interpretation_to_name d1 inc = interpretation_to_name d2 inc ->
  i_party d1 = i_party d2 /\ (i_private_trivial d1 = false -> i_private d1 = i_private d2) /\
  (inc = true -> i_copies d1 = i_copies d2) /\ i_outcome d1 = i_outcome d2 /\ i_do d1 = i_do d2.
Proof.
  intros [N1 K1 C1 R1] [N2 K2 C2 R2] HT E. rewrite !name_parts in E.
  assert (S1 : special ends_name) by (apply special_within; reflexivity).
  apply (split_eq ends_name) in E as [EP E]; [|apply nice_avoids; assumption|apply nice_avoids; assumption| |].
  2: { unfold private_text. destruct (i_private_trivial d1); [apply tail_starts|reflexivity]. }
  2: { unfold private_text. destruct (i_private_trivial d2); [apply tail_starts|reflexivity]. }
  split; [exact EP|]. specialize (HT EP).
  assert (E2 : (i_private_trivial d1 = false -> i_private d1 = i_private d2) /\
     ((if inc then copies_text d1 else "") ++ ("=" ++ (dec (i_outcome d1) ++ do_suffix (i_do d1))) =
      (if inc then copies_text d2 else "") ++ ("=" ++ (dec (i_outcome d2) ++ do_suffix (i_do d2))))%string).
  { unfold private_text in E. rewrite <- HT in E. destruct (i_private_trivial d1); [split; [discriminate|exact E]|].
    rewrite !sapp_assoc in E. apply sapp_cancel in E.
    apply (split_eq ends_name) in E as [E3 E4]; [|apply dec_avoids, special_digit, S1|apply dec_avoids, special_digit, S1|apply tail_starts|apply tail_starts].
    apply dec_inj in E3. auto. }
  destruct E2 as [E2 E3]. split; [exact E2|].
  assert (E4 : (inc = true -> i_copies d1 = i_copies d2) /\
     (dec (i_outcome d1) ++ do_suffix (i_do d1) = dec (i_outcome d2) ++ do_suffix (i_do d2))%string).
  { destruct inc; [|split; [discriminate|apply (sapp_cancel "="); exact E3]]. unfold copies_text in E3.
    destruct (i_relevant d1) as [|x1 r1]; [contradiction|]. destruct (i_relevant d2) as [|x2 r2]; [contradiction|].
    rewrite !sapp_assoc in E3. apply sapp_cancel in E3.
    apply (joined_inj "," (isc "}")) in E3 as [_ E3]; [|nodigit|reflexivity|reflexivity|split; intros Q; discriminate Q|reflexivity|reflexivity].
    do 2 apply sapp_cancel in E3.
    apply (joined_inj "_" (isc "=")) in E3 as [E3 E5]; [|nodigit|reflexivity|reflexivity|split; intros Q; contradiction|reflexivity|reflexivity].
    split; [auto|]. apply (sapp_cancel "="); exact E5. }
  destruct E4 as [E4 E5]. split; [exact E4|].
  apply (split_eq (isc "|")) in E5 as [E6 E7]; [|apply dec_avoids; nodigit|apply dec_avoids; nodigit|unfold do_suffix; destruct (i_do d1); [exact I|reflexivity]|unfold do_suffix; destruct (i_do d2); [exact I|reflexivity]].
  split; [apply dec_inj, E6|]. apply do_suffix_inj; assumption.
Qed.
