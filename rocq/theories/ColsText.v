(** Proofs about column generation: reading the text of a specification. *)
From Coq Require Import String Ascii Decimal DecimalString DecimalNat.
From Verif Require Import ScenarioModel ColsModel LPWriteModel LPWriteSpec LPWriteProofs.
Open Scope list_scope. Open Scope nat_scope. Open Scope string_scope.

Lemma dec_nonempty k : dec k <> "".
Proof.
  unfold dec. intros H. assert (E : Nat.to_uint k = Nil).
  { apply (f_equal NilEmpty.uint_of_string) in H. rewrite NilEmpty.usu in H. injection H as H. exact H. }
  pose proof (f_equal Nat.of_uint E) as E2. rewrite Unsigned.of_to in E2. change (k = 0) in E2. subst k. discriminate E.
Qed.
Lemma py_int_dec k : py_int (dec k) = Some k.
Proof.
  unfold py_int. destruct (dec k) eqn:E; [exfalso; eapply dec_nonempty, E|]. rewrite <- E. unfold dec. rewrite NilEmpty.usu, Unsigned.of_to. reflexivity.
Qed.
Lemma dec_digits k : all_chars digit (dec k) = true.
Proof. apply digits_uint. Qed.
Lemma lower_digits s : all_chars digit s = true -> lower s = s.
Proof.
  induction s as [|c s IH]; [reflexivity|]. cbn [all_chars lower]. intros H. apply andb_true_iff in H as [H1 H2]. rewrite IH by exact H2. f_equal.
  revert H1. destruct c as [[] [] [] [] [] [] [] []]; vm_compute; intros H; try reflexivity; discriminate H.
Qed.
Lemma lower_app a b : lower (a ++ b) = lower a ++ lower b.
Proof. induction a as [|c a IH]; cbn [append lower]; [reflexivity|]. rewrite IH. reflexivity. Qed.
(** a text without one of the characters of a pattern does not contain the pattern *)
Lemma contains_char c pat1 pat2 s : all_chars (fun x => negb (Ascii.eqb x c)) s = true -> contains (pat1 ++ String c pat2) s = false.
Proof.
  induction s as [|x s IH]; intros H; cbn [contains].
  - destruct pat1; reflexivity.
  - pose proof H as H0. cbn [all_chars] in H. apply andb_true_iff in H as [_ H2]. rewrite IH by exact H2. rewrite orb_false_r.
    revert H0. generalize (String x s). clear. induction pat1 as [|y pat1 IH]; intros s H; cbn [append prefix].
    + destruct s as [|z s]; [reflexivity|]. cbn [prefix]. destruct (ascii_dec c z) as [->|]; [|reflexivity]. cbn [all_chars] in H. rewrite Ascii.eqb_refl in H. discriminate.
    + destruct s as [|z s]; [reflexivity|]. cbn [prefix]. destruct (ascii_dec y z); [|reflexivity]. apply IH. cbn [all_chars] in H. apply andb_true_iff in H. tauto.
Qed.
Lemma digits_not c s : digit c = false -> all_chars digit s = true -> all_chars (fun x => negb (Ascii.eqb x c)) s = true.
Proof.
  intros Hc. apply all_chars_impl. intros x Hx. apply negb_true_iff, Ascii.eqb_neq. intros ->. congruence.
Qed.

Theorem parse_npa P k : parse_spec P ("npa" ++ dec k) = Some (Npa k).
Proof.
  unfold parse_spec. change (contains "npa" (lower ("npa" ++ dec k))) with (prefix "" (lower (dec k)) || match lower ("npa" ++ dec k) with "" => false | String _ s' => contains "npa" s' end)%bool.
  replace (prefix "" (lower (dec k))) with true by (destruct (lower (dec k)); reflexivity). cbn [orb].
  change (drop 3 ("npa" ++ dec k)) with (dec k). rewrite py_int_dec. reflexivity.
Qed.
Lemma local_text s : all_chars digit s = true -> contains "npa" (lower ("local" ++ s)) = false /\ contains "local" (lower ("local" ++ s)) = true.
Proof.
  intros H. rewrite lower_app, (lower_digits s H). split.
  - apply (contains_char "n" "" "pa"). rewrite all_chars_app, (digits_not "n" s eq_refl H). reflexivity.
  - cbn. destruct s; reflexivity.
Qed.
Lemma physical_text s : all_chars digit s = true -> contains "npa" (lower ("physical" ++ s)) = false /\ contains "local" (lower ("physical" ++ s)) = false /\
  contains "physical" (lower ("physical" ++ s)) = true.
Proof.
  intros H. rewrite lower_app, (lower_digits s H). split; [|split].
  - apply (contains_char "n" "" "pa"). rewrite all_chars_app, (digits_not "n" s eq_refl H). reflexivity.
  - apply (contains_char "o" "l" "cal"). rewrite all_chars_app, (digits_not "o" s eq_refl H). reflexivity.
  - cbn. destruct s; reflexivity.
Qed.
Definition lengths_of (P : nat) (s : string) : option (list nat) :=
  if (String.length s =? P)%nat then int_chars s else match py_int s with Some l => Some (repeat l P) | None => None end.
Lemma parse_local P s : all_chars digit s = true -> s <> "" ->
  parse_spec P ("local" ++ s) = match lengths_of P s with Some ls => Some (Local ls) | None => None end.
Proof.
  intros H NE. unfold parse_spec. destruct (local_text s H) as [-> ->]. cbn [orb].
  change (substring 0 5 ("local" ++ s)) with (String "l" (String "o" (String "c" (String "a" (String "l" (substring 0 0 s)))))).
  assert (substring 0 0 s = "") as -> by (destruct s; reflexivity). change (if string_dec _ "local" then true else false) with true.
  change (drop 5 ("local" ++ s)) with s. destruct s as [|c s]; [congruence|]. fold (lengths_of P (String c s)). destruct (lengths_of P (String c s)); reflexivity.
Qed.
Lemma parse_physical P s : all_chars digit s = true -> s <> "" ->
  parse_spec P ("physical" ++ s) = match lengths_of P s with Some ls => Some (Physical (map (@Some nat) ls)) | None => None end.
Proof.
  intros H NE. unfold parse_spec. destruct (physical_text s H) as (-> & -> & ->). cbn [orb].
  change (substring 0 8 ("physical" ++ s)) with (String "p" (String "h" (String "y" (String "s" (String "i" (String "c" (String "a" (String "l" (substring 0 0 s))))))))).
  assert (substring 0 0 s = "") as -> by (destruct s; reflexivity). change (if string_dec _ "local" then true else false) with false.
  change (drop 8 ("physical" ++ s)) with s. destruct s as [|c s]; [congruence|]. fold (lengths_of P (String c s)). destruct (lengths_of P (String c s)); reflexivity.
Qed.
(** the same length for every party *)
Lemma lengths_same P k : String.length (dec k) <> P -> lengths_of P (dec k) = Some (repeat k P).
Proof. intros H. unfold lengths_of. apply Nat.eqb_neq in H. rewrite H, py_int_dec. reflexivity. Qed.
(** one digit for each party *)
Definition digits (ls : list nat) : string := cat (map dec ls).
Lemma dec_small k : (k < 10)%nat -> exists c, dec k = String c "" /\ py_int (String c "") = Some k.
Proof. intros H. do 10 (destruct k as [|k]; [eexists; split; reflexivity|]). lia. Qed.
Lemma digits_chars ls : Forall (fun k => k < 10)%nat ls -> String.length (digits ls) = List.length ls /\ int_chars (digits ls) = Some ls /\ all_chars digit (digits ls) = true.
Proof.
  induction 1 as [|k ls H _ (I1 & I2 & I3)]; [repeat split|]. unfold digits in *. cbn [map]. rewrite cat_cons. pose proof (dec_digits k) as Hd. destruct (dec_small k H) as (c & E & Ei). rewrite E in *.
  cbn [append String.length List.length int_chars all_chars]. rewrite I1, I2, Ei, I3. split; [reflexivity|]. split; [reflexivity|]. cbn [all_chars] in Hd. exact Hd.
Qed.
Lemma lengths_digits ls : Forall (fun k => k < 10)%nat ls -> lengths_of (List.length ls) (digits ls) = Some ls.
Proof. intros H. destruct (digits_chars ls H) as (E1 & E2 & _). unfold lengths_of. rewrite E1, Nat.eqb_refl. exact E2. Qed.
