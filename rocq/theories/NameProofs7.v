(** The dictionary of moments. *)
From Coq Require Import List Arith Bool Ascii String Lia Permutation Sorted.
From Verif Require Import CanonModel CanonSpec CanonProofs ScenarioModel ScenarioSpec ScenarioProofs SymModel SymProofs ColumnModel ColumnSpec ColumnProofs ColumnProofs3 ColsModel ColsProofs3 ColsProofs4 MemoModel MemoSpec MemoProofs ProgramModel NameModel NameSpec NameProofs NameProofs2 NameProofs3 NameProofs4 NameProofs5 NameProofs6.
Import ListNotations.
Open Scope string_scope. Open Scope nat_scope. Open Scope list_scope.

Definition f_name : ascii -> bool := within ["]"; ">"]%char.
Definition f_legacy : ascii -> bool := within [")"; ">"]%char.
Lemma class_name : class f_name.
Proof. constructor; [nodigit|reflexivity|reflexivity]. Qed.
Lemma class_legacy : class f_legacy.
Proof. constructor; [nodigit|reflexivity|reflexivity]. Qed.
Definition no_eq : ascii -> bool := fun c => negb (isc "=" c).

Section Book.
Variables (sc : scenario) (names : list string) (conj : word -> word).
Hypotheses (W : wf_scenario sc) (GN : good_names sc names) (PF : prefix_free names) (CJ : conjugates sc conj).
Notation D := (D sc names).
Notation atom_word := (atom_word sc).

Lemma form_closed bb cl inc w : w <> [] -> letters sc w -> let n := brackets bb (map (inner sc names cl inc w) w) in closed f_name n /\ every no_eq n = false.
Proof.
  intros A H n. unfold n.
  assert (B : forall f, (forall c, inside c = true -> f c = false) -> f " "%char = false -> every (fun d => negb (f d)) (String.concat " " (map (inner sc names cl inc w) w)) = true).
  { intros f F1 F2. apply every_concat; [rewrite F2; reflexivity|]. intros s Hs. apply in_map_iff in Hs as (x & <- & Hx). apply (every_impl inside); [intros c Hc; rewrite (F1 c Hc); reflexivity|].
    apply name_inside, (inner_nice sc names W GN), H, Hx. }
  assert (S1 : every (fun d => negb (f_name d)) (String.concat " " (map (inner sc names cl inc w) w)) = true) by (apply B; [intros c Hc; char_cases c Hc|reflexivity]).
  assert (S2 : without "*" (String.concat " " (map (inner sc names cl inc w) w))) by (unfold without; apply (B (isc "*")); [intros c Hc; char_cases c Hc|reflexivity]).
  assert (S3 : every no_eq (String.concat " " (map (inner sc names cl inc w) w)) = false).
  { destruct w as [|x w0] eqn:Ew; [contradiction|]. rewrite <- Ew in *. rewrite Ew at 2. cbn [map]. rewrite concat_cons, every_app. unfold inner at 1. rewrite name_parts, !every_app. cbn [every]. change (no_eq "=") with false. cbn [andb]. rewrite !andb_false_r. reflexivity. }
  unfold without in S2. unfold brackets. destruct bb; cbn [String.append every]; split.
  - exists ("P[" ++ String.concat " " (map (inner sc names cl inc w) w))%string, "]"%char. split; [reflexivity|]. split; [exact S1|]. split; [reflexivity|]. unfold without. cbn [every]. rewrite every_app, S2. reflexivity.
  - rewrite every_app, S3. cbn [andb]. rewrite ?andb_false_r. reflexivity.
  - exists ("<" ++ String.concat " " (map (inner sc names cl inc w) w))%string, ">"%char. split; [reflexivity|]. split; [exact S1|]. split; [reflexivity|]. unfold without. cbn [every]. rewrite every_app, S2. reflexivity.
  - rewrite every_app, S3. cbn [andb]. rewrite ?andb_false_r. reflexivity.
Qed.
Lemma named_closed w n : atom_word w -> named sc names w n -> closed f_name n /\ every no_eq n = false.
Proof.
  intros A N. destruct (named_form sc names W GN w n A N) as (cl & inc & -> & _). apply form_closed; [apply A|exact (atom_letters sc w A)].
Qed.
Lemma form_body w n : letters sc w -> known_form sc names w n \/ old_form sc names w n -> exists b c, n = (b ++ String c "")%string /\ (c = ")"%char \/ c = ">"%char) /\
  forall f, special f -> forallb (fun c => negb (f c)) ["("; "|"; ","; "<"; " "; "_"; "226"; "136"; "133"]%char = true -> every (fun d => negb (f d)) b = true.
Proof.
  intros H E. unfold known_form, old_form in E. destruct E as [(rect & -> & _ & _ & G & _)| -> ].
  - unfold known_text. set (P := String.concat "" _). set (O := String.concat (divider (map dec (map _ rect))) _). set (J := String.concat _ _).
    exists ("p" ++ P ++ "(" ++ O ++ "|" ++ J)%string, ")"%char. split; [cbn [String.append]; rewrite !sapp_assoc; cbn [String.append]; rewrite !sapp_assoc; reflexivity|]. split; [left; reflexivity|].
    intros f Sp F. cbn [forallb] in F. rewrite !andb_true_iff in F. destruct F as (F1 & F2 & F3 & _).
    assert (DV : forall l, every (fun d => negb (f d)) (String.concat (divider (map dec l)) (map dec l)) = true).
    { intros l. apply (every_impl (fun d => digit d || isc "," d)); [|apply divided_digits]. intros d Hd. apply orb_true_iff in Hd as [Hd|Hd]; [rewrite (special_digit f Sp d Hd); reflexivity|].
      apply Ascii.eqb_eq in Hd. subst d. exact F3. }
    rewrite !every_app. unfold O, J. rewrite !DV. cbn [every]. rewrite F1, F2, (Sp "p"%char eq_refl). cbn [negb andb].
    unfold P. rewrite every_concat0; [reflexivity|]. intros s Hs. apply in_map_iff in Hs as (r & <- & Hr). apply nice_avoids; [exact Sp|]. apply (name_nice sc names GN). destruct (G r Hr) as [_ Q]. lia.
  - exists ("<" ++ String.concat " " (map (fun x => old_name (D x)) w))%string, ">"%char. split; [reflexivity|]. split; [right; reflexivity|].
    intros f Sp F. cbn [forallb] in F. rewrite !andb_true_iff in F. destruct F as (F1 & F2 & F3 & F4 & F5 & F6 & F7 & F8 & F9 & _). cbn [String.append every]. rewrite F4. cbn [andb].
    apply every_concat; [exact F5|]. intros s Hs. apply in_map_iff in Hs as (x & <- & Hx). apply old_name_inside; [apply (D_nice sc names W GN), H, Hx|exact Sp|apply negb_true_iff; exact F6|].
    cbn [every]. rewrite F7, F8, F9. reflexivity.
Qed.
Lemma form_legacy_closed w n : letters sc w -> known_form sc names w n \/ old_form sc names w n -> closed f_legacy n /\ every no_eq n = true.
Proof.
  intros A E. destruct (form_body w n A E) as (b & c & -> & Hc & B).
  assert (B1 : every (fun d => negb (f_legacy d)) b = true) by (apply B; [intros x Hx; char_cases x Hx|reflexivity]).
  assert (B2 : every (fun d => negb (isc "*" d)) b = true) by (apply B; [intros x Hx; char_cases x Hx|reflexivity]).
  assert (B3 : every (fun d => negb (isc "=" d)) b = true) by (apply B; [intros x Hx; char_cases x Hx|reflexivity]).
  split.
  - exists b, c. split; [reflexivity|]. split; [exact B1|]. split; [destruct Hc as [-> | ->]; reflexivity|]. unfold without. rewrite every_app, B2. destruct Hc as [-> | ->]; reflexivity.
  - unfold no_eq. rewrite every_app, B3. destruct Hc as [-> | ->]; reflexivity.
Qed.
Lemma legacy_closed w n : atom_word w -> legacy_name sc names w = Some n -> closed f_legacy n /\ every no_eq n = true.
Proof. intros A E. exact (form_legacy_closed w n (atom_letters sc w A) (legacy_form sc names W GN w n A E)). Qed.

(** ** Atoms as objects *)
Definition good_atom (fl : bool) (a : atom) : Prop :=
  atom_word (a_word a) /\ named sc names (a_word a) (a_name a) /\ legacy_name sc names (if fl then conj (a_word a) else a_word a) = Some (a_legacy a).
Lemma new_atom_good w : atom_word w -> exists a, new_atom sc names w = Some a /\ a_word a = w /\ good_atom false a.
Proof.
  intros A. assert (H := atom_letters sc w A). unfold new_atom. destruct (legacy_total sc names W GN w A) as (l & L).
  assert (N : exists n, atom_name sc names w = Some n).
  { unfold atom_name. destruct w as [|x w0] eqn:Ew; [eauto|]. rewrite <- Ew in *. rewrite (not_zero sc w H), (dicts_of_letters sc names W GN w H). eauto. }
  destruct N as (n & N). rewrite N, L. eexists. split; [reflexivity|]. cbn [a_word]. split; [reflexivity|]. split; [exact A|]. split; [left; exact N|exact L].
Qed.
Lemma names_of_letters w : letters sc w -> names_of sc names w = Some (map (fun x => op_name sc (D x)) w).
Proof.
  intros H. unfold names_of. apply map_opt_some. induction w as [|x w IH]; [constructor|]. cbn [map]. constructor.
  - destruct (is_letter_letter sc names W GN x (H x (or_introl eq_refl))) as (p & c & s & o & v & os & LX). specialize (H x (or_introl eq_refl)). unfold is_letter in H.
    destruct x as [|i]; [lia|]. assert (R := l_row _ _ _ _ _ _ _ _ _ LX). replace (S i - 1) with i in R by lia. rewrite R. rewrite <- (l_row' _ _ _ _ _ _ _ _ _ LX), (l_interp _ _ _ _ _ _ _ _ _ LX). reflexivity.
  - apply IH. intros y Hy. apply H. right. exact Hy.
Qed.
Lemma dagger_good fl a : good_atom fl a -> exists a', dagger sc names conj a = Some a' /\ a_word a' = conj (a_word a) /\ good_atom (negb fl) a'.
Proof.
  intros (A & N & L). unfold dagger. destruct (conj_atom sc conj W CJ _ A) as (A' & I & SA). destruct (word_eqb (a_word a) (conj (a_word a))) eqn:E.
  - apply word_eqb_true in E. exists a. split; [reflexivity|]. split; [exact E|]. split; [exact A|]. split; [exact N|]. destruct fl; cbn [negb]; rewrite <- E in *; exact L.
  - rewrite (names_of_letters _ (atom_letters sc _ A')). eexists. split; [reflexivity|]. cbn [a_word]. split; [reflexivity|]. split; [exact A'|]. cbn [a_name a_word a_legacy]. split.
    + right. split; [|reflexivity]. rewrite SA. destruct (sub_any (sdp_notcomm sc) (a_word a)) eqn:Q; [reflexivity|]. rewrite (conj_commuting sc conj CJ _ Q), word_eqb_refl in E. discriminate.
    + destruct fl; cbn [negb]; [exact L|rewrite I; exact L].
Qed.
Definition good_list (fl : bool) (l : list atom) : Prop := Forall (good_atom fl) l.
Lemma good_list_words fl l : good_list fl l -> forall w, In w (map a_word l) -> atom_word w.
Proof. intros G w Hw. apply in_map_iff in Hw as (a & <- & Ha). unfold good_list in G. rewrite Forall_forall in G. apply (G a Ha). Qed.
Lemma daggers_good fl l : good_list fl l -> exists l', map_opt (dagger sc names conj) l = Some l' /\ map a_word l' = map conj (map a_word l) /\ good_list (negb fl) l'.
Proof.
  induction l as [|a l IH]; intros G; [exists []; split; [reflexivity|split; [reflexivity|constructor]]|]. inversion G as [|? ? Ga Gl]; subst.
  destruct (IH Gl) as (l' & E & Ew & Gl'). destruct (dagger_good fl a Ga) as (a' & E' & Ew' & Ga'). exists (a' :: l'). cbn [map_opt map]. rewrite E', E, Ew, Ew'. split; [reflexivity|]. split; [reflexivity|]. constructor; assumption.
Qed.
Lemma good_list_perm fl l l' : Permutation l l' -> good_list fl l -> good_list fl l'.
Proof. intros P G. unfold good_list in *. rewrite Forall_forall in *. intros a Ha. apply G. exact (Permutation_in _ (Permutation_sym P) Ha). Qed.
Lemma or_conjugate_good fl l : good_list fl l -> exists r fl', or_conjugate sc names conj l = Some r /\ good_list fl' r /\ map a_word r = K conj (map a_word l).
Proof.
  intros G. unfold or_conjugate. destruct (daggers_good fl l G) as (l' & -> & Ew & G'). unfold min_atoms. rewrite atoms_words_lt, !sort_atoms, Ew.
  unfold K, minw. destruct (words_lt _ _).
  - exists (py_sorted atom_lt l'), (negb fl). split; [reflexivity|]. split; [exact (good_list_perm _ _ _ (py_sorted_perm atom_lt l') G')|]. rewrite sort_atoms, Ew. reflexivity.
  - exists (py_sorted atom_lt l), fl. split; [reflexivity|]. split; [exact (good_list_perm _ _ _ (py_sorted_perm atom_lt l) G)|]. apply sort_atoms.
Qed.
(** ** Moments *)
Definition zero_atom : atom := {| a_word := [0]; a_name := "0"; a_legacy := "0" |}.
Definition one_atom : atom := {| a_word := []; a_name := "1"; a_legacy := "1" |}.
Definition zero_moment : moment := {| m_factors := [zero_atom]; m_name := "0"; m_legacy := "0" |}.
Definition good_moment (m : moment) : Prop :=
  m = zero_moment \/
  (exists fl, good_list fl (m_factors m) /\ K conj (m_key m) = m_key m /\ m_name m = name_from_atom_names (map a_name (m_factors m)) /\ m_legacy m = name_from_atom_names (map a_legacy (m_factors m))).
Lemma conj_zero : conj [0] = [0].
Proof. apply (CJ [0]). intros a b [<-|[]] [<-|[]]. apply (gt_nc_zero _ _ (scenario_good_tables sc W)). Qed.
Lemma or_conjugate_zero : or_conjugate sc names conj [zero_atom] = Some [zero_atom].
Proof. unfold or_conjugate. cbn [map_opt]. unfold dagger. cbn [a_word zero_atom]. rewrite conj_zero, word_eqb_refl. reflexivity. Qed.
Lemma K_sorted ws : sortw (K conj ws) = K conj ws.
Proof.
  apply SS_perm_eq; [apply py_sorted_sorted| |apply Permutation_sym, sortw_perm]. unfold K, minw. destruct (words_lt _ _); apply py_sorted_sorted.
Qed.
Lemma new_moment_good fl l : good_list fl l -> K conj (map a_word l) = map a_word l -> exists m, new_moment sc names conj l = Some m /\ good_moment m /\ m_key m = map a_word l.
Proof.
  intros G KK. unfold new_moment. destruct (or_conjugate_good fl l G) as (r & fl' & -> & Gr & Ew). eexists. split; [reflexivity|].
  assert (Q : map a_word (py_sorted atom_lt r) = map a_word l) by (rewrite sort_atoms, Ew, K_sorted; exact KK).
  unfold m_key. cbn [m_factors]. split; [|exact Q]. right. exists fl'. unfold m_key. cbn [m_factors m_name m_legacy]. split; [exact (good_list_perm _ _ _ (py_sorted_perm atom_lt r) Gr)|].
  split; [rewrite Q; exact KK|]. split; reflexivity.
Qed.
Lemma new_moment_zero : new_moment sc names conj [zero_atom] = Some zero_moment.
Proof. unfold new_moment. rewrite or_conjugate_zero. reflexivity. Qed.

(** names determine moments *)
Lemma perm_words {T} (f : atom -> T) l1 l2 : (forall a b, In a l1 -> In b l2 -> f a = f b -> a_word a = a_word b) -> Permutation (map f l1) (map f l2) -> Permutation (map a_word l1) (map a_word l2).
Proof.
  intros H P. apply Permutation_sym in P. apply Permutation_map_inv in P as (l3 & E & P). apply Permutation_sym in P.
  eapply Permutation_trans; [apply Permutation_map, Permutation_sym, P|]. assert (Q : map a_word l3 = map a_word l2); [|rewrite Q; apply Permutation_refl].
  symmetry in E. apply Forall2_map_eq in E. apply Forall2_map_eq. revert E. apply Forall2_impl_in. intros a b Ha Hb. apply H; [exact (Permutation_in _ P Ha)|exact Hb].
Qed.
Definition flavoured (fl : bool) (ws : list word) : list word := if fl then map conj ws else ws.
Lemma same_name fl1 fl2 l1 l2 : good_list fl1 l1 -> good_list fl2 l2 -> name_from_atom_names (map a_name l1) = name_from_atom_names (map a_name l2) -> Permutation (map a_word l1) (map a_word l2).
Proof.
  intros G1 G2 E. unfold good_list in *. rewrite Forall_forall in G1, G2. apply (product_inj f_name) in E; [|exact class_name| |].
  - revert E. apply perm_words. intros a b Ha Hb E. destruct (G1 a Ha) as (A & N & _), (G2 b Hb) as (A' & N' & _). rewrite <- E in N'. exact (named_inj sc names W GN _ _ _ A A' N N').
  - intros s Hs. apply in_map_iff in Hs as (a & <- & Ha). destruct (G1 a Ha) as (A & N & _). apply (named_closed _ _ A N).
  - intros s Hs. apply in_map_iff in Hs as (a & <- & Ha). destruct (G2 a Ha) as (A & N & _). apply (named_closed _ _ A N).
Qed.
Definition fw (fl : bool) (a : atom) : word := if fl then conj (a_word a) else a_word a.
Lemma fw_atom fl a : good_atom fl a -> atom_word (fw fl a).
Proof. intros (A & _). unfold fw. destruct fl; [apply (conj_atom sc conj W CJ), A|exact A]. Qed.
Lemma fw_flavoured fl l : map (fw fl) l = flavoured fl (map a_word l).
Proof. unfold fw, flavoured. destruct fl; [rewrite map_map|]; reflexivity. Qed.
Lemma same_legacy fl1 fl2 l1 l2 : good_list fl1 l1 -> good_list fl2 l2 -> name_from_atom_names (map a_legacy l1) = name_from_atom_names (map a_legacy l2) ->
  Permutation (flavoured fl1 (map a_word l1)) (flavoured fl2 (map a_word l2)).
Proof.
  intros G1 G2 E. unfold good_list in *. rewrite Forall_forall in G1, G2. apply (product_inj f_legacy) in E; [|exact class_legacy| |].
  - apply Permutation_sym in E. apply Permutation_map_inv in E as (l3 & E & P). rewrite <- !fw_flavoured. eapply Permutation_trans; [apply Permutation_map, P|].
    assert (Q : map (fw fl1) l3 = map (fw fl2) l2); [|rewrite Q; apply Permutation_refl]. symmetry in E. apply Forall2_map_eq in E. apply Forall2_map_eq. revert E. apply Forall2_impl_in.
    intros a b Ha Hb E. apply (Permutation_in _ (Permutation_sym P)) in Ha. assert (A := fw_atom _ _ (G1 a Ha)). assert (A' := fw_atom _ _ (G2 b Hb)).
    destruct (G1 a Ha) as (_ & _ & N), (G2 b Hb) as (_ & _ & N'). rewrite <- E in N'. exact (legacy_inj sc names W GN PF _ _ _ A A' N N').
  - intros s Hs. apply in_map_iff in Hs as (a & <- & Ha). assert (A := fw_atom _ _ (G1 a Ha)). destruct (G1 a Ha) as (_ & _ & N). apply (legacy_closed _ _ A N).
  - intros s Hs. apply in_map_iff in Hs as (a & <- & Ha). assert (A := fw_atom _ _ (G2 a Ha)). destruct (G2 a Ha) as (_ & _ & N). apply (legacy_closed _ _ A N).
Qed.
Lemma K_flavoured fl ws : (forall w, In w ws -> atom_word w) -> K conj (flavoured fl ws) = K conj ws.
Proof. intros H. unfold flavoured. destruct fl; [apply (K_conj sc conj W CJ), H|reflexivity]. Qed.
Lemma name_has_eq fl l : good_list fl l -> l <> [] -> every no_eq (name_from_atom_names (map a_name l)) = false.
Proof.
  intros G N. apply product_has; [intros Q; apply map_eq_nil in Q; contradiction|]. intros s Hs. apply in_map_iff in Hs as (a & <- & Ha). unfold good_list in G. rewrite Forall_forall in G. destruct (G a Ha) as (A & Nm & _). apply (named_closed _ _ A Nm).
Qed.
Lemma legacy_no_eq fl l : good_list fl l -> every no_eq (name_from_atom_names (map a_legacy l)) = true.
Proof.
  intros G. apply product_chars; [reflexivity|reflexivity|intros c Hc; char_cases c Hc|]. intros s Hs. apply in_map_iff in Hs as (a & <- & Ha). unfold good_list in G. rewrite Forall_forall in G.
  assert (A := fw_atom _ _ (G a Ha)). destruct (G a Ha) as (_ & _ & N). apply (legacy_closed _ _ A N).
Qed.
Lemma closed_not_digits f s : class f -> closed f s -> every digit s = false.
Proof.
  intros C (b & c & -> & _ & Fc & _). rewrite every_app. cbn [every]. destruct (digit c) eqn:Q; [rewrite (cl_digit f C c Q) in Fc; discriminate|]. apply andb_false_r.
Qed.
Lemma name_not_digits fl l : good_list fl l -> l <> [] -> every digit (name_from_atom_names (map a_name l)) = false /\ every digit (name_from_atom_names (map a_legacy l)) = false.
Proof.
  intros G N. unfold good_list in G. rewrite Forall_forall in G. split; (apply product_has; [intros Q; apply map_eq_nil in Q; contradiction|]); intros s Hs; apply in_map_iff in Hs as (a & <- & Ha).
  - destruct (G a Ha) as (A & Nm & _). apply (closed_not_digits _ _ class_name), (named_closed _ _ A Nm).
  - assert (A := fw_atom _ _ (G a Ha)). destruct (G a Ha) as (_ & _ & L). apply (closed_not_digits _ _ class_legacy), (legacy_closed _ _ A L).
Qed.
Definition is_name (m : moment) (s : string) : Prop := s = m_name m \/ s = m_legacy m.
Lemma zero_only m s : good_moment m -> is_name m s -> s = "0" -> m = zero_moment.
Proof.
  intros [G|(fl & G & KK & En & El)] H ->; [exact G|exfalso].
  destruct (m_factors m) as [|a l] eqn:E; [cbn [map name_from_atom_names] in En, El; destruct H as [H|H]; congruence|].
  destruct (name_not_digits fl (a :: l) G ltac:(discriminate)) as [N1 N2]. rewrite <- En in N1. rewrite <- El in N2. destruct H as [H|H]; [rewrite <- H in N1; discriminate N1|rewrite <- H in N2; discriminate N2].
Qed.
Lemma names_distinct m1 m2 s : good_moment m1 -> good_moment m2 -> is_name m1 s -> is_name m2 s -> m_key m1 = m_key m2.
Proof.
  intros G1 G2 N1 N2.
  destruct G1 as [G1|(fl1 & G1 & K1 & En1 & El1)].
  { subst m1. assert (s = "0") by (destruct N1; assumption). rewrite (zero_only m2 s G2 N2 H). reflexivity. }
  destruct G2 as [G2|(fl2 & G2 & K2 & En2 & El2)].
  { subst m2. assert (s = "0") by (destruct N2; assumption). assert (G1' : good_moment m1) by (right; eauto). rewrite (zero_only m1 s G1' N1 H). reflexivity. }
  assert (X : forall m1 m2 fl1 fl2, good_list fl1 (m_factors m1) -> good_list fl2 (m_factors m2) -> m_name m1 = name_from_atom_names (map a_name (m_factors m1)) -> m_legacy m2 = name_from_atom_names (map a_legacy (m_factors m2)) ->
     m_name m1 = m_legacy m2 -> m_key m1 = m_key m2).
  { clear - W GN CJ. intros m1 m2 fl1 fl2 G1 G2 E1 E2 E. destruct (m_factors m1) as [|a l] eqn:F1.
    - destruct (m_factors m2) as [|b l2] eqn:F2; [unfold m_key; rewrite F1, F2; reflexivity|]. exfalso.
      destruct (name_not_digits fl2 (b :: l2) G2 ltac:(discriminate)) as [_ Q]. rewrite <- E2, <- E, E1 in Q. discriminate Q.
    - exfalso. assert (Q := name_has_eq fl1 _ G1 ltac:(discriminate)). assert (Q' := legacy_no_eq fl2 _ G2). congruence. }
  destruct N1 as [-> | ->]; destruct N2 as [E|E].
  - rewrite En1, En2 in E. apply (same_name fl1 fl2) in E; [|assumption|assumption]. apply (K_perm conj) in E. fold (m_key m1) (m_key m2) in E. congruence.
  - exact (X m1 m2 fl1 fl2 G1 G2 En1 El2 E).
  - symmetry. exact (X m2 m1 fl2 fl1 G2 G1 En2 El1 (eq_sym E)).
  - rewrite El1, El2 in E. apply (same_legacy fl1 fl2) in E; [|assumption|assumption]. apply (K_perm conj) in E. rewrite !K_flavoured in E by (eapply good_list_words; eassumption). fold (m_key m1) (m_key m2) in E. congruence.
Qed.

(** ** Histories *)
Record inv (b : book) : Prop := {
  iv_good : forall k m, In (k, m) (by_atoms b) -> k = m_key m /\ good_moment m;
  iv_keys : NoDup (map fst (by_atoms b));
  iv_names : forall s m, In (s, m) (by_name b) -> is_name m s /\ exists k, In (k, m) (by_atoms b);
  iv_all : forall k m, In (k, m) (by_atoms b) -> In (m_name m, m) (by_name b) /\ In (m_legacy m, m) (by_name b) }.
Lemma inv_empty : inv empty_book.
Proof. constructor; cbn [by_atoms by_name empty_book map]; try (intros ? ? []); constructor. Qed.
Lemma key_unique {A B} (l : list (A * B)) k v v' : NoDup (map fst l) -> In (k, v) l -> In (k, v') l -> v = v'.
Proof.
  induction l as [|[a b] l IH]; intros N H H'; [destruct H|]. cbn [map fst] in N. inversion N as [|? ? N1 N2]; subst.
  destruct H as [H|H], H' as [H'|H']; [congruence| | |exact (IH N2 H H')].
  - injection H as -> ->. exfalso. apply N1. apply in_map_iff. exists (k, v'). auto.
  - injection H' as -> ->. exfalso. apply N1. apply in_map_iff. exists (k, v). auto.
Qed.
Lemma find_name_first s l m : In (s, m) l -> (forall m', In (s, m') l -> m' = m) -> find_name s l = Some m.
Proof.
  induction l as [|[s' m'] l IH]; intros H U; [destruct H|]. cbn [find_name]. destruct (String.eqb_spec s s') as [->|N].
  - f_equal. apply U. left. reflexivity.
  - destruct H as [H|H]; [congruence|]. apply IH; [exact H|]. intros m2 H2. apply U. right. exact H2.
Qed.
Theorem inv_lookup b k m s : inv b -> In (k, m) (by_atoms b) -> is_name m s -> find_name s (by_name b) = Some m.
Proof.
  intros I H N. apply find_name_first.
  - destruct (iv_all b I k m H). destruct N as [-> | ->]; assumption.
  - intros m' H'. destruct (iv_names b I s m' H') as (N' & k' & Hk'). destruct (iv_good b I _ _ H) as [-> G]. destruct (iv_good b I _ _ Hk') as [-> G'].
    assert (E := names_distinct m' m s G' G N' N). rewrite E in Hk'. exact (key_unique _ _ _ _ (iv_keys b I) Hk' H).
Qed.
Definition in_play (fl : bool) (a : atom) : Prop := good_atom fl a \/ a = zero_atom \/ a = one_atom.
Lemma nontrivial_spec fl atoms : Forall (in_play fl) atoms -> forall kept, good_list fl kept ->
  (nontrivial_atoms kept atoms = [zero_atom] /\ In zero_atom atoms) \/
  (good_list fl (nontrivial_atoms kept atoms) /\ ~ In zero_atom atoms /\ map a_word (nontrivial_atoms kept atoms) = map a_word kept ++ filter (fun w => negb (word_eqb w [])) (map a_word atoms)).
Proof.
  induction atoms as [|a l IH]; intros F kept G; [right; split; [exact G|]; split; [intros []|cbn; rewrite app_nil_r; reflexivity]|]. inversion F as [|? ? Fa Fl]; subst. cbn [nontrivial_atoms map filter].
  destruct Fa as [Fa|[-> | ->]].
  - destruct Fa as (A & N & L). assert (Fa : good_atom fl a) by (split; [exact A|split; assumption]). rewrite (not_zero sc _ (atom_letters sc _ A)).
    destruct (a_word a) as [|x w0] eqn:Ew; [destruct A as (A & _); contradiction|]. 
    assert (Hz : a <> zero_atom). { intros ->. cbn in Ew. injection Ew as <- <-. destruct A as (_ & A & _). specialize (A 0 (or_introl eq_refl)). lia. }
    replace (word_eqb (x :: w0) []) with false by reflexivity. cbn [negb].
    destruct (IH Fl (kept ++ [a])) as [[E I]|(E & I & Q)]; [apply Forall_app; split; [exact G|constructor; [exact Fa|constructor]]| |].
    + left. split; [exact E|right; exact I].
    + right. split; [exact E|]. split; [intros [H|H]; [contradiction|exact (I H)]|]. rewrite Q, map_app, <- app_assoc. cbn [map app]. rewrite Ew. reflexivity.
  - left. split; [reflexivity|left; reflexivity].
  - cbn [one_atom a_word]. destruct (IH Fl kept G) as [[E I]|(E & I & Q)]; [left; split; [exact E|right; exact I]|]. right. split; [exact E|]. split; [intros [H|H]; [discriminate H|exact (I H)]|exact Q].
Qed.
Lemma find_key_some k l m : find_key k l = Some m -> In (k, m) l.
Proof.
  induction l as [|[k' m'] l IH]; [discriminate|]. cbn [find_key]. unfold words_eqb. destruct (list_eq_dec (list_eq_dec Nat.eq_dec) k k') as [->|N]; [intros H; injection H as ->; left; reflexivity|]. intros H. right. auto.
Qed.
Lemma find_key_none k l : find_key k l = None -> ~ In k (map fst l).
Proof.
  induction l as [|[k' m'] l IH]; [intros _ []|]. cbn [find_key map fst]. unfold words_eqb. destruct (list_eq_dec (list_eq_dec Nat.eq_dec) k k') as [->|N]; [discriminate|]. intros H [Q|Q]; [congruence|]. exact (IH H Q).
Qed.
(** the key of a product *)
Definition key_of (ws : list word) : list word :=
  if existsb (fun w => word_eqb w [0]) ws then [[0]] else K conj (filter (fun w => negb (word_eqb w [])) ws).
Lemma zero_in fl atoms : Forall (in_play fl) atoms -> (existsb (fun w => word_eqb w [0]) (map a_word atoms) = true <-> In zero_atom atoms).
Proof.
  intros F. rewrite existsb_exists. split.
  - intros (w & Hw & E). apply word_eqb_true in E. subst w. apply in_map_iff in Hw as (a & Ea & Ha). rewrite Forall_forall in F. destruct (F a Ha) as [Q|[-> | ->]]; [|exact Ha|discriminate Ea].
    destruct Q as ((_ & R & _) & _). rewrite Ea in R. specialize (R 0 (or_introl eq_refl)). lia.
  - intros H. exists [0]. split; [apply in_map_iff; exists zero_atom; auto|apply word_eqb_refl].
Qed.
Lemma insert_inv b k m : inv b -> ~ In k (map fst (by_atoms b)) -> k = m_key m -> good_moment m ->
  inv {| by_atoms := (k, m) :: by_atoms b; by_name := (m_legacy m, m) :: (m_name m, m) :: by_name b |}.
Proof.
  intros I N E G. constructor; cbn [by_atoms by_name map fst].
  - intros k' m' [H|H]; [injection H as <- <-; auto|apply (iv_good b I), H].
  - constructor; [exact N|apply (iv_keys b I)].
  - intros s m' [H|[H|H]]; [injection H as <- <-; split; [right; reflexivity|exists k; left; reflexivity]|injection H as <- <-; split; [left; reflexivity|exists k; left; reflexivity]|].
    destruct (iv_names b I s m' H) as (Q & k' & Hk). split; [exact Q|exists k'; right; exact Hk].
  - intros k' m' [H|H]; [injection H as <- <-; split; [right; left; reflexivity|left; reflexivity]|]. destruct (iv_all b I k' m' H). split; right; right; assumption.
Qed.
Lemma monomial_from_atoms_good fl atoms b : inv b -> Forall (in_play fl) atoms ->
  exists m b', monomial_from_atoms sc names conj atoms b = Some (m, b') /\ inv b' /\ In (key_of (map a_word atoms), m) (by_atoms b') /\ (forall k m', In (k, m') (by_atoms b) -> In (k, m') (by_atoms b')).
Proof.
  intros I F. unfold monomial_from_atoms.
  assert (S1 : exists key fl', or_conjugate sc names conj (nontrivial_atoms [] atoms) = Some key /\ map a_word key = key_of (map a_word atoms) /\
     (key = [zero_atom] \/ (good_list fl' key /\ K conj (map a_word key) = map a_word key))).
  { unfold key_of. destruct (nontrivial_spec fl atoms F [] (Forall_nil _)) as [[E Z]|(G & Z & Q)].
    - rewrite E, or_conjugate_zero, (proj2 (zero_in fl atoms F) Z). exists [zero_atom], true. auto.
    - destruct (existsb _ (map a_word atoms)) eqn:X; [apply (zero_in fl atoms F) in X; contradiction|].
      destruct (or_conjugate_good fl _ G) as (r & fl' & E & Gr & Er). exists r, fl'. split; [exact E|]. cbn [map app] in Q. rewrite Er, Q. split; [reflexivity|]. right. split; [exact Gr|].
      rewrite <- Q. apply (K_idem sc conj W CJ). exact (good_list_words fl _ G). }
  destruct S1 as (key & fl' & -> & Ek & C). rewrite Ek. destruct (find_key (key_of (map a_word atoms)) (by_atoms b)) as [m|] eqn:E1.
  - exists m, b. split; [reflexivity|]. split; [exact I|]. split; [apply find_key_some, E1|auto].
  - assert (S2 : exists m, new_moment sc names conj key = Some m /\ good_moment m /\ m_key m = map a_word key).
    { destruct C as [->|[G KK]]; [exists zero_moment; split; [apply new_moment_zero|split; [left; reflexivity|reflexivity]]|exact (new_moment_good fl' key G KK)]. }
    destruct S2 as (m & -> & Gm & Km). eexists m, _. split; [reflexivity|]. split; [|split; [left; reflexivity|intros k m' H; right; exact H]].
    apply insert_inv; [exact I|apply find_key_none, E1|congruence|exact Gm].
Qed.
(** the words that a step may give *)
Notation usable := (usable sc).
Lemma new_atoms_good ws : (forall w, In w ws -> usable w) -> exists l, map_opt (new_atom sc names) ws = Some l /\ map a_word l = ws /\ Forall (in_play false) l.
Proof.
  induction ws as [|w ws IH]; intros H; [exists []; split; [reflexivity|split; [reflexivity|constructor]]|].
  destruct IH as (l & E & Ew & F); [intros v Hv; apply H; right; exact Hv|]. assert (S1 : exists a, new_atom sc names w = Some a /\ a_word a = w /\ in_play false a).
  { destruct (H w (or_introl eq_refl)) as [A|[-> | ->]].
    - destruct (new_atom_good w A) as (a & Ea & Eaw & G). exists a. split; [exact Ea|]. split; [exact Eaw|left; exact G].
    - exists zero_atom. split; [reflexivity|]. split; [reflexivity|right; left; reflexivity].
    - exists one_atom. split; [reflexivity|]. split; [reflexivity|right; right; reflexivity]. }
  destruct S1 as (a & Ea & Eaw & Fa). exists (a :: l). cbn [map_opt map]. rewrite Ea, E, Eaw, Ew. split; [reflexivity|]. split; [reflexivity|]. constructor; assumption.
Qed.
(** histories of the package *)
Definition good_step (s : step) : Prop := match s with FromWords ws => forall w, In w ws -> usable w | FromFactors _ _ => True end.
Lemma from_words_good ws b : inv b -> (forall w, In w ws -> usable w) -> exists m b', do_step sc names conj (FromWords ws) b = Some (m, b') /\ inv b' /\ In (key_of ws, m) (by_atoms b') /\ (forall k m', In (k, m') (by_atoms b) -> In (k, m') (by_atoms b')).
Proof.
  intros I H. cbn [do_step]. destruct (new_atoms_good ws H) as (l & -> & <- & F). exact (monomial_from_atoms_good false l b I F).
Qed.
Lemma do_step_inv s b m b' : inv b -> good_step s -> do_step sc names conj s b = Some (m, b') -> inv b' /\ (exists k, In (k, m) (by_atoms b')) /\ (forall k m', In (k, m') (by_atoms b) -> In (k, m') (by_atoms b')).
Proof.
  intros I G E. destruct s as [ws|k keep].
  - destruct (from_words_good ws b I G) as (m1 & b1 & E1 & I1 & H1 & H2). rewrite E in E1. injection E1 as <- <-. eauto.
  - cbn [do_step] in E. destruct (nth_error (map snd (by_atoms b)) k) as [m0|] eqn:E0; [|discriminate]. destruct (map_opt (nth_error (m_factors m0)) keep) as [l|] eqn:El; [|discriminate].
    assert (S1 : exists fl, Forall (in_play fl) l).
    { apply nth_error_In in E0. apply in_map_iff in E0 as ([k0 m1] & Em & Hm). cbn [snd] in Em. subst m1. destruct (iv_good b I _ _ Hm) as [_ [->|(fl & Gf & _)]].
      - exists true. apply Forall_forall. intros a Ha. apply map_opt_some in El. cbn [zero_moment m_factors] in El. revert Ha. clear E G. induction El as [|x y ? ? Q _ IH]; intros Ha; [destruct Ha|]. destruct Ha as [<-|Ha]; [|exact (IH Ha)].
        right; left. apply nth_error_In in Q as [Q|[]]. symmetry. exact Q.
      - exists fl. apply Forall_forall. intros a Ha. apply map_opt_some in El. revert Ha. clear E G. induction El as [|x y ? ? Q _ IH]; intros Ha; [destruct Ha|]. destruct Ha as [<-|Ha]; [|exact (IH Ha)].
        left. apply nth_error_In in Q. unfold good_list in Gf. rewrite Forall_forall in Gf. exact (Gf _ Q). }
    destruct S1 as (fl & F). destruct (monomial_from_atoms_good fl l b I F) as (m1 & b1 & E1 & I1 & H1 & H2). rewrite E in E1. injection E1 as <- <-. eauto.
Qed.
Lemma do_steps_inv h : forall b b', inv b -> Forall good_step h -> do_steps sc names conj h b = Some b' -> inv b' /\ (forall k m', In (k, m') (by_atoms b) -> In (k, m') (by_atoms b')).
Proof.
  induction h as [|s h IH]; intros b b' I G E; cbn [do_steps] in E; [injection E as <-; auto|]. inversion G as [|? ? Gs Gh]; subst.
  destruct (do_step sc names conj s b) as [[m b1]|] eqn:E1; [|discriminate]. destruct (do_step_inv s b m b1 I Gs E1) as (I1 & _ & H1). destruct (IH b1 b' I1 Gh E) as [I2 H2]. split; [exact I2|]. auto.
Qed.
End Book.
