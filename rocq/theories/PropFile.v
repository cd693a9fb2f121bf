(** C59: the file and the format of an export. *)
From Coq Require Import List Arith Bool String Ascii Lia.
From Verif Require Import FileModel.
Import ListNotations.
Open Scope list_scope.

(** ** Specification *)
Fixpoint no_dot (s : string) : Prop := match s with EmptyString => True | String c r => c <> "."%char /\ no_dot r end.
(** the text ends with a dot and the extension *)
Definition ends_with (extension s : string) : Prop := exists base, s = (base ++ "." ++ extension)%string.

Lemma split_not_nil s : split_dots s <> [].
Proof. destruct s as [|c r]; cbn; [discriminate|]. destruct (Ascii.eqb c dot); [discriminate|]. destruct (split_dots r); discriminate. Qed.
Lemma split_no_dot s : no_dot s -> split_dots s = [s].
Proof.
  induction s as [|c r IH]; [reflexivity|]. intros [N R]. cbn. destruct (Ascii.eqb_spec c dot) as [E|E]; [contradiction|]. rewrite IH by exact R. reflexivity.
Qed.
Lemma split_ends b e : no_dot e -> exists l, l <> [] /\ split_dots (b ++ "." ++ e)%string = l ++ [e].
Proof.
  intros N. induction b as [|c r IH].
  - exists [EmptyString]. split; [discriminate|]. change (EmptyString :: split_dots e = [EmptyString; e]). rewrite split_no_dot by exact N. reflexivity.
  - destruct IH as (l & L & IH). change ((String c r ++ "." ++ e)%string) with (String c (r ++ "." ++ e)). cbn [split_dots]. destruct (Ascii.eqb c dot).
    + exists (EmptyString :: l). split; [discriminate|]. rewrite IH. reflexivity.
    + rewrite IH. destruct l as [|h t]; [congruence|]. cbn [app]. eexists (String c h :: t). split; [discriminate|]. reflexivity.
Qed.
Lemma split_short s : List.length (split_dots s) < 2 -> no_dot s.
Proof.
  induction s as [|c r IH]; [intros _; exact I|]. cbn [split_dots]. pose proof (split_not_nil r) as NN. destruct (Ascii.eqb_spec c dot) as [E|E].
  - destruct (split_dots r); [congruence|]. cbn. lia.
  - intros H. split; [exact E|]. apply IH. destruct (split_dots r); [congruence|]. exact H.
Qed.
Lemma split_long s : 2 <= List.length (split_dots s) -> exists b, s = (b ++ "." ++ last (split_dots s) EmptyString)%string.
Proof.
  induction s as [|c r IH]; [cbn; lia|]. cbn [split_dots]. pose proof (split_not_nil r) as NN. destruct (Ascii.eqb_spec c dot) as [E|E].
  - subst c. intros _. destruct (le_lt_dec 2 (List.length (split_dots r))) as [G|G].
    + destruct (IH G) as [b B]. exists (String dot b). destruct (split_dots r) as [|h t]; [congruence|]. change (last (EmptyString :: h :: t) EmptyString) with (last (h :: t) EmptyString). cbn [append]. f_equal. exact B.
    + rewrite (split_no_dot r) by (apply split_short; exact G). exists EmptyString. reflexivity.
  - intros H. destruct (split_dots r) as [|h [|h' t]] eqn:S.
    + congruence.
    + cbn in H. lia.
    + destruct (IH ltac:(cbn; lia)) as [b B]. exists (String c b). change (last (String c h :: h' :: t) EmptyString) with (last (h :: h' :: t) EmptyString). cbn [append]. f_equal. exact B.
Qed.
Lemma extension_cases d f : no_dot d ->
  (no_dot f /\ extension_of d f = (d, (f ++ "." ++ d)%string)) \/
  (~ no_dot f /\ exists e, extension_of d f = (e, f) /\ forall e', no_dot e' -> (e = e' <-> ends_with e' f)).
Proof.
  intros _. unfold extension_of. destruct (Nat.leb_spec 2 (List.length (split_dots f))) as [G|G].
  - right. split.
    + intros N. rewrite (split_no_dot f N) in G. cbn in G. lia.
    + eexists. split; [reflexivity|]. intros e' N. split.
      * intros <-. apply split_long. exact G.
      * intros [b ->]. destruct (split_ends b e' N) as (l & _ & ->). apply last_last.
  - left. split; [apply split_short; exact G|reflexivity].
Qed.
Lemma ends_with_dot e f : ends_with e f -> ~ no_dot f.
Proof. intros [b ->]. induction b as [|c r IH]; cbn; [intros [N _]; apply N; reflexivity|intros [_ N]; exact (IH N)]. Qed.
Ltac nd := cbn; repeat split; discriminate.

(** the file written by a linear programme: the default is added exactly if there is no dot *)
Theorem C59_lp filename f file : lp_export filename = Some (f, file) <->
  (no_dot filename /\ f = LPFormat /\ file = (filename ++ ".lp")%string) \/
  (ends_with "lp" filename /\ f = LPFormat /\ file = filename) \/
  (ends_with "mps" filename /\ f = MPSFormat /\ file = filename).
Proof.
  unfold lp_export. destruct (extension_cases "lp" filename ltac:(nd)) as [[N ->]|[N (e & -> & E)]].
  - cbn [String.eqb Ascii.eqb Bool.eqb]. split.
    + intros H. injection H as <- <-. left. repeat split; assumption.
    + intros [(_ & -> & ->)|[(W & _)|(W & _)]]; [reflexivity| |]; destruct (ends_with_dot _ _ W N).
  - destruct (String.eqb_spec e "lp") as [P|P]; [|destruct (String.eqb_spec e "mps") as [Q|Q]].
    + split.
      * intros H. injection H as <- <-. right; left. repeat split. apply E; [nd|exact P].
      * intros [(W & _)|[(W & -> & ->)|(W & _)]]; [contradiction|reflexivity|]. apply E in W; [|nd]. congruence.
    + split.
      * intros H. injection H as <- <-. right; right. repeat split. apply E; [nd|exact Q].
      * intros [(W & _)|[(W & _)|(W & -> & ->)]]; [contradiction| |reflexivity]. apply E in W; [|nd]. congruence.
    + split; [discriminate|]. intros [(W & _)|[(W & _)|(W & _)]]; [contradiction| |]; apply E in W; congruence || nd.
Qed.
(** the file written by a semidefinite programme *)
Theorem C59_sdp filename f file : sdp_export filename = Some (f, file) <->
  (no_dot filename /\ f = SDPAFormat /\ file = (filename ++ ".dat-s")%string) \/
  (ends_with "dat-s" filename /\ f = SDPAFormat /\ file = filename) \/
  (ends_with "csv" filename /\ f = CSVFormat /\ file = filename) \/
  (ends_with "mat" filename /\ f = MATFormat /\ file = filename).
Proof.
  unfold sdp_export. destruct (extension_cases "dat-s" filename ltac:(nd)) as [[N ->]|[N (e & -> & E)]].
  - cbn [String.eqb Ascii.eqb Bool.eqb]. split.
    + intros H. injection H as <- <-. left. repeat split; assumption.
    + intros [(_ & -> & ->)|[(W & _)|[(W & _)|(W & _)]]]; [reflexivity| | |]; destruct (ends_with_dot _ _ W N).
  - destruct (String.eqb_spec e "dat-s") as [P|P]; [|destruct (String.eqb_spec e "csv") as [Q|Q]; [|destruct (String.eqb_spec e "mat") as [M|M]]].
    + split.
      * intros H. injection H as <- <-. right; left. repeat split. apply E; [nd|exact P].
      * intros [(W & _)|[(W & -> & ->)|[(W & _)|(W & _)]]]; [contradiction|reflexivity| |]; (apply E in W; [|nd]); congruence.
    + split.
      * intros H. injection H as <- <-. right; right; left. repeat split. apply E; [nd|exact Q].
      * intros [(W & _)|[(W & _)|[(W & -> & ->)|(W & _)]]]; [contradiction| |reflexivity|]; (apply E in W; [|nd]); congruence.
    + split.
      * intros H. injection H as <- <-. right; right; right. repeat split. apply E; [nd|exact M].
      * intros [(W & _)|[(W & _)|[(W & _)|(W & -> & ->)]]]; [contradiction| | |reflexivity]; (apply E in W; [|nd]); congruence.
    + split; [discriminate|]. intros [(W & _)|[(W & _)|[(W & _)|(W & _)]]]; [contradiction| | |]; (apply E in W; [|nd]); congruence.
Qed.
Example C59_examples : lp_export "bell" = Some (LPFormat, "bell.lp")%string /\ lp_export "v1.0.mps" = Some (MPSFormat, "v1.0.mps")%string /\
  sdp_export "bell" = Some (SDPAFormat, "bell.dat-s")%string /\ sdp_export "../bell.csv" = Some (CSVFormat, "../bell.csv")%string /\ lp_export "bell.txt" = None.
Proof. repeat split. Qed.

(** the documented default ("if no file format is specified") is not used when a directory has a dot *)
Theorem C59_directories_refuted : lp_export "./bell" = None /\ lp_export "../results/bell" = None /\ sdp_export "run.2/bell" = None.
Proof. repeat split. Qed.
Print Assumptions C59_lp.
Print Assumptions C59_sdp.
Print Assumptions C59_directories_refuted.
