(** C33: the columns generated from a specification. *)
From Coq Require Import Permutation Sorted String.
From Verif Require Import CanonModel CanonSpec ScenarioModel ScenarioSpec ScenarioProofs SymModel
  ColumnModel ColumnSpec LPModel LPWriteModel ColsModel MemoModel ColsSpec ColsProofs ColsProofs2 ColsProofs6 ColsText PropNorm.
Close Scope Q_scope. Close Scope Qc_scope. Close Scope string_scope. Open Scope list_scope. Open Scope nat_scope.

(** npaN: all products of at most N usable operators (and at most max_monomial_length if given). *)
Theorem C33_npa : forall sc hc commuting level mml, wf_scenario sc ->
  (commuting = true -> forall a b, sdp_notcomm sc a b = false) -> separate_parties sc ->
  exists cols, build_columns sc hc commuting (Npa level) mml = Some cols /\
    columns_for sc hc (npa_allowed level mml) cols /\
    good_columns (sdp_notcomm sc) (sdp_orthomat sc) (S (length (lexorder sc))) cols.
Proof. intros sc hc co level mml W Hc. exact (npa_columns sc hc co W Hc level mml). Qed.
Print Assumptions C33_npa.

(** localN: the products with at most N (or the given number) of operators of each party. *)
Theorem C33_local : forall sc hc commuting lengths mml, wf_scenario sc ->
  (commuting = true -> forall a b, sdp_notcomm sc a b = false) -> separate_parties sc ->
  length lengths = nr_parties sc ->
  exists cols, build_columns sc hc commuting (Local lengths) mml = Some cols /\
    columns_for sc hc (local_allowed sc lengths mml) cols /\
    good_columns (sdp_notcomm sc) (sdp_orthomat sc) (S (length (lexorder sc))) cols.
Proof. intros sc hc co lengths mml W Hc. exact (local_columns sc hc co W Hc lengths mml). Qed.
Print Assumptions C33_local.

(** physicalN: the products of pairwise commuting operators with the bounds; each is listed with
    its operators in increasing order, and the columns are in increasing order of length and,
    for the same length, lexicographically. *)
Theorem C33_physical : forall sc hc commuting caps mml, wf_scenario sc ->
  (forall o, In o (outcomes sc) -> 1 <= o) ->
  (commuting = true -> forall a b, sdp_notcomm sc a b = false) ->
  exists cols, build_columns sc hc commuting (Physical caps) mml = Some cols /\
    columns_for sc hc (physical_allowed sc caps mml) cols /\
    good_columns (sdp_notcomm sc) (sdp_orthomat sc) (S (length (lexorder sc))) cols /\
    (forall w, In w cols -> StronglySorted lt w) /\
    StronglySorted (fun a b => length a < length b \/ (length a = length b /\ lex_lt a b)) cols.
Proof.
  intros sc hc co caps mml W Ho Hc. destruct (physical_cols sc hc co W Hc caps mml Ho) as (cols & E & A & B & C & D).
  exists cols. split; [exact E|]. split; [exact A|]. split; [exact B|]. split; [exact C|].
  assert (K : forall a b : list nat, tuple_lt a b = true -> lex_lt a b).
  { induction a as [|x a IH]; intros [|y b]; cbn [tuple_lt]; try discriminate; [intros _; constructor|].
    destruct (Nat.eqb_spec x y) as [->|]; [intros H; apply lt_tail, IH, H|]. intros H. apply Nat.ltb_lt in H. apply lt_head, H. }
  clear -D K. induction D as [|x l D IH F]; constructor; [exact IH|]. eapply Forall_impl; [|exact F]. cbn. intros y H. unfold word_lt in H.
  destruct (Nat.eqb_spec (length x) (length y)) as [El|]; [right; split; [exact El|apply K, H]|left; apply Nat.ltb_lt, H].
Qed.
Print Assumptions C33_physical.

(** A list of lists of parties with the empty list at most once: each column is a product with
    one operator for every party of a list, up to commutations; such a product is a column
    unless it is zero or equals a shorter one. *)
Theorem C33_blocks : forall sc hc commuting specs mml, wf_scenario sc ->
  (commuting = true -> forall a b, sdp_notcomm sc a b = false) ->
  specs <> [] -> count_occ (list_eq_dec Nat.eq_dec) specs [] <= 1 ->
  exists cols, build_columns sc hc commuting (Blocks specs) mml = Some cols /\
    pairwise_different (sdp_notcomm sc) (sdp_orthomat sc) cols /\
    (forall w, In w cols -> ~ is_zero_product (sdp_notcomm sc) (sdp_orthomat sc) w /\
       exists block m, In block specs /\ of_block sc hc m block /\ comm_eq (sdp_notcomm sc) m w) /\
    (forall block m, In block specs -> of_block sc hc m block ->
       is_zero_product (sdp_notcomm sc) (sdp_orthomat sc) m \/
       (exists m', proj_eq (sdp_notcomm sc) (sdp_orthomat sc) m m' /\ length m' < length m) \/
       exists w, In w cols /\ comm_eq (sdp_notcomm sc) m w).
Proof.
  intros sc hc co specs mml W Hc NE H1. destruct (blocks_correct sc hc co W Hc specs H1) as (cols & E & N & D & S1 & C1).
  exists cols. cbn [build_columns]. destruct specs as [|b specs]; [congruence|]. rewrite E. cbn [option_map]. rewrite finish_NoDup by exact N.
  split; [reflexivity|]. split; [exact D|]. split; [|exact C1]. intros w Hw. destruct (S1 w Hw) as (A & _ & B). auto.
Qed.
Print Assumptions C33_blocks.

(** Every symmetry of the inflation maps the columns of the three textual specifications to
    columns, so none is left unused (C34). *)
Theorem C33_symmetric : forall sc hc commuting spec mml cols g, wf_scenario sc ->
  (forall o, In o (outcomes sc) -> 1 <= o) ->
  (commuting = true -> forall a b, sdp_notcomm sc a b = false) ->
  match spec with
  | Npa _ => separate_parties sc
  | Local lengths => separate_parties sc /\ length lengths = nr_parties sc
  | Physical _ => True
  | _ => False
  end ->
  build_columns sc hc commuting spec mml = Some cols ->
  In g (sdp_lexorder_symmetries sc) -> keeps_columns (sdp_notcomm sc) cols g.
Proof.
  intros sc hc co spec mml cols g W Ho Hc Hs E Hg. destruct spec as [specs|l|level|lengths|caps]; try contradiction.
  - destruct (C33_npa sc hc co level mml W Hc Hs) as (cols' & E' & A & B). rewrite E in E'. injection E' as <-.
    eapply (symmetric_columns sc hc W _ cols A B); [|exact Hg]. intros; eapply npa_sym; eassumption.
  - destruct (C33_local sc hc co lengths mml W Hc (proj1 Hs) (proj2 Hs)) as (cols' & E' & A & B). rewrite E in E'. injection E' as <-.
    eapply (symmetric_columns sc hc W _ cols A B); [|exact Hg]. intros; eapply local_sym; eassumption.
  - destruct (C33_physical sc hc co caps mml W Ho Hc) as (cols' & E' & A & B & _). rewrite E in E'. injection E' as <-.
    eapply (symmetric_columns sc hc W _ cols A B); [|exact Hg]. intros; eapply physical_sym; eassumption.
Qed.
Print Assumptions C33_symmetric.

(** Reading the text of a specification. *)
Theorem C33_text : forall P,
  (forall k, parse_spec P (String.append "npa" (dec k)) = Some (Npa k)) /\
  (forall k, String.length (dec k) <> P ->
     parse_spec P (String.append "local" (dec k)) = Some (Local (repeat k P)) /\
     parse_spec P (String.append "physical" (dec k)) = Some (Physical (repeat (Some k) P))) /\
  (forall ls, ls <> [] -> length ls = P -> Forall (fun k => k < 10) ls ->
     parse_spec P (String.append "local" (String.concat EmptyString (map dec ls))) = Some (Local ls) /\
     parse_spec P (String.append "physical" (String.concat EmptyString (map dec ls))) = Some (Physical (map (@Some nat) ls))) /\
  parse_spec P "physical" = Some (Physical (repeat None P)).
Proof.
  intros P. split; [intros k; apply parse_npa|]. split; [|split; [|reflexivity]].
  - intros k Hk. rewrite parse_local, parse_physical; try apply dec_digits; try apply dec_nonempty. rewrite lengths_same by exact Hk. split; [reflexivity|].
    assert (E : map (@Some nat) (repeat k P) = repeat (Some k) P) by (clear; induction P; cbn; congruence). rewrite E. reflexivity.
  - intros ls NE HL H. assert (E : String.concat EmptyString (map dec ls) = digits ls).
    { clear. unfold digits. induction ls as [|k ls IH]; [reflexivity|]. cbn [map]. rewrite LPWriteProofs.cat_cons, <- IH. cbn [String.concat].
      destruct ls as [|k' ls]; [cbn; symmetry; apply LPWriteProofs.append_nil|]. reflexivity. }
    rewrite E. destruct (digits_chars ls H) as (L1 & _ & L3).
    assert (NE' : digits ls <> EmptyString) by (intros K; rewrite K in L1; destruct ls; [congruence|discriminate L1]).
    rewrite parse_local, parse_physical by assumption. rewrite <- HL, lengths_digits by exact H. split; reflexivity.
Qed.
Print Assumptions C33_text.

(** The hypotheses are met: two parties sharing a quantum source. *)
Lemma nm_separate : separate_parties nm_sc.
Proof. intros src l p q [<-|[]] _ []. Qed.
Example C33_nonvacuous : wf_scenario nm_sc /\ separate_parties nm_sc /\ (forall o, In o (outcomes nm_sc) -> 1 <= o) /\
  build_columns nm_sc [false; false] false (Npa 2) 0 = Some [[]; [1]; [3]; [1; 3]] /\
  build_columns nm_sc [false; false] false (Npa 2) 1 = Some [[]; [1]; [3]] /\
  build_columns nm_sc [true; false] false (Local [1; 1]) 0 = Some [[]; [1]; [2]; [3]; [1; 3]; [2; 3]] /\
  build_columns nm_sc [true; true] false (Physical [None; None]) 0 = Some [[]; [1]; [2]; [3]; [4]; [1; 3]; [1; 4]; [2; 3]; [2; 4]] /\
  build_columns nm_sc [true; true] false (Physical [Some 0; None]) 0 = Some [[]; [3]; [4]] /\
  build_columns nm_sc [true; true] false (Blocks [[]; [0; 1]; [0; 0]]) 0 = Some [[]; [1; 3]; [1; 4]; [2; 3]; [2; 4]] /\
  parse_spec 2 "local12" = Some (Local [1; 2]) /\ parse_spec 3 "local12" = Some (Local [12; 12; 12]).
Proof.
  split; [exact nm_wf|]. split; [exact nm_separate|]. split; [cbn; intuition lia|]. repeat split; vm_compute; reflexivity.
Qed.

(** "Exactly once" fails for a specification that repeats the identity: duplicates are only
    sorted. *)
Theorem C33_duplicate_identity_refuted :
  build_columns nm_sc [false; false] false (Blocks [[]; [0]; []]) 0 = Some [[]; []; [1]].
Proof. vm_compute. reflexivity. Qed.

(** Explicit columns are taken as they are: one product may be given in two forms, and a
    product may be zero. *)
Theorem C33_explicit_refuted : exists cols, build_columns nm_sc [true; true] false (Words [[1; 3]; [3; 1]; [1; 2]]) 0 = Some cols /\
  ~ pairwise_different (sdp_notcomm nm_sc) (sdp_orthomat nm_sc) cols /\
  exists w, In w cols /\ is_zero_product (sdp_notcomm nm_sc) (sdp_orthomat nm_sc) w.
Proof.
  exists [[1; 3]; [3; 1]; [1; 2]]. split; [vm_compute; reflexivity|]. split.
  - intros D. assert (K : 0 = 1); [|lia]. apply (D 0 1 [1; 3] [3; 1]); [reflexivity|reflexivity|]. apply (pe_comm _ _ [] 1 3 []). vm_compute. reflexivity.
  - exists [1; 2]. split; [cbn; auto|]. apply (pe_ortho _ _ [] 1 2 []). vm_compute. reflexivity.
Qed.
Print Assumptions C33_explicit_refuted.
(** otherwise they are returned unchanged, or sorted if one is repeated *)
Theorem C33_explicit : forall sc hc commuting l mml, 2 <= length l ->
  exists cols, build_columns sc hc commuting (Words l) mml = Some cols /\ Permutation l cols /\ (NoDup l -> cols = l).
Proof.
  intros sc hc co l mml H. exists (finish l). cbn [build_columns]. destruct l as [|a [|b l]]; [cbn in H; lia|cbn in H; lia|].
  split; [reflexivity|]. split; [|apply finish_NoDup]. unfold finish. destruct (no_duplicates _); [apply Permutation_refl|apply ColsProofs3.py_sorted_perm].
Qed.
Print Assumptions C33_explicit.
(** ... and a list of one product is an error *)
Theorem C33_single_column_refuted : forall sc hc commuting w mml, build_columns sc hc commuting (Words [w]) mml = None.
Proof. reflexivity. Qed.

(** If operators of different parties need not commute (two quantum sources that reach both
    parties through intermediate latents), npa misses the products in which the parties are not
    in increasing order. *)
Definition lat_sc : scenario := {|
  outcomes := [2; 2]; private_settings := [1; 1]; parents := [[]; []];
  sources := [ {| s_classical := false; s_children := []; s_latents := [ {| l_nonclassical := true; l_desc := [0; 1] |} ] |};
               {| s_classical := false; s_children := []; s_latents := [ {| l_nonclassical := true; l_desc := [0; 1] |} ] |} ];
  levels := [1; 2] |}.
Lemma lat_wf : wf_scenario lat_sc.
Proof.
  split; [reflexivity|reflexivity| |reflexivity| |]; cbn.
  - intros; intuition subst; cbn in *; intuition lia.
  - intros; intuition lia.
  - intros [|[|p]] H; [| |lia]; eexists; (split; [left; reflexivity|]; right; eexists; split; [left; reflexivity|cbn; auto]).
Qed.
Theorem C33_npa_latents_refuted : exists cols, build_columns lat_sc [false; false] false (Npa 2) 0 = Some cols /\
  usable_word lat_sc [false; false] [7; 1] /\ npa_allowed 2 0 [7; 1] /\
  ~ is_zero_product (sdp_notcomm lat_sc) (sdp_orthomat lat_sc) [7; 1] /\
  ~ exists w, In w cols /\ proj_eq (sdp_notcomm lat_sc) (sdp_orthomat lat_sc) [7; 1] w.
Proof.
  destruct (build_columns lat_sc [false; false] false (Npa 2) 0) as [cols|] eqn:E; [|vm_compute in E; discriminate].
  exists cols. split; [reflexivity|].
  assert (G : good_tables (sdp_notcomm lat_sc) (sdp_orthomat lat_sc)) by apply scenario_good_tables, lat_wf.
  assert (F0 : false = true -> forall a b, sdp_notcomm lat_sc a b = false) by discriminate. split; [|split; [|split]].
  - intros x [<-|[<-|[]]].
    + exists 1. split; [cbn; lia|]. exists [1; 2], 0, 0. split; [vm_compute; reflexivity|right; cbn; lia].
    + exists 0. split; [cbn; lia|]. exists [1; 1], 0, 0. split; [vm_compute; reflexivity|right; cbn; lia].
  - split; [cbn; lia|left; reflexivity].
  - intros Z. apply (F_zero' _ _ false G F0) in Z. vm_compute in Z. discriminate.
  - intros (w & Hw & P). apply (F_eq _ _ false G F0) in P. revert Hw P.
    assert (K : forallb (fun w => match to_canonical_1d_internal (sdp_notcomm lat_sc) (sdp_orthomat lat_sc) false false [7; 1], to_canonical_1d_internal (sdp_notcomm lat_sc) (sdp_orthomat lat_sc) false false w with
      | Some a, Some b => negb (if list_eq_dec Nat.eq_dec a b then true else false) | _, _ => false end) cols = true).
    { vm_compute in E. injection E as <-. vm_compute. reflexivity. }
    rewrite forallb_forall in K. intros Hw P. specialize (K w Hw). rewrite P in K.
    destruct (to_canonical_1d_internal (sdp_notcomm lat_sc) (sdp_orthomat lat_sc) false false w) as [a|]; [|discriminate].
    destruct (list_eq_dec Nat.eq_dec a a); [discriminate|congruence].
Qed.
Print Assumptions C33_npa_latents_refuted.

(** The names are recognised in any case, but "Local" is then treated like "physical". *)
Theorem C33_capital_local_refuted : parse_spec 2 "Local1" = Some (Physical [Some 1; Some 1]) /\ parse_spec 2 "local1" = Some (Local [1; 1]).
Proof. split; vm_compute; reflexivity. Qed.
