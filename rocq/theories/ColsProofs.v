(** Proofs about column generation, part 1: blocks. *)
From Coq Require Import Permutation Sorted.
From Verif Require Import CanonModel CanonSpec CanonProofs CanonProofs2 ScenarioModel ScenarioSpec ScenarioProofs
  SymProofs ColsModel MemoModel ColsSpec.

(** ** itertools.product *)
Lemma cart_in {A} (l : list (list A)) (m : list A) : In m (cart l) <-> Forall2 (fun x c => In x c) m l.
Proof.
  revert m. induction l as [|c l IH]; intros m; cbn [cart].
  - split; [intros [<-|[]]; constructor|]. intros H. inversion H; subst. left; reflexivity.
  - rewrite in_flat_map. split.
    + intros (a & Ha & H). apply in_map_iff in H as (m' & <- & H). constructor; [exact Ha|]. apply IH, H.
    + intros H. inversion H as [|a ? m' ? Ha Hm]; subst. exists a. split; [exact Ha|]. apply in_map, IH, Hm.
Qed.

(** ** the canonicaliser does not add letters *)
Inductive subword {A} : list A -> list A -> Prop :=
| sw_nil : subword [] []
| sw_skip x l l' : subword l l' -> subword l (x :: l')
| sw_keep x l l' : subword l l' -> subword (x :: l) (x :: l').
Lemma subword_refl {A} (l : list A) : subword l l.
Proof. induction l; [constructor|apply sw_keep; assumption]. Qed.
Lemma subword_filter {A} (f : A -> bool) l l' : subword l l' -> length (filter f l) <= length (filter f l').
Proof. induction 1; cbn; [lia| |]; destruct (f x); cbn; lia. Qed.
Lemma subword_length {A} (l l' : list A) : subword l l' -> length l <= length l'.
Proof. induction 1; cbn; lia. Qed.
Lemma subword_full {A} (l l' : list A) : subword l l' -> length l = length l' -> l = l'.
Proof.
  induction 1 as [|x l l' H IH|x l l' H IH]; cbn; intros E; [reflexivity| |].
  - apply subword_length in H. lia.
  - f_equal. apply IH. lia.
Qed.
Lemma squeeze_from_sub p l : subword (squeeze_from p l) l.
Proof. revert p. induction l as [|x l IH]; intros p; cbn; [constructor|]. destruct (x =? p); [apply sw_skip|apply sw_keep]; apply IH. Qed.
Lemma squares_sub l : subword (remove_projector_squares l) l.
Proof. destruct l as [|x l]; cbn; [constructor|]. apply sw_keep, squeeze_from_sub. Qed.
Lemma filter_perm {A} (f : A -> bool) l l' : Permutation l l' -> length (filter f l) = length (filter f l').
Proof. induction 1; cbn; [reflexivity| | |congruence]; destruct (f x); try destruct (f y); cbn; congruence. Qed.

Section Canon.
Variables (nc ortho : table) (commuting : bool).
Hypothesis G : good_tables nc ortho.
Hypothesis Hc : commuting = true -> forall a b, nc a b = false.
Notation F := (to_canonical_1d_internal nc ortho commuting false).

Lemma F_general w : F w = to_canonical_1d_internal nc ortho false false w.
Proof. destruct commuting; [|reflexivity]. apply internal_commuting; auto. Qed.

Lemma F_parts w : exists r, F w = Some r /\ (r = [0] \/ exists w', comm_eq nc w w' /\ subword r w').
Proof.
  rewrite F_general. unfold to_canonical_1d_internal. destruct (Nat.leb_spec (length w) 1).
  - exists w. split; [reflexivity|]. right. exists w. split; [constructor|apply subword_refl].
  - assert (GC : good_comm nc) by (intros a b; apply (gt_nc_sym _ _ G)).
    destruct (canon_correct nc GC w) as (c & E & C & _). rewrite E.
    destruct (lexmon_is_zero ortho c).
    + exists [0]. split; [reflexivity|]. left; reflexivity.
    + eexists. split; [reflexivity|]. right. exists c. split; [exact C|apply squares_sub].
Qed.
Lemma F_same_length w r : F w = Some r -> ~ is_zero_product nc ortho w -> length r = length w -> comm_eq nc w r.
Proof.
  intros E NZ L. destruct (F_parts w) as (r' & E' & H). rewrite E in E'. injection E' as <-.
  destruct H as [->|(w' & C & Sb)].
  - exfalso. apply NZ. apply (proj1 (F_zero_iff nc ortho G w)). rewrite F_general in E. exact E.
  - apply subword_full in Sb; [subst; exact C|]. rewrite L. apply (ce_length nc _ _ C).
Qed.
Lemma F_count w r f : F w = Some r -> ~ is_zero_product nc ortho w -> length (filter f r) <= length (filter f w).
Proof.
  intros E NZ. destruct (F_parts w) as (r' & E' & H). rewrite E in E'. injection E' as <-.
  destruct H as [->|(w' & C & Sb)].
  - exfalso. apply NZ. apply (proj1 (F_zero_iff nc ortho G w)). rewrite F_general in E. exact E.
  - rewrite (filter_perm f w w'); [apply subword_filter, Sb|]. apply (ce_perm nc _ _ C).
Qed.
Lemma F_inc w r : F w = Some r -> ~ is_zero_product nc ortho w -> incl r w /\ length r <= length w.
Proof.
  intros E NZ. destruct (F_shape_spec nc ortho w r G) as [->|(_ & I & L & _)]; [rewrite F_general in E; exact E| |split; assumption].
  exfalso. apply NZ. apply (proj1 (F_zero_iff nc ortho G w)). rewrite F_general in E. exact E.
Qed.
Lemma F_pe w r : F w = Some r -> proj_eq nc ortho w r.
Proof. rewrite F_general. intros E. destruct (F_sound nc ortho G w) as (r' & E' & H). unfold CanonProofs2.F in E'. assert (r' = r) as -> by congruence. exact H. Qed.
Lemma F_idem' w r : F w = Some r -> F r = Some r.
Proof. rewrite !F_general. apply F_idempotent, G. Qed.
Lemma F_some w : exists r, F w = Some r.
Proof. destruct (F_parts w) as (r & E & _). eauto. Qed.
Lemma F_eq u v : proj_eq nc ortho u v -> F u = F v.
Proof. rewrite !F_general. apply F_invariant, G. Qed.
Lemma F_zero' w : F w = Some [0] <-> is_zero_product nc ortho w.
Proof. rewrite F_general. apply F_zero_iff, G. Qed.
End Canon.

(** ** the loops *)
Lemma NoDup_app_snoc' {A} (l : list A) x : ~ In x l -> NoDup l -> NoDup (l ++ [x]).
Proof. intros H N. apply Permutation_NoDup with (x :: l); [apply Permutation_cons_append|constructor; assumption]. Qed.

Section Loops.
Variables (sc : scenario) (hc : list bool) (commuting : bool).
Hypothesis W : wf_scenario sc.
Notation nc := (sdp_notcomm sc).
Notation ortho := (sdp_orthomat sc).
Hypothesis Hc : commuting = true -> forall a b, nc a b = false.
Let G : good_tables nc ortho := scenario_good_tables sc W.
Notation cn := (canon sc commuting).

Lemma word_eqb_iff a b : word_eqb a b = true <-> a = b.
Proof. unfold word_eqb. match goal with |- context [if ?d then _ else _] => destruct d as [E|E] end; split; congruence. Qed.
Lemma seen_iff w l : seen w l = true <-> In w l.
Proof.
  unfold seen. rewrite existsb_exists. split.
  - intros (x & H & E). apply word_eqb_iff in E. subst; exact H.
  - intros H. exists w. split; [exact H|]. apply word_eqb_iff. reflexivity.
Qed.

Definition good_state (st : col_state) : Prop := (forall w, In w (fst st) <-> In w (snd st)) /\ NoDup (snd st).
Definition yields (block : list nat) (ms : list word) (w : word) : Prop :=
  exists m, In m ms /\ cn m = Some w /\ w <> [0] /\ length w = length block.

Lemma add_words_spec block ms : forall st, good_state st ->
  exists st' new, add_words sc commuting block ms st = Some st' /\ good_state st' /\ snd st' = snd st ++ new /\
    forall w, In w (snd st') <-> In w (snd st) \/ yields block ms w.
Proof.
  induction ms as [|m ms IH]; intros st [I N]; cbn [add_words].
  - exists st, []. rewrite app_nil_r. split; [reflexivity|]. split; [split; assumption|]. split; [reflexivity|].
    intros w. split; [auto|]. intros [H|(m & [] & _)]; exact H.
  - unfold add_word. destruct (F_some nc ortho commuting G Hc m) as (c & E). unfold canon. rewrite E.
    destruct (negb (word_eqb c [0]) && (length c =? length block)) eqn:T.
    + apply andb_prop in T as [T1 T2]. apply Nat.eqb_eq in T2.
      assert (c <> [0]) by (intros X; apply word_eqb_iff in X; rewrite X in T1; discriminate).
      destruct (seen c (fst st)) eqn:Sn.
      * destruct (IH st (conj I N)) as (st' & new & H1 & H2 & H3 & H4). exists st', new.
        split; [exact H1|]. split; [exact H2|]. split; [exact H3|]. intros w. rewrite H4.
        split; intros [H'|H']; try (left; exact H').
        -- right. destruct H' as (m' & A & B). exists m'. split; [right; exact A|exact B].
        -- destruct H' as (m' & [<-|A] & B & C); [|right; exists m'; split; [exact A|split; assumption]].
           left. apply I. apply seen_iff. unfold canon in B. rewrite E in B. injection B as <-. exact Sn.
      * destruct (IH (c :: fst st, snd st ++ [c])) as (st' & new & H1 & H2 & H3 & H4).
        { assert (NI : ~ In c (snd st)). { intros K. apply I in K. apply seen_iff in K. congruence. }
          split; cbn [fst snd].
          - intros w. rewrite in_app_iff. cbn [In]. rewrite I. tauto.
          - apply NoDup_app_snoc'; assumption. }
        exists st', (c :: new). cbn [fst snd] in *. split; [exact H1|]. split; [exact H2|].
        split; [rewrite H3, <- app_assoc; reflexivity|]. intros w. rewrite H4, in_app_iff. cbn [In].
        split.
        -- intros [[K|[<-|[]]]|(m' & A & B)]; [left; exact K| |right; exists m'; split; [right; exact A|exact B]].
           right. exists m. split; [left; reflexivity|]. split; [exact E|]. split; assumption.
        -- intros [K|(m' & [<-|A] & B)]; [left; left; exact K| |right; exists m'; split; assumption].
           left. right. left. destruct B as [B _]. unfold canon in B. rewrite E in B. injection B as <-. reflexivity.
    + destruct (IH st (conj I N)) as (st' & new & H1 & H2 & H3 & H4). exists st', new.
      split; [exact H1|]. split; [exact H2|]. split; [exact H3|]. intros w. rewrite H4.
      split; intros [H'|H']; try (left; exact H').
      * right. destruct H' as (m' & A & B). exists m'. split; [right; exact A|exact B].
      * destruct H' as (m' & [<-|A] & B & C & D); [|right; exists m'; split; [assumption|split; [assumption|split; assumption]]].
        exfalso. unfold canon in B. rewrite E in B. injection B as <-. apply andb_false_iff in T as [T|T].
        -- apply negb_false_iff, word_eqb_iff in T. contradiction.
        -- apply Nat.eqb_neq in T. contradiction.
Qed.

Definition produced (specs : list (list nat)) (w : word) : Prop :=
  exists block, In block specs /\ ((block = [] /\ w = []) \/ (block <> [] /\ yields block (cart (map (meas_ops sc hc) block)) w)).
Lemma add_blocks_spec specs : forall st, good_state st -> count_occ (list_eq_dec Nat.eq_dec) specs [] <= (if in_dec (list_eq_dec Nat.eq_dec) [] (snd st) then 0 else 1) ->
  exists st' new, add_blocks sc hc commuting specs st = Some st' /\ good_state st' /\ snd st' = snd st ++ new /\
    (forall w, In w (snd st') <-> In w (snd st) \/ produced specs w).
Proof.
  induction specs as [|b specs IH]; intros st GS HC; cbn [add_blocks].
  - exists st, []. rewrite app_nil_r. split; [reflexivity|]. split; [exact GS|]. split; [reflexivity|].
    intros w. split; [auto|]. intros [H|(bl & [] & _)]; exact H.
  - destruct b as [|p b].
    + cbn [add_block]. cbn [count_occ] in HC. destruct (list_eq_dec Nat.eq_dec [] []) as [_|]; [|congruence].
      destruct (in_dec (list_eq_dec Nat.eq_dec) [] (snd st)) as [|NI]; [lia|].
      destruct (IH ([] :: fst st, snd st ++ [[]])) as (st' & new & H1 & H2 & H3 & H4).
      { destruct GS as [I N]. split; cbn [fst snd].
        - intros w. rewrite in_app_iff. cbn [In]. rewrite I. tauto.
        - apply NoDup_app_snoc'; assumption. }
      { cbn [snd]. destruct (in_dec _ [] (snd st ++ [[]])) as [|X]; [lia|]. exfalso. apply X, in_or_app. right; left; reflexivity. }
      exists st', ([] :: new). cbn [fst snd] in *. split; [exact H1|]. split; [exact H2|].
      split; [rewrite H3, <- app_assoc; reflexivity|]. intros w. rewrite H4, in_app_iff. cbn [In]. split.
      * intros [[K|[<-|[]]]|(bl & A & B)]; [left; exact K| |right; exists bl; split; [right; exact A|exact B]].
        right. exists []. split; [left; reflexivity|]. left. auto.
      * intros [K|(bl & [<-|A] & B)]; [left; left; exact K| |right; exists bl; split; assumption].
        destruct B as [[_ ->]|[X _]]; [left; right; left; reflexivity|congruence].
    + unfold add_block. destruct (add_words_spec (p :: b) (cart (map (meas_ops sc hc) (p :: b))) st GS) as (st1 & new1 & A1 & A2 & A3 & A4).
      rewrite A1. assert (NE : forall w, yields (p :: b) (cart (map (meas_ops sc hc) (p :: b))) w -> w <> []).
      { intros w (m & _ & _ & _ & L) ->. discriminate. }
      destruct (IH st1 A2) as (st' & new & H1 & H2 & H3 & H4).
      { cbn [count_occ] in HC. destruct (list_eq_dec Nat.eq_dec (p :: b) []) as [|_]; [congruence|].
        eapply Nat.le_trans; [exact HC|]. destruct (in_dec (list_eq_dec Nat.eq_dec) [] (snd st1)) as [Y|Y]; destruct (in_dec (list_eq_dec Nat.eq_dec) [] (snd st)) as [Z|Z]; try lia.
        apply A4 in Y as [Y|Y]; [contradiction|]. apply NE in Y. congruence. }
      exists st', (new1 ++ new). split; [exact H1|]. split; [exact H2|]. split; [rewrite H3, A3, app_assoc; reflexivity|].
      intros w. rewrite H4, A4. split.
      * intros [[K|K]|(bl & A & B)]; [left; exact K| |right; exists bl; split; [right; exact A|exact B]].
        right. exists (p :: b). split; [left; reflexivity|]. right. split; [discriminate|exact K].
      * intros [K|(bl & [<-|A] & B)]; [left; left; exact K| |right; exists bl; split; assumption].
        destruct B as [[X _]|[_ B]]; [discriminate|left; right; exact B].
Qed.

Lemma build_spec specs : count_occ (list_eq_dec Nat.eq_dec) specs [] <= 1 ->
  exists cols, build_cols_from_specs sc hc commuting specs = Some cols /\ NoDup cols /\
    (forall w, In w cols <-> produced specs w).
Proof.
  intros HC. unfold build_cols_from_specs. destruct (add_blocks_spec specs ([], [])) as (st & new & H1 & [H2 H2'] & H3 & H4).
  - split; [intros w; tauto|constructor].
  - cbn [snd]. match goal with |- context [if ?d then _ else _] => destruct d as [[]|_] end. exact HC.
  - rewrite H1. exists (snd st). split; [reflexivity|]. split; [exact H2'|]. intros w. rewrite H4. cbn. tauto.
Qed.
(** the first block comes first *)
Lemma build_first specs : count_occ (list_eq_dec Nat.eq_dec) specs [] = 0 ->
  exists cols, build_cols_from_specs sc hc commuting ([] :: specs) = Some ([] :: cols).
Proof.
  intros HC. unfold build_cols_from_specs. cbn [add_blocks add_block fst snd app].
  destruct (add_blocks_spec specs ([[]], [[]])) as (st & new & H1 & _ & H3 & _).
  - split; [intros w; tauto|]. cbn. constructor; [intros []|constructor].
  - lia.
  - exists new. transitivity (option_map (@snd (list word) (list word)) (Some st)); [f_equal; exact H1|]. cbn [option_map]. cbn [snd] in H3. rewrite H3. reflexivity.
Qed.
End Loops.
