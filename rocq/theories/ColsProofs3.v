(** Proofs about column generation, part 3: local levels. *)
From Coq Require Import Permutation Sorted.
From Verif Require LPProofs3.
From Verif Require Import CanonModel CanonSpec CanonProofs CanonProofs2 ScenarioModel ScenarioSpec ScenarioProofs
  SymProofs ColsModel MemoModel ColsSpec ColsProofs ColsProofs2.

(** ** the stable sort *)
Section Sort.
Context {A : Type} (lt : A -> A -> bool).
Lemma sort_insert_perm x l : Permutation (x :: l) (sort_insert lt x l).
Proof. induction l as [|y l IH]; cbn; [reflexivity|]. destruct (lt y x); [|reflexivity]. rewrite perm_swap. constructor. exact IH. Qed.
Lemma py_sorted_perm l : Permutation l (py_sorted lt l).
Proof. induction l as [|x l IH]; cbn; [constructor|]. rewrite <- sort_insert_perm. constructor. exact IH. Qed.
Lemma py_sorted_key (key : A -> nat) l : (forall x y, lt x y = true -> key x <= key y) -> (forall x y, lt x y = false -> key y <= key x) ->
  StronglySorted (fun a b => key a <= key b) (py_sorted lt l).
Proof.
  intros H1 H2. induction l as [|x l IH]; cbn [py_sorted]; [constructor|]. revert IH. generalize (py_sorted lt l). clear l.
  induction 1 as [|y l S IH F]; cbn [sort_insert]; [repeat constructor|]. destruct (lt y x) eqn:E; constructor.
  - exact IH.
  - rewrite Forall_forall in *. intros z Hz. apply (Permutation_in _ (Permutation_sym (sort_insert_perm x l))) in Hz as [<-|Hz]; [apply H1, E|apply F, Hz].
  - constructor; assumption.
  - constructor; [apply H2, E|]. rewrite Forall_forall in *. intros z Hz. specialize (F z Hz). specialize (H2 _ _ E). lia.
Qed.
End Sort.

Lemma cart_NoDup {A} (l : list (list A)) : (forall c, In c l -> NoDup c) -> NoDup (cart l).
Proof.
  induction l as [|c l IH]; intros H; cbn [cart]; [constructor; [intros []|constructor]|].
  assert (Nc : NoDup c) by (apply H; left; reflexivity). assert (NI : NoDup (cart l)) by (apply IH; intros d Hd; apply H; right; exact Hd).
  clear H IH. induction Nc as [|a c Ha Nc IH]; cbn [flat_map]; [constructor|].
  apply LPProofs3.NoDup_app_intro.
  - apply FinFun.Injective_map_NoDup; [intros u v E; congruence|exact NI].
  - exact IH.
  - intros m H1 H2. apply in_map_iff in H1 as (u & <- & _). apply in_flat_map in H2 as (b & Hb & H2). apply in_map_iff in H2 as (v & E & _). congruence.
Qed.

Section Local.
Variables (sc : scenario) (hc : list bool) (commuting : bool).
Hypothesis W : wf_scenario sc.
Notation nc := (sdp_notcomm sc).
Notation ortho := (sdp_orthomat sc).
Hypothesis Hc : commuting = true -> forall a b, nc a b = false.
Hypothesis Sep : separate_parties sc.
Let G : good_tables nc ortho := scenario_good_tables sc W.
Notation P := (nr_parties sc).

(** frequency vectors *)
Definition freq_ok (lengths : list nat) (mml : nat) (f : list nat) : Prop :=
  length f = length lengths /\ (forall p, nth p f 0 <= nth p lengths 0) /\ list_sum f <= local_length lengths mml.
Definition freqs lengths mml :=
  filter (fun f => list_sum f <=? local_length lengths mml) (cart (map (fun level => seq 0 (level + 1)) lengths)).
Lemma freqs_in lengths mml f : In f (freqs lengths mml) <-> freq_ok lengths mml f.
Proof.
  unfold freqs, freq_ok. rewrite filter_In, cart_in, Nat.leb_le.
  assert (E : Forall2 (fun x c => In x c) f (map (fun level => seq 0 (level + 1)) lengths) <-> length f = length lengths /\ forall p, nth p f 0 <= nth p lengths 0).
  { revert f. induction lengths as [|k ks IH]; intros f; cbn [map].
    - split.
      + intros H. inversion H; subst. split; [reflexivity|]. intros [|p]; cbn; lia.
      + intros [H _]. destruct f; [constructor|discriminate].
    - split.
      + intros H. inversion H as [|x ? f' ? Hx Hf]; subst. apply IH in Hf as [H1 H2]. split; [cbn; congruence|].
        intros [|p]; cbn; [apply in_seq in Hx; lia|apply H2].
      + intros [H1 H2]. destruct f as [|x f]; [discriminate|]. constructor.
        * apply in_seq. specialize (H2 0). cbn in H2. lia.
        * apply IH. split; [cbn in H1; lia|]. intros p. apply (H2 (S p)). }
  rewrite E. tauto.
Qed.
Lemma freqs_NoDup lengths mml : NoDup (freqs lengths mml).
Proof. apply NoDup_filter, cart_NoDup. intros c H. apply in_map_iff in H as (k & <- & _). apply seq_NoDup. Qed.

(** blocks of frequencies *)
Lemma block_count f p : p < P -> count_occ Nat.eq_dec (block_of_freq sc f) p = nth p f 0.
Proof.
  unfold block_of_freq. generalize P. intros n. enough (H : forall m s, s <= p < s + m -> count_occ Nat.eq_dec (flat_map (fun q => repeat q (nth q f 0)) (seq s m)) p = nth p f 0).
  { intros Hp. apply H. lia. }
  assert (CR : forall q k, count_occ Nat.eq_dec (repeat q k) p = if Nat.eq_dec q p then k else 0).
  { intros q k. induction k as [|k IH]; cbn [repeat count_occ]; [destruct (Nat.eq_dec q p); reflexivity|]. destruct (Nat.eq_dec q p); rewrite IH; reflexivity. }
  induction m as [|m IH]; intros s Hs; [lia|]. cbn [seq flat_map]. rewrite count_occ_app, CR. destruct (Nat.eq_dec s p) as [->|Hne].
  - rewrite (proj1 (count_occ_not_In _ _ _)); [lia|]. rewrite in_flat_map. intros (q & Hq & H). apply repeat_spec in H. apply in_seq in Hq. lia.
  - rewrite IH by lia. reflexivity.
Qed.
Lemma block_range f p : In p (block_of_freq sc f) -> p < P.
Proof. unfold block_of_freq. rewrite in_flat_map. intros (q & Hq & H). apply repeat_spec in H. apply in_seq in Hq. lia. Qed.
Lemma block_sorted f : StronglySorted le (block_of_freq sc f).
Proof.
  unfold block_of_freq. generalize (seq_NoDup P 0). intros _. enough (H : forall m s, StronglySorted le (flat_map (fun q => repeat q (nth q f 0)) (seq s m))) by apply H.
  induction m as [|m IH]; intros s; [constructor|]. cbn [seq flat_map].
  assert (A : Forall (le s) (flat_map (fun q => repeat q (nth q f 0)) (seq (S s) m))).
  { apply Forall_forall. intros x Hx. apply in_flat_map in Hx as (q & Hq & H). apply repeat_spec in H. apply in_seq in Hq. lia. }
  induction (nth s f 0) as [|k IHk]; cbn [repeat app]; [apply IH|]. constructor; [exact IHk|].
  apply Forall_app. split; [|exact A]. apply Forall_forall. intros x Hx. apply repeat_spec in Hx. lia.
Qed.
Lemma sorted_unique (l l' : list nat) : StronglySorted le l -> StronglySorted le l' -> Permutation l l' -> l = l'.
Proof. intros H H' Pm. apply lex_antisym; apply sorted_lex_least; auto. apply Permutation_sym, Pm. Qed.
Definition freq_of (l : list nat) : list nat := map (count_occ Nat.eq_dec l) (seq 0 P).
Lemma freq_of_nth l p : p < P -> nth p (freq_of l) 0 = count_occ Nat.eq_dec l p.
Proof. intros H. unfold freq_of. rewrite (nth_indep _ 0 (count_occ Nat.eq_dec l 0)) by (rewrite map_length, seq_length; exact H). rewrite map_nth, seq_nth by exact H. reflexivity. Qed.
Lemma block_freq_of l : StronglySorted le l -> (forall p, In p l -> p < P) -> block_of_freq sc (freq_of l) = l.
Proof.
  intros Hs Hr. apply sorted_unique; [apply block_sorted|exact Hs|]. apply (Permutation_count_occ Nat.eq_dec). intros p.
  destruct (Nat.lt_ge_cases p P) as [Hp|Hp].
  - rewrite block_count, freq_of_nth by exact Hp. reflexivity.
  - rewrite (proj1 (count_occ_not_In _ _ _)), (proj1 (count_occ_not_In _ _ _)); [reflexivity| |].
    + intros H. apply Hr in H. lia.
    + intros H. apply block_range in H. lia.
Qed.
Lemma cnt_sum l x s : NoDup s -> In x s -> list_sum (map (count_occ Nat.eq_dec (x :: l)) s) = S (list_sum (map (count_occ Nat.eq_dec l) s)).
Proof.
  induction 1 as [|q s Hq N IH]; intros Hin; [destruct Hin|]. cbn [map].
  change (count_occ Nat.eq_dec (x :: l) q + list_sum (map (count_occ Nat.eq_dec (x :: l)) s) = S (count_occ Nat.eq_dec l q + list_sum (map (count_occ Nat.eq_dec l) s))).
  destruct (Nat.eq_dec x q) as [->|Hne].
  - rewrite count_occ_cons_eq by reflexivity. rewrite (map_ext_in _ (count_occ Nat.eq_dec l) s); [reflexivity|].
    intros y Hy. apply count_occ_cons_neq. intros ->. contradiction.
  - rewrite count_occ_cons_neq by exact Hne. destruct Hin as [E|Hin]; [congruence|]. rewrite (IH Hin). lia.
Qed.
Lemma list_sum_counts l : (forall p, In p l -> p < P) -> list_sum (freq_of l) = length l.
Proof.
  unfold freq_of. induction l as [|x l IH]; intros H.
  - cbn. clear. induction (seq 0 P) as [|? ? IH]; cbn; auto.
  - cbn [length]. rewrite <- (IH (fun p Hp => H p (or_intror Hp))). specialize (H x (or_introl eq_refl)).
    assert (Hin : In x (seq 0 P)) by (apply in_seq; lia). pose proof (seq_NoDup P 0) as N.
    apply cnt_sum; assumption.
Qed.
Lemma block_length f : length f = P -> length (block_of_freq sc f) = list_sum f.
Proof.
  intros L. rewrite <- list_sum_counts by apply block_range. f_equal. apply (nth_ext _ _ 0 0).
  - unfold freq_of. rewrite map_length, seq_length. symmetry; exact L.
  - intros p Hp. unfold freq_of in Hp. rewrite map_length, seq_length in Hp. rewrite freq_of_nth, block_count by exact Hp. reflexivity.
Qed.

Lemma local_in lengths mml block : length lengths = P -> In block (local_specs sc lengths mml) <->
  (forall p, In p block -> p < P) /\ StronglySorted le block /\ (forall p, count_occ Nat.eq_dec block p <= nth p lengths 0) /\ length block <= local_length lengths mml.
Proof.
  intros HL. unfold local_specs. fold (freqs lengths mml). rewrite in_map_iff. split.
  - intros (f & <- & Hf). apply (Permutation_in _ (Permutation_sym (py_sorted_perm freq_lt _))) in Hf. apply freqs_in in Hf as (F1 & F2 & F3).
    split; [intros p; apply block_range|]. split; [apply block_sorted|]. split.
    + intros p. destruct (Nat.lt_ge_cases p P) as [Hp|Hp]; [rewrite block_count by exact Hp; apply F2|].
      rewrite (proj1 (count_occ_not_In _ _ _)); [lia|]. intros H. apply block_range in H. lia.
    + rewrite block_length by congruence. exact F3.
  - intros (H1 & H2 & H3 & H4). exists (freq_of block). split; [apply block_freq_of; assumption|].
    apply (Permutation_in _ (py_sorted_perm freq_lt _)). apply freqs_in. split; [|split].
    + unfold freq_of. rewrite map_length, seq_length. symmetry; exact HL.
    + intros p. destruct (Nat.lt_ge_cases p P) as [Hp|Hp]; [rewrite freq_of_nth by exact Hp; apply H3|].
      rewrite nth_overflow; [lia|]. unfold freq_of. rewrite map_length, seq_length. exact Hp.
    + rewrite list_sum_counts by exact H1. exact H4.
Qed.
Lemma freq_lt_key : (forall x y, freq_lt x y = true -> list_sum x <= list_sum y) /\ (forall x y, freq_lt x y = false -> list_sum y <= list_sum x).
Proof.
  split; intros x y; unfold freq_lt; destruct (Nat.eqb_spec (list_sum x) (list_sum y)); intros H; try lia.
  - apply Nat.ltb_lt in H. lia.
  - apply Nat.ltb_ge in H. lia.
Qed.
Lemma sum0 f : list_sum f = 0 -> f = repeat 0 (length f).
Proof. induction f as [|x f IH]; cbn; [reflexivity|]. intros H. assert (x = 0) as -> by lia. f_equal. apply IH. unfold list_sum. lia. Qed.
Lemma sum_repeat0 k : list_sum (repeat 0 k) = 0.
Proof. induction k; cbn; auto. Qed.
Lemma local_first lengths mml : length lengths = P -> exists t, local_specs sc lengths mml = [] :: t /\ count_occ (list_eq_dec Nat.eq_dec) t [] = 0.
Proof.
  intros HL. unfold local_specs. fold (freqs lengths mml).
  assert (Z : In (repeat 0 P) (py_sorted freq_lt (freqs lengths mml))).
  { apply (Permutation_in _ (py_sorted_perm freq_lt _)). apply freqs_in. split; [rewrite repeat_length; congruence|]. split.
    - intros p. rewrite nth_repeat. lia.
    - rewrite sum_repeat0. lia. }
  pose proof (py_sorted_key freq_lt list_sum (freqs lengths mml) (proj1 freq_lt_key) (proj2 freq_lt_key)) as SS.
  assert (ND : NoDup (py_sorted freq_lt (freqs lengths mml))) by (eapply Permutation_NoDup; [apply py_sorted_perm|apply freqs_NoDup]).
  assert (LEN : forall f, In f (py_sorted freq_lt (freqs lengths mml)) -> length f = P).
  { intros f Hf. apply (Permutation_in _ (Permutation_sym (py_sorted_perm freq_lt _))), freqs_in in Hf as [H _]. congruence. }
  destruct (py_sorted freq_lt (freqs lengths mml)) as [|f fs]; [destruct Z|].
  assert (f = repeat 0 P) as ->.
  { destruct Z as [->|Z]; [reflexivity|]. inversion SS as [|? ? _ F]; subst. rewrite Forall_forall in F. specialize (F _ Z). rewrite sum_repeat0 in F.
    rewrite <- (LEN f (or_introl eq_refl)). apply sum0. lia. }
  exists (map (block_of_freq sc) fs). split.
  - cbn [map]. f_equal. destruct (block_of_freq sc (repeat 0 P)) as [|p b] eqn:E; [reflexivity|]. exfalso.
    apply (f_equal (@length _)) in E. rewrite block_length, sum_repeat0 in E by apply repeat_length. discriminate.
  - apply count_occ_not_In. intros H. apply in_map_iff in H as (f & E & Hf).
    apply (f_equal (@length _)) in E. rewrite block_length in E by (apply LEN; right; exact Hf). cbn in E.
    apply sum0 in E. rewrite (LEN f (or_intror Hf)) in E. subst f. inversion ND; contradiction.
Qed.

Lemma party_count_occ m p : usable_word sc hc m -> party_count sc p m = count_occ Nat.eq_dec (map (party_of sc) m) p.
Proof.
  unfold party_count. induction m as [|x m IH]; intros U; [reflexivity|]. cbn [filter map count_occ].
  rewrite <- IH by (intros z Hz; apply U; right; exact Hz). destruct (U x (or_introl eq_refl)) as (q & Hq). pose proof (usable_party sc hc x q Hq) as E.
  destruct Hq as (_ & c & s & o & Hx & _). rewrite Hx, mkrow_party, E. destruct (Nat.eq_dec q p) as [->|Hne].
  - rewrite Nat.eqb_refl. reflexivity.
  - destruct (Nat.eqb_spec (q + 1) (p + 1)); [lia|reflexivity].
Qed.

Theorem local_correct lengths mml : length lengths = P ->
  exists cols, build_cols_from_specs sc hc commuting (local_specs sc lengths mml) = Some cols /\ NoDup cols /\
    hd_error cols = Some [] /\ pairwise_different nc ortho cols /\
    (forall w, In w cols -> ~ is_zero_product nc ortho w /\ usable_word sc hc w /\ canon sc commuting w = Some w /\
       length w <= local_length lengths mml /\ (forall p, party_count sc p w <= nth p lengths 0)) /\
    (forall m, usable_word sc hc m -> length m <= local_length lengths mml -> (forall p, party_count sc p m <= nth p lengths 0) ->
       is_zero_product nc ortho m \/ exists w, In w cols /\ proj_eq nc ortho m w).
Proof.
  intros HL. destruct (local_first lengths mml HL) as (t & Et & Ct).
  assert (C1 : count_occ (list_eq_dec Nat.eq_dec) (local_specs sc lengths mml) [] = 1).
  { rewrite Et. cbn [count_occ]. match goal with |- (if ?d then _ else _) = _ => destruct d as [_|K]; [|congruence] end. rewrite Ct. reflexivity. }
  destruct (build_spec sc hc commuting W Hc (local_specs sc lengths mml)) as (cols & E & N & Pr); [lia|].
  exists cols. split; [exact E|]. split; [exact N|]. split; [rewrite Et in *; eapply first_is_identity; eassumption|].
  split. { apply (canonical_different sc commuting W Hc); [exact N|]. intros w Hw. apply Pr, produced_comm in Hw; tauto. }
  split.
  - intros w Hw. apply Pr, produced_comm in Hw as (Cw & NZ & block & m & Hb & Hm & C); [|assumption..].
    assert (Uw : usable_word sc hc w) by (eapply usable_perm; [apply (ce_perm nc), C|eapply of_block_usable, Hm]).
    destruct (of_block_parties sc hc _ _ Hm) as [Eb Rb]. apply (local_in lengths mml block HL) in Hb as (_ & _ & B3 & B4).
    split; [exact NZ|]. split; [exact Uw|]. split; [exact Cw|]. split.
    + rewrite <- (ce_length nc _ _ C), (of_block_length sc hc _ _ Hm). exact B4.
    + intros p. rewrite party_count_occ by exact Uw. specialize (B3 p). rewrite Eb in B3.
      rewrite <- (proj1 (Permutation_count_occ Nat.eq_dec _ _) (Permutation_map (party_of sc) (ce_perm nc _ _ C))). exact B3.
  - intros m U L Cm. destruct (F_some nc ortho commuting G Hc m) as (r0 & Er0).
    destruct (list_eq_dec Nat.eq_dec r0 [0]) as [->|NZ0]; [left; apply (F_zero' nc ortho commuting G Hc), Er0|right].
    assert (Z : ~ is_zero_product nc ortho m).
    { intros Z. apply (F_zero' nc ortho commuting G Hc) in Z. apply NZ0. exact (f_equal (fun o => match o with Some x => x | None => [] end) (eq_trans (eq_sym Er0) Z)). }
    destruct (canonical_form sc hc commuting W Hc m U Z) as (r & _ & Er & NZ & Ur & Pe & Lr & Cr). exists r. split; [|exact Pe].
    apply Pr. apply (canonical_produced sc hc commuting W Hc Sep); [exact Ur|exact Er|exact NZ|]. apply (local_in _ _ _ HL).
    pose proof (psort_perm sc r) as PS. split; [|split; [apply psort_sorted|split]].
    + intros p Hp. apply in_map_iff in Hp as (x & <- & Hx). apply (Permutation_in _ (Permutation_sym PS)) in Hx.
      destruct (Ur x Hx) as (q & Hq). rewrite (usable_party sc hc _ _ Hq). apply Hq.
    + intros p. rewrite <- (proj1 (Permutation_count_occ Nat.eq_dec _ _) (Permutation_map (party_of sc) PS)).
      rewrite <- party_count_occ by exact Ur. specialize (Cr p). specialize (Cm p). lia.
    + rewrite map_length, <- (Permutation_length PS). lia.
Qed.
End Local.
