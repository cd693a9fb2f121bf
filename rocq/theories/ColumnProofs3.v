(** The scenario's symmetries satisfy the hypotheses of ColumnProofs. *)
From Coq Require Import Permutation.
From Verif Require Import CanonModel CanonSpec ScenarioModel ScenarioSpec ScenarioProofs SymModel SymSpec SymProofs OrbitSpec ColumnModel ColumnSpec.

Lemma nth_pad g a : nth (S a) (0 :: map S g) 0 = if a <? length g then S (nth a g 0) else 0.
Proof.
  cbn [nth]. destruct (Nat.ltb_spec a (length g)) as [H|H]; [|apply nth_overflow; rewrite map_length; exact H].
  rewrite (nth_indep _ 0 (S 0)) by (rewrite map_length; exact H). apply map_nth.
Qed.
Lemma pad_seq n : 0 :: map S (seq 0 n) = seq 0 (S n).
Proof. cbn [seq]. f_equal. apply seq_shift. Qed.
Lemma pad_compose g h : (forall j, In j h -> j < length g) ->
  OrbitSpec.compose (0 :: map S g) (0 :: map S h) = 0 :: map S (SymProofs.compose g h).
Proof.
  intros H. unfold OrbitSpec.compose, SymProofs.compose. cbn [map]. f_equal. rewrite !map_map. apply map_ext_in. intros j Hj. rewrite nth_pad.
  destruct (Nat.ltb_spec j (length g)) as [_|Q]; [reflexivity|]. specialize (H j Hj). lia.
Qed.

Lemma pad_in sc g : In g (discover_lexorder_symmetries sc) -> In (0 :: map S g) (sdp_lexorder_symmetries sc).
Proof. intros H. unfold sdp_lexorder_symmetries. apply in_map_iff. eauto. Qed.

Theorem scenario_symmetries sc : wf_scenario sc ->
  operator_symmetries (sdp_notcomm sc) (sdp_orthomat sc) (S (length (lexorder sc))) (sdp_lexorder_symmetries sc).
Proof.
  intros W. set (n := length (lexorder sc)).
  assert (IN : forall g', In g' (sdp_lexorder_symmetries sc) -> exists g sg, g' = 0 :: map S g /\ In g (discover_lexorder_symmetries sc) /\
       is_relabelling sc sg /\ induces sc sg g /\ Permutation g (seq 0 n) /\ length g = n).
  { intros g' H. apply in_map_iff in H as (g & <- & Hg). assert (Hg' := Hg). apply discover_exact in Hg as (sg & R & I); [|exact W]. exists g, sg.
    assert (P : Permutation g (seq 0 n)) by (eapply induces_perm; eassumption). split; [reflexivity|]. split; [exact Hg'|]. split; [exact R|]. split; [exact I|]. split; [exact P|]. rewrite (Permutation_length P). apply seq_length. }
  split.
  - destruct (discover_head sc) as (t & E). unfold sdp_lexorder_symmetries. rewrite E. cbn [map]. rewrite pad_seq. eauto.
  - intros g' H. destruct (IN g' H) as (g & sg & -> & Hg & R & I & P & Lg). rewrite <- pad_seq. constructor. apply Permutation_map, P.
  - intros g' H. destruct (IN g' H) as (g & sg & -> & _). reflexivity.
  - intros g' a b H Ha Hb. destruct (IN g' H) as (g & sg & -> & Hg & R & I & P & Lg).
    destruct a as [|a]; [reflexivity|]. rewrite nth_pad. rewrite Lg. destruct (Nat.ltb_spec a n) as [Ha'|]; [|lia].
    destruct b as [|b]; [reflexivity|]. rewrite nth_pad. rewrite Lg. destruct (Nat.ltb_spec b n) as [Hb'|]; [|lia].
    cbn [sdp_notcomm]. eapply notcomm_invariant; eassumption.
  - intros g' a b H Ha Hb. destruct (IN g' H) as (g & sg & -> & Hg & R & I & P & Lg).
    destruct a as [|a]; [reflexivity|]. rewrite nth_pad. rewrite Lg. destruct (Nat.ltb_spec a n) as [Ha'|]; [|lia].
    destruct b as [|b]; [reflexivity|]. rewrite nth_pad. rewrite Lg. destruct (Nat.ltb_spec b n) as [Hb'|]; [|lia].
    destruct (lexorder_parts sc a W Ha') as (p & c & s & o & Ea & Va). destruct (lexorder_parts sc b W Hb') as (q & d & t & u & Eb & Vb).
    pose proof (induces_nth _ _ _ _ _ _ _ _ I Ea) as Ga. pose proof (induces_nth _ _ _ _ _ _ _ _ I Eb) as Gb.
    apply eq_iff_eq_true. rewrite !sdp_ortho_S, Ea, Eb, Ga, Gb.
    assert (RL : forall x y, removelast (mkrow (p + 1) x s o) = removelast (mkrow (q + 1) y t u) <-> p = q /\ x = y /\ s = t).
    { intros x y. rewrite !mkrow_removelast. split.
      - intros Q. injection Q as Q1 Q2. apply app_inj_tail in Q2 as [Q2 Q3]. split; [lia|auto].
      - intros (-> & -> & ->). reflexivity. }
    assert (INJ : relabel sg c = relabel sg d -> c = d).
    { intros Q. apply list_ext; [rewrite (proj1 (proj2 Va)), (proj1 (proj2 Vb)); reflexivity|]. intros k Hk. rewrite (proj1 (proj2 Va)) in Hk.
      eapply (relabel_inj sc sg c d R); auto; try apply Va; try apply Vb; try (intros; eapply valid_copy; eauto). rewrite Q. reflexivity. }
    assert (IDX : nth a g 0 <> nth b g 0 <-> a <> b).
    { split; intros Q Q'; apply Q; [congruence|]. apply (proj1 (NoDup_nth g 0)); try lia. apply (Permutation_NoDup (Permutation_sym P)), seq_NoDup. }
    split; intros (ra & rb & [= <-] & [= <-] & H1 & H2 & H3); eexists _, _; (split; [reflexivity|]); (split; [reflexivity|]);
      rewrite !mkrow_outcome in *; (split; [apply IDX; exact H1|]); (split; [exact H2|]); apply RL in H3; auto; apply RL; auto; destruct H3 as (-> & Q & ->); repeat split; auto.
    congruence.
  - intros g' h' H1 H2. destruct (IN g' H1) as (g & sg & -> & Hg & _ & _ & _ & Lg). destruct (IN h' H2) as (h & sh & -> & Hh & _ & _ & Ph & Lh).
    rewrite pad_compose.
    + apply pad_in. apply discover_closed; assumption.
    + intros j Hj. rewrite Lg. apply (Permutation_in _ Ph), in_seq in Hj. lia.
  - intros g' H. destruct (IN g' H) as (g & sg & -> & Hg & _ & _ & Pg & Lg). destruct (discover_inverse sc g W Hg) as (h & Hh & C1 & C2).
    exists (0 :: map S h). split; [apply pad_in, Hh|]. rewrite pad_compose, C1; [apply pad_seq|].
    intros j Hj. apply (Permutation_in _ Pg), in_seq in Hj. assert (Hh' : In (0 :: map S h) (sdp_lexorder_symmetries sc)) by (apply pad_in, Hh).
    destruct (IN _ Hh') as (h0 & _ & E & _ & _ & _ & _ & Lh0). assert (length (0 :: map S h) = length (0 :: map S h0)) by (rewrite E; reflexivity). cbn in H0. rewrite !map_length in H0. lia.
  - intros a b H. split.
    + destruct a as [|a]; [reflexivity|]. destruct b as [|b]; [reflexivity|]. cbn [sdp_notcomm]. apply not_true_iff_false. intros Q. apply default_notcomm_range in Q. unfold n in H. lia.
    + intros Na Nb. destruct a as [|a]; [lia|]. destruct b as [|b]; [lia|]. apply not_true_iff_false. rewrite sdp_ortho_S. intros (x & y & E1 & E2 & _).
      assert (a < n) by (apply nth_error_Some; unfold n; rewrite E1; discriminate). assert (b < n) by (apply nth_error_Some; unfold n; rewrite E2; discriminate). lia.
Qed.
