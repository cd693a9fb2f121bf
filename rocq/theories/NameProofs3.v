(** In a product that is its own representative, and uses one copy of each source, every copy is
    the first. *)
From Coq Require Import List Arith Bool Ascii String Lia Sorted.
From Verif Require Import CanonModel CanonSpec ScenarioModel ScenarioSpec ScenarioProofs SymModel SymSpec SymProofs ColumnModel ColumnProofs3 MemoModel MemoSpec KnowModel KnowSpec KnowProofs ProgramModel NameModel NameSpec.
Import ListNotations.
Open Scope string_scope. Open Scope nat_scope. Open Scope list_scope.
Local Notation lex_lt := ScenarioSpec.lex_lt.

Lemma pointwise_lex (c' : list nat) : forall c, List.length c' = List.length c -> (forall k, nth k c' 0 <= nth k c 0) -> c' = c \/ lex_lt c' c.
Proof.
  induction c' as [|a c' IH]; intros [|b c] L H; try discriminate L; [left; reflexivity|]. injection L as L.
  assert (H0 := H 0). cbn [nth] in H0. destruct (IH c L (fun k => H (S k))) as [->|H1].
  - destruct (Nat.eq_dec a b) as [->|N]; [left; reflexivity|]. right. apply lt_head. lia.
  - right. destruct (Nat.eq_dec a b) as [->|N]; [apply lt_tail; exact H1|apply lt_head; lia].
Qed.
Lemma lex_le_pointwise w : forall r, lex_le w r -> Forall2 le r w -> w = r.
Proof.
  induction w as [|a w IH]; intros r L F; inversion F; subst; [reflexivity|]. inversion L; subst; [lia|]. f_equal. apply IH; assumption.
Qed.

Section Rep.
Variables (sc : scenario).
Hypotheses (W : wf_scenario sc).

Lemma index_le i j ri rj : nth_error (lexorder sc) i = Some ri -> nth_error (lexorder sc) j = Some rj -> rj = ri \/ lex_lt rj ri -> j <= i.
Proof.
  intros Hi Hj H. destruct (Nat.le_gt_cases j i) as [L|L]; [exact L|]. exfalso.
  assert (Q : lex_lt ri rj) by (eapply (SS_nth lex_lt _ (lexorder_SS sc W)); eassumption).
  destruct H as [->|H]; [exact (lex_lt_irrefl _ Q)|]. exact (lex_lt_irrefl _ (lex_lt_trans _ _ _ Q H)).
Qed.
(** swapping copy [v k] of source k with copy 1 *)
Definition to_first (v : nat -> nat) : relabelling := fun k c => if c =? v k then 1 else if c =? 1 then v k else c.
Lemma to_first_relabelling v : (forall k, k < nr_sources sc -> 1 <= v k <= nth k (levels sc) 0) -> is_relabelling sc (to_first v).
Proof.
  intros H k Hk. specialize (H k Hk). unfold to_first. split; [|split].
  - destruct (Nat.eqb_spec 0 (v k)); [lia|]. reflexivity.
  - intros c Hc. destruct (Nat.eqb_spec c (v k)); [lia|]. destruct (Nat.eqb_spec c 1); lia.
  - intros c c' Hc Hc'. destruct (Nat.eqb_spec c (v k)), (Nat.eqb_spec c' (v k)), (Nat.eqb_spec c 1), (Nat.eqb_spec c' 1); subst; lia.
Qed.
(** words of operators that no relabelling of copies makes smaller *)
Definition first_word (w : word) : Prop :=
  w <> [] /\ (forall x, In x w -> 1 <= x <= List.length (lexorder sc)) /\ forall g, In g (sdp_lexorder_symmetries sc) -> lex_le w (apply_lexsym g w).
Lemma atom_first w : atom_word sc w -> first_word w.
Proof. intros (N & R & (_ & M) & _). split; [exact N|]. split; [exact R|]. intros g Hg. exact (M _ _ Hg (ce_refl _ _)). Qed.
Variable w : word.
Hypothesis A : first_word w.
Lemma word_rows x : In x w -> exists p c s o, nth_error (lexorder sc) (x - 1) = Some (mkrow (p + 1) c s o) /\ nth x (sdp_lexorder sc) [] = mkrow (p + 1) c s o /\ valid_operator sc p c s o.
Proof.
  intros Hx. destruct A as (_ & R & _). specialize (R x Hx). destruct (lexorder_parts sc (x - 1) W ltac:(lia)) as (p & c & s & o & E & V). exists p, c, s, o. split; [exact E|]. split; [|exact V].
  destruct x as [|x]; [lia|]. cbn [Nat.sub] in E. rewrite Nat.sub_0_r in E. unfold sdp_lexorder. cbn [nth]. apply (nth_error_nth _ _ _ E).
Qed.
Lemma in_rows r : In r (rows_of sc w) <-> exists x, In x w /\ r = nth x (sdp_lexorder sc) [].
Proof. unfold rows_of. rewrite in_map_iff. split; intros (x & E & H); exists x; auto. Qed.
Lemma rows_valid r : In r (rows_of sc w) -> exists p c s o, r = mkrow (p + 1) c s o /\ valid_operator sc p c s o.
Proof. intros H. apply in_rows in H as (x & Hx & ->). destruct (word_rows x Hx) as (p & c & s & o & _ & E & V). exists p, c, s, o. auto. Qed.
Definition used (k : nat) : nat := hd 1 (filter (fun c => negb (c =? 0)) (map (fun r => nth k (row_copies r) 0) (rows_of sc w))).
Lemma used_range k : k < nr_sources sc -> 1 <= used k <= nth k (levels sc) 0.
Proof.
  intros Hk. unfold used. destruct (filter _ _) as [|u l] eqn:E; cbn [hd].
  - split; [lia|]. apply (wf_levels_pos sc W), nth_In. rewrite (wf_levels sc W). exact Hk.
  - assert (I : In u (u :: l)) by (left; reflexivity). rewrite <- E in I. apply filter_In in I as [I N]. apply negb_true_iff, Nat.eqb_neq in N.
    apply in_map_iff in I as (r & Er & Hr). destruct (rows_valid r Hr) as (p & c & s & o & -> & V). rewrite mkrow_copies in Er. assert (Q := valid_copy sc p c s o k W V Hk). lia.
Qed.
Hypothesis one_copy : one_copy_per_source (rows_of sc w).
Lemma used_all p c s o k : In (mkrow p c s o) (rows_of sc w) -> nth k c 0 <> 0 -> used k = nth k c 0.
Proof.
  intros I N. unfold used. assert (J : In (nth k c 0) (filter (fun c => negb (c =? 0)) (map (fun r => nth k (row_copies r) 0) (rows_of sc w)))).
  { apply filter_In. split; [|apply negb_true_iff, Nat.eqb_neq; exact N]. apply in_map_iff. exists (mkrow p c s o). split; [rewrite mkrow_copies; reflexivity|exact I]. }
  destruct (filter _ _) as [|u l] eqn:E; [destruct J|]. cbn [hd].
  assert (I2 : In u (u :: l)) by (left; reflexivity). rewrite <- E in I2. apply filter_In in I2 as [I2 N2]. apply negb_true_iff, Nat.eqb_neq in N2.
  apply in_map_iff in I2 as (r & Er & Hr). destruct (rows_valid r Hr) as (p' & c' & s' & o' & -> & V). rewrite mkrow_copies in Er. subst u. exact (one_copy _ _ _ _ _ _ _ _ k Hr I N2 N).
Qed.
Lemma first_copies x p c s o : In x w -> nth x (sdp_lexorder sc) [] = mkrow (p + 1) c s o -> valid_operator sc p c s o -> forall k, nth k c 0 <= 1.
Proof.
  set (sg := to_first used). assert (R : is_relabelling sc sg) by (apply to_first_relabelling, used_range).
  destruct (induces_exists sc sg W R) as (g & G).
  assert (Ig : In (0 :: map S g) (sdp_lexorder_symmetries sc)) by (apply pad_in, (discover_exact sc g W); eauto).
  assert (P : forall y p c s o, In y w -> nth_error (lexorder sc) (y - 1) = Some (mkrow (p + 1) c s o) ->
     exists j, nth y (0 :: map S g) 0 = S j /\ nth_error (lexorder sc) j = Some (mkrow (p + 1) (relabel sg c) s o)).
  { intros y p0 c0 s0 o0 Hy E. destruct G as [GL GI]. destruct (GI _ _ _ _ _ E) as (j & Ej & Er). exists j. split; [|exact Er].
    destruct A as (_ & AR & _). specialize (AR y Hy). destruct y as [|y]; [lia|]. cbn [nth]. replace (S y - 1) with y in Ej by lia.
    rewrite (nth_indep _ 0 (S 0)) by (rewrite map_length; apply nth_error_Some; congruence). rewrite map_nth. f_equal. apply (nth_error_nth _ _ _ Ej). }
  assert (Le : forall y p c s o, In y w -> nth y (sdp_lexorder sc) [] = mkrow (p + 1) c s o -> valid_operator sc p c s o -> forall k, nth k (relabel sg c) 0 <= nth k c 0).
  { intros y p0 c0 s0 o0 Hy E V k. destruct (Nat.lt_ge_cases k (List.length c0)) as [Hk|Hk]; [|rewrite !nth_overflow; [lia|exact Hk|rewrite relabel_length; exact Hk]].
    rewrite nth_relabel by exact Hk. unfold sg, to_first. destruct (Nat.eq_dec (nth k c0 0) 0) as [Q|Q].
    - rewrite Q. destruct (R k ltac:(destruct V as (_ & VL & _); rewrite <- VL; exact Hk)) as (R0 & _). unfold sg, to_first in R0. rewrite R0. lia.
    - rewrite (used_all (p0 + 1) c0 s0 o0 k); [rewrite Nat.eqb_refl; lia| |exact Q]. apply in_rows. exists y. split; [exact Hy|symmetry; exact E]. }
  assert (EQ : w = apply_lexsym (0 :: map S g) w).
  { apply lex_le_pointwise.
    - destruct A as (_ & _ & M). exact (M _ Ig).
    - unfold apply_lexsym. assert (F : forall l, incl l w -> Forall2 le (map (fun x => nth x (0 :: map S g) 0) l) l).
      { induction l as [|y l IH]; intros I; [constructor|]. constructor; [|apply IH; intros z Hz; apply I; right; exact Hz].
        assert (Hy : In y w) by (apply I; left; reflexivity). destruct (word_rows y Hy) as (p0 & c0 & s0 & o0 & E1 & E2 & V0).
        destruct (P _ _ _ _ _ Hy E1) as (j & -> & Ej). assert (AR : 1 <= y) by (destruct A as (_ & AR & _); apply (AR y Hy)).
        enough (j <= y - 1) by lia. apply (index_le _ _ _ _ E1 Ej).
        destruct (pointwise_lex (relabel sg c0) c0 (relabel_length _ _) (Le _ _ _ _ _ Hy E2 V0)) as [->|Q]; [left; reflexivity|]. right.
        unfold mkrow. apply lt_tail. apply lex_lt_app_r; [apply relabel_length|exact Q]. }
      apply F, incl_refl. }
  intros Hx E V k. destruct (word_rows x Hx) as (p1 & c1 & s1 & o1 & E1 & E2 & V1). rewrite E in E2. apply mkrow_inj in E2 as (E2a & <- & <- & <-). assert (p1 = p) as -> by lia.
  destruct (P _ _ _ _ _ Hx E1) as (j & Ej & Er).
  assert (nth x (0 :: map S g) 0 = x).
  { assert (F : forall l, l = map (fun x => nth x (0 :: map S g) 0) l -> forall y, In y l -> nth y (0 :: map S g) 0 = y).
    { clear. induction l as [|z l IH]; intros H y Hy; [destruct Hy|]. cbn [map] in H. injection H as H1 H2. destruct Hy as [->|Hy]; [symmetry; exact H1|exact (IH H2 y Hy)]. }
    exact (F w EQ x Hx). }
  assert (Hj : j = x - 1) by lia. subst j. rewrite E1 in Er. assert (Er' : mkrow (p + 1) c s o = mkrow (p + 1) (relabel sg c) s o) by congruence.
  apply mkrow_inj in Er' as (_ & Ec & _). destruct (Nat.lt_ge_cases k (List.length c)) as [Hk|Hk]; [|rewrite nth_overflow by exact Hk; lia].
  destruct (Nat.eq_dec (nth k c 0) 0) as [Q|Q]; [lia|]. rewrite Ec, nth_relabel by exact Hk. unfold sg, to_first.
  rewrite (used_all (p + 1) c s o k); [rewrite Nat.eqb_refl; lia| |exact Q]. apply in_rows. exists x. auto.
Qed.
(** so the copies are determined by the party *)
Lemma copies_by_party p c s o s' o' c' : valid_operator sc p c s o -> valid_operator sc p c' s' o' ->
  (forall k, nth k c 0 <= 1) -> (forall k, nth k c' 0 <= 1) -> c = c'.
Proof.
  intros (_ & L & V & _) (_ & L' & V' & _) H H'. apply list_ext; [congruence|]. intros k Hk. rewrite L in Hk.
  destruct (nth_error (sources sc) k) as [src|] eqn:E; [|apply nth_error_None in E; unfold nr_sources in Hk; lia].
  destruct (V k src E) as [V1 V2], (V' k src E) as [V1' V2']. specialize (H k). specialize (H' k).
  destruct (hypergraph sc k p) eqn:G.
  - apply (hypergraph_reaches sc k p src E) in G. specialize (V1 G). specialize (V1' G). lia.
  - assert (N : ~ reaches src p) by (intros Q; apply (hypergraph_reaches sc k p src E) in Q; congruence). rewrite (V2 N), (V2' N). reflexivity.
Qed.
End Rep.
(** the test of do-conditionals *)
Lemma do_conditional_spec sc mon : wf_scenario sc -> (forall r, In r mon -> exists p c s o, r = mkrow (p + 1) c s o /\ valid_operator sc p c s o) ->
  (nb_is_do_conditional (nr_sources sc) mon = true <-> one_copy_per_source mon).
Proof.
  intros W V.
  assert (LC : forall p c s o, In (mkrow p c s o) mon -> List.length c = nr_sources sc).
  { intros p c s o H. destruct (V _ H) as (p' & c' & s' & o' & E & Vo). apply mkrow_inj in E as (_ & -> & _). apply Vo. }
  unfold nb_is_do_conditional. destruct (Nat.leb_spec (List.length mon) 1) as [Hl|Hl].
  - split; [|reflexivity]. intros _ p c s o p' c' s' o' k H1 H2 _ _. destruct mon as [|r [|r' m]]; [destruct H1| |cbn in Hl; lia].
    destruct H1 as [H1|[]], H2 as [H2|[]]. subst r. apply mkrow_inj in H2 as (_ & -> & _). reflexivity.
  - rewrite forallb_forall. split.
    + intros H p c s o p' c' s' o' k H1 H2 N1 N2.
      destruct (Nat.lt_ge_cases k (nr_sources sc)) as [Hk|Hk]; [|rewrite nth_overflow in N1; [congruence|rewrite (LC _ _ _ _ H1); exact Hk]].
      specialize (H k ltac:(apply in_seq; lia)). rewrite negb_true_iff, Nat.ltb_ge in H.
      rewrite unique_le1 in H. apply H; apply filter_In; (split; [apply in_map_iff|rewrite negb_true_iff, Nat.eqb_neq; assumption]).
      * eexists. split; [|exact H1]. apply nth_copies. rewrite (LC _ _ _ _ H1). exact Hk.
      * eexists. split; [|exact H2]. apply nth_copies. rewrite (LC _ _ _ _ H2). exact Hk.
    + intros H k Hk. apply in_seq in Hk. rewrite negb_true_iff, Nat.ltb_ge. apply unique_le1. intros x y Hx Hy.
      apply filter_In in Hx as [Hx Nx], Hy as [Hy Ny]. rewrite negb_true_iff, Nat.eqb_neq in Nx, Ny.
      apply in_map_iff in Hx as (r & <- & Hr), Hy as (r' & <- & Hr').
      destruct (V r Hr) as (p & c & s & o & -> & _). destruct (V r' Hr') as (p' & c' & s' & o' & -> & _).
      rewrite (nth_copies (p + 1) c s o k) in * by (rewrite (LC _ _ _ _ Hr); lia).
      rewrite (nth_copies (p' + 1) c' s' o' k) in * by (rewrite (LC _ _ _ _ Hr'); lia).
      eapply H; eassumption.
Qed.
