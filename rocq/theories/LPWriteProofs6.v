(** The MPS file describes the programme. *)
From Coq Require Import List Arith Bool Ascii String ZArith QArith Qcanon Permutation Lia.
From Verif Require Import MargModel QcSum QcArith SearchModel SearchProofs ProgramModel SDPSolveModel SDPSolveSpec SDPSolveProofs SdpaModel SdpaProofs LPWriteModel LPWriteSpec LPWriteProofs LPWriteProofs2 LPWriteProofs3 LPWriteProofs4 LPWriteProofs5.
Import ListNotations.
Open Scope nat_scope.
Open Scope list_scope.

Section Programme.
Variable a : lp_args.
Hypothesis W : wf_lp a.
Variable order : list nat -> list nat.
Hypothesis O : forall l, Permutation (order l) l.
Variables (p : processed).
Hypothesis P : processed_ok a p.
Notation known := (p_known p).
Notation f := (mps_of order p).

Definition expressions : list (ndict Qc) := a_objective a :: eqs_of a ++ a_inequalities a.
Lemma expressions_eq : a_objective a :: a_equalities a ++ map semiknown_equality (a_semiknown a) ++ a_inequalities a = expressions.
Proof. unfold expressions, eqs_of. rewrite app_assoc. reflexivity. Qed.
Lemma in_with_unknowns e l : In e (with_unknowns known l) <-> In e l /\ unknown_part known e <> [].
Proof.
  unfold with_unknowns. rewrite filter_In. destruct (unknown_part known e); [split; intros [? H]; [discriminate H|exfalso; apply H; reflexivity]|split; intros [? _]; split; [assumption|discriminate|assumption|reflexivity]].
Qed.
Lemma row_of e : In e (rows_of p) -> (exists d, In d (eqs_of a) /\ Forall2 (same_entry a) d e) \/ (exists d, In d (a_inequalities a) /\ Forall2 (same_entry a) d e).
Proof.
  intros H. unfold rows_of in H. apply in_app_iff in H as [H|H]; apply in_with_unknowns in H as [H _]; [left|right].
  - destruct (Forall2_In_r _ _ _ _ (po_eqs a p P) H) as (d & ? & ?). exists d. split; assumption.
  - destruct (Forall2_In_r _ _ _ _ (po_ineqs a p P) H) as (d & ? & ?). exists d. split; assumption.
Qed.
Lemma expression_wf d : In d expressions -> NoDup (keys d) /\ incl (keys d) (variables a).
Proof.
  intros [<-|H]; [apply (wl_objective a W)|]. apply in_app_iff in H as [H|H]; [apply (eqs_of_wf a W); exact H|apply (wl_constraints a W); right; exact H].
Qed.
Lemma row_expression e : In e (p_objective p :: rows_of p) -> exists d, In d expressions /\ Forall2 (same_entry a) d e.
Proof.
  intros [<-|H]; [exists (a_objective a); split; [left; reflexivity|apply (po_objective a p P)]|]. destruct (row_of e H) as [(d & I & S)|(d & I & S)]; exists d; (split; [right; apply in_app_iff; tauto|exact S]).
Qed.
Lemma same_incl d e : Forall2 (same_entry a) d e -> incl (keys e) (p_variables p).
Proof.
  intros S i H. destruct (same_keys_nth a d e i S H) as (k & N & _). rewrite (po_variables a p P). apply in_seq. split; [lia|]. cbn. apply nth_error_Some. congruence.
Qed.
Lemma NV : NoDup (p_variables p). Proof. rewrite (po_variables a p P). apply seq_NoDup. Qed.
Lemma NK e : In e (p_objective p :: rows_of p) -> NoDup (keys e) /\ incl (keys e) (p_variables p).
Proof.
  intros H. destruct (row_expression e H) as (d & I & S). split; [eapply same_NoDup; [exact W|exact S|apply expression_wf; exact I]|eapply same_incl; exact S].
Qed.

Hypothesis FD : all_four_decimals a.
Lemma coefficient_exact d e i : In d expressions -> Forall2 (same_entry a) d e -> In i (keys e) -> fixed4 (igetd i e) = igetd i e.
Proof.
  intros I S H. apply fixed4_exact. assert (N : NoDup (keys e)) by (eapply same_NoDup; [exact W|exact S|apply expression_wf; exact I]). apply in_map_iff in H as ([j c] & E & H). cbn [fst] in E. subst j. unfold igetd. rewrite (iget_In e i c N H).
  destruct (Forall2_In_r _ _ _ _ S H) as ([k c'] & Hd & [_ E]). cbn [snd] in E. subst c'. pose proof (proj1 FD) as Q. rewrite expressions_eq in Q. apply (proj2 (Q d I) k). exact Hd.
Qed.
Lemma get_same (d : ndict Qc) (e : idict Qc) i k : Forall2 (same_entry a) d e -> nth_error (variables a) i = Some k -> nget k d = iget i e.
Proof.
  intros S N. induction S as [|[k' c] [i' c'] d e [H1 H2] _ IH]; [reflexivity|]. cbn [fst snd] in *. unfold nget, iget. cbn [get]. destruct (string_dec k k') as [->|NE].
  - destruct (Nat.eq_dec i i') as [->|NE']; [congruence|]. exfalso. apply NE'. eapply nth_inj; eassumption.
  - destruct (Nat.eq_dec i i') as [->|NE']; [congruence|exact IH].
Qed.
Lemma contribution d e : In d expressions -> Forall2 (same_entry a) d e -> known_contribution a d = known_sum order known e.
Proof.
  intros I S. rewrite (known_sum_is order O). unfold known_part. rewrite sumQ_filter. unfold keys. rewrite map_map.
  assert (N : NoDup (keys e)) by (eapply same_NoDup; [exact W|exact S|apply expression_wf; exact I]).
  rewrite (sumQ_ext e _ (fun q => match iget (fst q) known with Some v => (snd q * v)%Qc | None => 0%Qc end)).
  - clear N I. unfold known_contribution. induction S as [|[k c] [i c'] d e [H1 H2] _ IH]; [reflexivity|]. cbn [map fst snd] in *. rewrite !sumQ_cons, IH. f_equal. subst c'. rewrite (get_same _ _ i k (po_known a p P) H1). reflexivity.
  - intros [i c] H. cbn [fst snd]. unfold igetd at 1. rewrite (iget_In e i c N H). destruct (imem i (map fst known)) eqn:M.
    + apply imem_iff in M. apply in_map_iff in M as ([j v] & E & M). cbn [fst] in E. subst j. unfold igetd. assert (NKn : NoDup (keys known)) by (eapply same_NoDup; [exact W|apply (po_known a p P)|apply (wl_known a W)]).
      rewrite (iget_In known i v NKn M). reflexivity.
    + unfold iget. destruct (get Nat.eq_dec i known) as [v|] eqn:G; [|reflexivity]. exfalso. assert (In i (map fst known)).
      { clear -G. induction known as [|[j u] l IH]; [discriminate G|]. cbn [get] in G. cbn [map fst]. destruct (Nat.eq_dec i j); [left; congruence|right; apply IH; exact G]. }
      apply imem_iff in H0. congruence.
Qed.
Lemma rhs_exact d e : In d expressions -> Forall2 (same_entry a) d e -> fixed4 (minus_known order known e) = (- known_sum order known e)%Qc.
Proof.
  intros I S. rewrite (minus_known_is order O). apply fixed4_exact. rewrite <- (contribution d e I S). pose proof (proj1 FD) as Q. rewrite expressions_eq in Q. destruct (Q d I) as [[z E] _].
  exists (- z)%Z. replace (- known_contribution a d * Q2Qc 10000)%Qc with (- (known_contribution a d * Q2Qc 10000))%Qc by ring. rewrite E. apply Qc_is_canon. rewrite this_opp. unfold z2q. cbn [this Q2Qc]. rewrite !Qred_correct. reflexivity.
Qed.

Section Point.
Variables (w : name -> Qc) (x : nat -> Qc).
Hypothesis R : respects_lp a w.
Hypothesis A : agrees_mps a x w.
Lemma row_value d e : In d expressions -> Forall2 (same_entry a) d e ->
  expr w d = (known_sum order known e + sumQ (map (fun k => fixed4 (igetd k e) * x k) (unknown_part known e)))%Qc.
Proof.
  intros I S. rewrite (constraint_value a W order O p w P R d e S) by (apply expression_wf; exact I). f_equal. apply sumQ_ext. intros i H.
  rewrite (coefficient_exact d e i I S) by (unfold unknown_part in H; apply filter_In in H; apply H). destruct (unknown_unknown a W p P d e i S H) as (k & U & _). rewrite (val_nth a w i k) by apply U. rewrite (proj1 A i k U). reflexivity.
Qed.
Lemma mps_value_eq : mps_value f x = lp_args_value a w.
Proof.
  unfold mps_value, lp_args_value. rewrite (row_sum_objective order p NV NK), rhs_objective. assert (I : In (a_objective a) expressions) by (left; reflexivity). pose proof (po_objective a p P) as S.
  rewrite (rhs_exact _ _ I S), (row_value _ _ I S). ring.
Qed.
Lemma row_iff d e i : In d expressions -> Forall2 (same_entry a) d e -> nth_error (rows_of p) i = Some e ->
  (row_sum f x (Row i) - row_rhs f (Row i))%Qc = expr w d.
Proof.
  intros I S N. rewrite (row_sum_row order p NV NK), (rhs_row order p), N. rewrite (rhs_exact d e I S), (row_value d e I S). ring.
Qed.
Lemma in_eqs d : In d (eqs_of a) -> In d expressions. Proof. intros H. right. apply in_app_iff. left; exact H. Qed.
Lemma in_ineqs d : In d (a_inequalities a) -> In d expressions. Proof. intros H. right. apply in_app_iff. right; exact H. Qed.
Lemma lower_In i b : In (i, b) (m_lower f) <-> exists k, nth_error (variables a) i = Some k /\ In (k, b) (a_lower a).
Proof.
  assert (Q : forall k c, In (k, c) (a_lower a) -> fixed4 c = c) by (intros k c H; apply fixed4_exact, (proj2 FD k); left; exact H).
  unfold mps_of. cbn [m_lower]. rewrite in_map_iff. split.
  - intros ([j c] & E & H). cbn [fst snd] in E. assert (j = i) by congruence. assert (b = fixed4 c) by congruence. subst j b. destruct (Forall2_In_r _ _ _ _ (po_lower a p P) H) as ([k c'] & I & H1 & H2). cbn [fst snd] in *. subst c'. exists k. rewrite (Q k c I). split; assumption.
  - intros (k & N & H). destruct (Forall2_In_l _ _ _ _ (po_lower a p P) H) as ([j c] & I & H1 & H2). cbn [fst snd] in *. subst c. exists (j, b). cbn [fst snd]. rewrite (Q k b H), (nth_inj a W i j k N H1). split; [reflexivity|exact I].
Qed.
Lemma upper_In i b : In (i, b) (m_upper f) <-> exists k, nth_error (variables a) i = Some k /\ In (k, b) (a_upper a).
Proof.
  assert (Q : forall k c, In (k, c) (a_upper a) -> fixed4 c = c) by (intros k c H; apply fixed4_exact, (proj2 FD k); right; exact H).
  unfold mps_of. cbn [m_upper]. rewrite in_map_iff. split.
  - intros ([j c] & E & H). cbn [fst snd] in E. assert (j = i) by congruence. assert (b = fixed4 c) by congruence. subst j b. destruct (Forall2_In_r _ _ _ _ (po_upper a p P) H) as ([k c'] & I & H1 & H2). cbn [fst snd] in *. subst c'. exists k. rewrite (Q k c I). split; assumption.
  - intros (k & N & H). destruct (Forall2_In_l _ _ _ _ (po_upper a p P) H) as ([j c] & I & H1 & H2). cbn [fst snd] in *. subst c. exists (j, b). cbn [fst snd]. rewrite (Q k b H), (nth_inj a W i j k N H1). split; [reflexivity|exact I].
Qed.

Hypothesis KC : known_constraints_hold a.
Hypothesis B : bounds_ok a.
Lemma mps_feasible_iff : mps_feasible f x <-> lp_args_feasible true a w.
Proof.
  unfold mps_feasible, lp_args_feasible. split.
  - intros (H1 & H2 & H3 & H4).
    assert (HE : forall d, In d (eqs_of a) -> expr w d = 0%Qc).
    { intros d I. destruct (Forall2_In_l _ _ _ _ (po_eqs a p P) I) as (e & Ie & S). destruct (unknown_part known e) as [|i0 l0] eqn:U.
      - apply (proj1 (KC w R)); [exact I|]. apply (only_known_iff a W p P d e S). exact U.
      - assert (Iw : In e (with_unknowns known (p_equalities p))) by (apply in_with_unknowns; rewrite U; split; [exact Ie|discriminate]). apply In_nth_error in Iw as [i N].
        assert (L : i < length (with_unknowns known (p_equalities p))) by (apply nth_error_Some; intros Z; pose proof (eq_trans (eq_sym N) Z) as Z'; discriminate Z').
        assert (N' : nth_error (rows_of p) i = Some e) by (unfold rows_of; rewrite nth_error_app1; assumption).
        specialize (H2 E_row i (proj2 (rows_In order p E_row i) (ex_intro _ e (conj N' L)))). cbn match in H2. rewrite <- (row_iff d e i (in_eqs d I) S N'), H2. ring. }
    destruct (proj1 (eqs_of_iff a W w) HE) as [HE1 HE2]. split; [|split; [exact HE1|split; [exact HE2|split; [|split]]]].
    + intros _ k I K. apply In_nth_error in I as [i I]. rewrite <- (proj1 A i k (conj I K)). destruct (in_dec Nat.eq_dec i (map fst (m_lower f))) as [J|J].
      * apply in_map_iff in J as ([j b] & E & J). cbn [fst] in E. subst j. pose proof (H3 i b J) as G. apply lower_In in J as (k' & N & J). destruct (B k' b (or_introl J)) as [Bp _]. eapply Qcle_trans; eassumption.
      * destruct (H1 i J) as [G|(b & J' & G)]; [exact G|]. exfalso. apply upper_In in J' as (k' & N & J'). destruct (B k' b (or_intror J')) as [Bp _]. apply (Qclt_not_le _ _ G Bp).
    + intros d I. destruct (Forall2_In_l _ _ _ _ (po_ineqs a p P) I) as (e & Ie & S). destruct (unknown_part known e) as [|i0 l0] eqn:U.
      * apply (proj2 (KC w R)); [exact I|]. apply (only_known_iff a W p P d e S). exact U.
      * assert (Iw : In e (with_unknowns known (p_inequalities p))) by (apply in_with_unknowns; rewrite U; split; [exact Ie|discriminate]). apply In_nth_error in Iw as [i N].
        set (n := length (with_unknowns known (p_equalities p))). assert (N' : nth_error (rows_of p) (n + i) = Some e) by (unfold rows_of; rewrite nth_error_app2 by (unfold n; lia); fold n; replace (n + i - n) with i by lia; exact N).
        assert (X : In (G_row, n + i) (m_rows f)) by (apply rows_In; exists e; split; [exact N'|unfold n; lia]). specialize (H2 G_row (n + i) X). cbn match in H2. rewrite <- (row_iff d e (n + i) (in_ineqs d I) S N'). qclra.
    + intros k b I. destruct (B k b (or_introl I)) as (_ & K & _). assert (Iv : In k (variables a)) by (apply (proj1 (wl_bounds a W)); apply in_map_iff; exists (k, b); split; [reflexivity|exact I]).
      apply In_nth_error in Iv as [i N]. rewrite <- (proj1 A i k (conj N K)). apply H3. apply lower_In. exists k. split; assumption.
    + intros k b I. destruct (B k b (or_intror I)) as (_ & K & _). assert (Iv : In k (variables a)) by (apply (proj2 (wl_bounds a W)); apply in_map_iff; exists (k, b); split; [reflexivity|exact I]).
      apply In_nth_error in Iv as [i N]. rewrite <- (proj1 A i k (conj N K)). apply H4. apply upper_In. exists k. split; assumption.
  - intros (H1 & H2 & H3 & H4 & H5 & H6). pose proof (proj2 (eqs_of_iff a W w) (conj H2 H3)) as HE. split; [|split; [|split]].
    + intros i _. left. destruct (Qclt_le_dec (x i) 0) as [L|L]; [|exact L]. apply (proj2 A). intros k U. apply (Qclt_not_le _ _ L). rewrite (proj1 A i k U). apply H1; [reflexivity|eapply nth_error_In; apply U|apply U].
    + intros r i H. apply rows_In in H as (e & N & L). unfold rows_of in N. destruct r.
      * rewrite nth_error_app1 in N by exact L. pose proof (nth_error_In _ _ N) as Ie. apply in_with_unknowns in Ie as [Ie _]. destruct (Forall2_In_r _ _ _ _ (po_eqs a p P) Ie) as (d & I & S).
        assert (N' : nth_error (rows_of p) i = Some e) by (unfold rows_of; rewrite nth_error_app1; assumption). pose proof (row_iff d e i (in_eqs d I) S N') as Q. rewrite (HE d I) in Q. qclra.
      * pose proof N as N'. fold (rows_of p) in N'. rewrite nth_error_app2 in N by exact L. pose proof (nth_error_In _ _ N) as Ie. apply in_with_unknowns in Ie as [Ie _]. destruct (Forall2_In_r _ _ _ _ (po_ineqs a p P) Ie) as (d & I & S).
        pose proof (row_iff d e i (in_ineqs d I) S N') as Q. specialize (H4 d I). rewrite <- Q in H4. qclra.
    + intros i b H. apply lower_In in H as (k & N & H). destruct (B k b (or_introl H)) as (_ & K & _). rewrite (proj1 A i k (conj N K)). apply H5. exact H.
    + intros i b H. apply upper_In in H as (k & N & H). destruct (B k b (or_intror H)) as (_ & K & _). rewrite (proj1 A i k (conj N K)). apply H6. exact H.
Qed.
End Point.

Lemma mps_ok : bounds_ok a -> mps_well_formed f.
Proof.
  intros B. unfold mps_well_formed. rewrite rows_seq. split; [apply seq_NoDup|]. split; [|split; [apply (columns_NoDup order p NV)|split; [|split; [apply rhs_fst|]]]].
  - intros k i c H. apply column_In in H as (_ & d & N & _). apply in_seq. split; [lia|]. cbn. apply nth_error_Some. intros Z; pose proof (eq_trans (eq_sym N) Z) as Z'; discriminate Z'.
  - intros i c H. apply rhs_fst in H. apply in_seq. lia.
  - assert (G : forall k i b, nth_error (variables a) i = Some k -> In (k, b) (a_lower a) \/ In (k, b) (a_upper a) -> exists r c, In (i, r, c) (m_columns f)).
    { intros k i b N H. destruct (B k b H) as (_ & K & d & I & Kd). rewrite expressions_eq in I.
      assert (V : In i (p_variables p)) by (rewrite (po_variables a p P); apply in_seq; split; [lia|cbn; apply nth_error_Some; congruence]).
      assert (X : forall e, Forall2 (same_entry a) d e -> In i (unknown_part known e)) by (intros e S; eapply unknown_part_In; [exact W|exact P|exact S|split; eassumption|exact Kd]).
      destruct I as [<-|I].
      - exists Objective, (fixed4 (igetd i (p_objective p))). apply column_In. split; [exact V|]. split; [apply X, (po_objective a p P)|reflexivity].
      - assert (Y : exists e, In e (rows_of p) /\ Forall2 (same_entry a) d e).
        { apply in_app_iff in I as [I|I]; [destruct (Forall2_In_l _ _ _ _ (po_eqs a p P) I) as (e & Ie & S)|destruct (Forall2_In_l _ _ _ _ (po_ineqs a p P) I) as (e & Ie & S)]; exists e; (split; [|exact S]);
            apply in_app_iff; [left|right]; apply in_with_unknowns; (split; [exact Ie|]); intros Z; specialize (X e S); rewrite Z in X; destruct X. }
        destruct Y as (e & Ie & S). apply In_nth_error in Ie as [j Nj]. exists (Row j), (fixed4 (igetd i e)). apply column_In. split; [exact V|]. exists e. split; [exact Nj|split; [apply X, S|reflexivity]]. }
    intros i [H|H]; apply in_map_iff in H as ([j b] & E & H); cbn [fst] in E; subst j; [apply lower_In in H as (k & N & H)|apply upper_In in H as (k & N & H)]; eapply G; [exact N|left; exact H|exact N|right; exact H].
Qed.
End Programme.
