(** The points of the files and the points of the programme. *)
From Coq Require Import List Arith Bool Ascii String ZArith QArith Qcanon Permutation Lia.
From Verif Require Import MargModel QcSum QcArith SearchModel SearchProofs ProgramModel SDPSolveModel SDPSolveSpec SDPSolveProofs SdpaModel SdpaProofs LPWriteModel LPWriteSpec LPWriteProofs LPWriteProofs2 LPWriteProofs3.
Import ListNotations.
Open Scope nat_scope.

Lemma Forall2_In_l {A B} (R : A -> B -> Prop) l r x : Forall2 R l r -> In x l -> exists y, In y r /\ R x y.
Proof. induction 1 as [|u v l r H _ IH]; intros I; [destruct I|]. destruct I as [<-|I]; [exists v; split; [left; reflexivity|exact H]|]. destruct (IH I) as (y & ? & ?). exists y. split; [right|]; assumption. Qed.
Lemma Forall2_In_r {A B} (R : A -> B -> Prop) l r y : Forall2 R l r -> In y r -> exists x, In x l /\ R x y.
Proof. induction 1 as [|u v l r H _ IH]; intros I; [destruct I|]. destruct I as [<-|I]; [exists u; split; [left; reflexivity|exact H]|]. destruct (IH I) as (x & ? & ?). exists x. split; [right|]; assumption. Qed.

Section Programme.
Variable a : lp_args.
Hypothesis W : wf_lp a.
Variable order : list nat -> list nat.
Hypothesis O : forall l, Permutation (order l) l.
Variables (p : processed) (w : name -> Qc).
Hypothesis P : processed_ok a p.
Hypothesis R : respects_lp a w.
Hypothesis KC : known_constraints_hold a.
Notation known := (p_known p).

Lemma wf_eqs d e : In d (eqs_of a) -> Forall2 (same_entry a) d e -> NoDup (keys d).
Proof. intros H _. apply (eqs_of_wf a W d H). Qed.
Lemma wf_ineqs d : In d (a_inequalities a) -> NoDup (keys d).
Proof. intros H. apply (wl_constraints a W). right; exact H. Qed.

Section LP.
Variable x : string -> Qc.
Hypothesis A : agrees_lp a x w.
Lemma terms_value d e : Forall2 (same_entry a) d e -> NoDup (keys d) ->
  (terms_at x (terms_of e (unknowns order known e)) + known_sum order known e)%Qc = expr w d.
Proof.
  intros S N. rewrite (constraint_value a W order O p w P R d e S N). unfold terms_at, terms_of, unknowns. rewrite map_map. cbn [fst snd].
  rewrite (sumQ_perm _ (map (fun i => (igetd i e * x (xname i))%Qc) (unknown_part known e))) by (apply Permutation_map, O).
  rewrite Qcplus_comm. f_equal. apply sumQ_ext. intros i H. destruct (unknown_unknown a W p P d e i S H) as (k & U & _). f_equal. rewrite (val_nth a w i k) by apply U. apply (proj1 A). exact U.
Qed.
Lemma lp_value_eq : (exists k, In k (keys (a_objective a)) /\ ~ In k (keys (a_known a))) \/ expr w (a_objective a) = 0%Qc ->
  lp_value (file_of order p) x = lp_args_value a w.
Proof.
  intros H. unfold lp_value, lp_args_value, file_of. cbn [o_terms o_constant]. pose proof (po_objective a p P) as S. rewrite <- (terms_value _ _ S) by apply (wl_objective a W).
  destruct (written order known (p_objective p)) eqn:E; [reflexivity|]. pose proof E as E'. apply (written_iff a W order O p P _ _ S) in E. destruct H as [(k & H1 & H2)|H]; [exfalso; apply H2, E, H1|].
  rewrite <- (terms_value _ _ S) in H by apply (wl_objective a W). unfold written in E'. destruct (unknowns order known (p_objective p)) as [|i l]; [|discriminate E'].
  unfold terms_of, terms_at in *. cbn [map] in *. change (sumQ []) with 0%Qc in *. rewrite H. ring.
Qed.
Lemma in_constraints t l r : rel_lists a l r -> forall d, In d l -> exists e, Forall2 (same_entry a) d e /\
  (written order known e = true -> In (constraint_of order known t e) (constraints_of order known t r)).
Proof.
  intros S d H. destruct (Forall2_In_l _ _ _ _ S H) as (e & I & SE). exists e. split; [exact SE|]. intros WE. unfold constraints_of. apply in_map. apply filter_In. split; assumption.
Qed.
Lemma lp_feasible_iff : a_lower a = [] -> a_upper a = [] -> lp_feasible (file_of order p) x <-> lp_args_feasible true a w.
Proof.
  intros LO UP. unfold lp_feasible, lp_args_feasible, file_of. cbn [o_lower o_upper o_constraints]. rewrite LO, UP. split.
  - intros (H1 & H2 & _). split; [|split; [|split; [|split; [|split; intros k b []]]]].
    + intros _ k I K. apply In_nth_error in I as [i I]. rewrite <- (proj1 A i k (conj I K)). apply H1. intros [].
    + apply (eqs_of_iff a W w). intros d H. destruct (in_constraints Eq _ _ (po_eqs a p P) d H) as (e & S & IC). destruct (written order known e) eqn:WE.
      * specialize (IC eq_refl). specialize (H2 _ _ _ (in_or_app _ _ _ (or_introl IC))). unfold relation_of in H2. cbn match in H2.
        rewrite <- (terms_value d e S) by (eapply wf_eqs; eassumption). rewrite H2. ring.
      * apply (written_iff a W order O p P d e S) in WE. apply (proj1 (KC w R)); assumption.
    + apply (eqs_of_iff a W w). intros d H. destruct (in_constraints Eq _ _ (po_eqs a p P) d H) as (e & S & IC). destruct (written order known e) eqn:WE.
      * specialize (IC eq_refl). specialize (H2 _ _ _ (in_or_app _ _ _ (or_introl IC))). unfold relation_of in H2. cbn match in H2.
        rewrite <- (terms_value d e S) by (eapply wf_eqs; eassumption). rewrite H2. ring.
      * apply (written_iff a W order O p P d e S) in WE. apply (proj1 (KC w R)); assumption.
    + intros d H. destruct (in_constraints Ineq _ _ (po_ineqs a p P) d H) as (e & S & IC). destruct (written order known e) eqn:WE.
      * specialize (IC eq_refl). specialize (H2 _ _ _ (in_or_app _ _ _ (or_intror IC))). unfold relation_of in H2. cbn match in H2.
        rewrite <- (terms_value d e S) by (apply wf_ineqs; assumption). qclra.
      * apply (written_iff a W order O p P d e S) in WE. apply (proj2 (KC w R)); assumption.
  - intros (H1 & H2 & H3 & H4 & _). pose proof (proj2 (eqs_of_iff a W w) (conj H2 H3)) as HE. split; [|split; [|split; intros s b []]].
    + intros s _. destruct (Qclt_le_dec (x s) 0) as [L|L]; [|exact L]. apply (proj2 A). intros i k U E. subst s.
      change (x (xname i) < 0)%Qc in L. pose proof (proj1 A i k U) as Q. change (x (xname i) = w k) in Q. rewrite Q in L.
      apply (Qclt_not_le _ _ L). apply H1; [reflexivity|eapply nth_error_In; apply U|apply U].
    + intros l r b H. apply in_app_iff in H as [H|H]; unfold constraints_of in H; apply in_map_iff in H as (e & E & H); apply filter_In in H as [H _]; unfold constraint_of in E.
      * destruct (Forall2_In_r _ _ _ _ (po_eqs a p P) H) as (d & I & S). assert (r = Eq_rel) by (cbn in E; congruence). assert (l = terms_of e (unknowns order known e)) by congruence. assert (b = (- known_sum order known e)%Qc) by congruence. subst r l b.
        specialize (HE d I). rewrite <- (terms_value d e S) in HE by (eapply wf_eqs; eassumption). qclra.
      * destruct (Forall2_In_r _ _ _ _ (po_ineqs a p P) H) as (d & I & S). assert (r = Ge_rel) by (cbn in E; congruence). assert (l = terms_of e (unknowns order known e)) by congruence. assert (b = (- known_sum order known e)%Qc) by congruence. subst r l b.
        specialize (H4 d I). rewrite <- (terms_value d e S) in H4 by (apply wf_ineqs; assumption). qclra.
Qed.
End LP.
End Programme.
