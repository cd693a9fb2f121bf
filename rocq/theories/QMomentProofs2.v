(** The means of atoms, of moments, and of the entries of the moment matrix. *)
From Coq Require Import Permutation Relation_Operators QArith Qcanon List Arith Bool Lia.
From Verif Require Import CanonModel CanonSpec MomentSpec ScenarioModel ScenarioSpec SymModel SymSpec FactorModel FactorSpec
  MargModel ColumnModel ColumnSpec MemoModel MemoSpec NameModel NameSpec QuantumSpec QuantumProofs QInflationSpec SDPMomentModel SoundProofs QMomentProofs.
From Verif Require ScenarioProofs CanonProofs CanonProofs2 ColumnProofs ColumnProofs2 ColumnProofs3 MemoProofs PropMemo PropName NameProofs6 PropOrbit PropCanon.
Import ListNotations.
Close Scope Q_scope. Close Scope Qc_scope. Open Scope nat_scope.
Add Ring Cring3 : C_ring.

Section Values.
Variables (sc : scenario) (W : wf_scenario sc).
Notation n := (length (lexorder sc)).
Notation nc := (sdp_notcomm sc).
Notation ortho := (sdp_orthomat sc).
Notation syms := (sdp_lexorder_symmetries sc).
Notation oc := (operators_commute sc).
Let G := ScenarioProofs.scenario_good_tables sc W.
Let OS := ColumnProofs3.scenario_symmetries sc W.
Lemma comm_flag : oc = true -> forall a b, nc a b = false.
Proof.
  intros E a b. unfold operators_commute in E. apply negb_true_iff in E.
  destruct (Nat.lt_ge_cases a (S n)) as [Ha|Ha]; [|apply (os_out _ _ _ _ OS); left; exact Ha]. destruct (Nat.lt_ge_cases b (S n)) as [Hb|Hb]; [|apply (os_out _ _ _ _ OS); right; exact Hb].
  destruct (nc a b) eqn:Q; [|reflexivity]. exfalso. assert (E' : existsb (fun a => existsb (nc a) (seq 0 (S n))) (seq 0 (S n)) = true); [|congruence].
  apply existsb_exists. exists a. split; [apply in_seq; lia|]. apply existsb_exists. exists b. split; [apply in_seq; lia|exact Q].
Qed.
Lemma op_range w : operator_word sc w -> in_range (S n) w.
Proof. intros R x Hx. specialize (R x Hx). lia. Qed.
Lemma op_atom w : atom_word sc w -> operator_word sc w.
Proof. intros (_ & R & _). exact R. Qed.
Lemma reduced_op w : reduced nc ortho w -> in_range (S n) w -> operator_word sc w.
Proof. intros [Z _] R x Hx. specialize (R x Hx). destruct x; [contradiction|lia]. Qed.
(** the code's representative *)
Lemma atom_of_is f : reduced nc ortho f -> operator_word sc f -> f <> [] -> exists r, atom_of sc f = Some r /\ is_representative nc syms f r /\ atom_word sc r.
Proof.
  intros R O NE. destruct (PropMemo.C35_representative_is_first sc oc [] f false W comm_flag (Forall_nil _) R (op_range f O) NE) as (b & r & m & E & Rep).
  destruct (PropName.C38_representatives_are_atoms sc oc [] false f W comm_flag (Forall_nil _) R (op_range f O) NE) as (b' & r' & m' & E' & A).
  rewrite E in E'. assert (Q : b ++ [r] = b' ++ [r']) by congruence. apply app_inj_tail in Q as [_ <-].
  exists r. split; [|auto]. cbn [app] in E. unfold MemoModel.run in E. cbn [do_call] in E. unfold atom_of. destruct (memo_repr _ _ _ _ _ _ _) as [[x mm]|]; [|discriminate]. cbn [option_map fst].
  assert (Q : [x] = b ++ [r]) by congruence. change [x] with ([] ++ [x]) in Q. apply app_inj_tail in Q as [_ ->]. reflexivity.
Qed.
Lemma conj_ok : conjugates sc (code_conj sc oc). Proof. exact (PropName.C38_conjugation sc oc W comm_flag). Qed.
Lemma conjugate_atom w : atom_word sc w -> conjugate sc w = code_conj sc oc w /\ atom_word sc (conjugate sc w) /\ conjugate sc (conjugate sc w) = w.
Proof.
  intros A. assert (Z : forall v, atom_word sc v -> conjugate sc v = code_conj sc oc v).
  { intros v (_ & R & _). unfold conjugate, NameModel.is_zero. destruct (forallb _ v) eqn:F; [reflexivity|]. exfalso. assert (forallb (fun x => negb (x =? 0)) v = true); [|congruence].
    apply forallb_forall. intros x Hx. specialize (R x Hx). destruct x; [lia|reflexivity]. }
  destruct (NameProofs6.conj_atom sc (code_conj sc oc) W conj_ok w A) as (A' & C' & _). rewrite (Z w A). split; [reflexivity|]. split; [exact A'|]. rewrite (Z _ A'). exact C'.
Qed.
Lemma conjugate_one : conjugate sc [] = []. Proof. unfold conjugate. cbn [NameModel.is_zero forallb negb]. destruct (conj_ok []) as [H _]. apply H. intros a b []. Qed.
Lemma conjugate_zero : conjugate sc [0] = [0]. Proof. reflexivity. Qed.
Lemma conjugate_usable w : usable sc w -> usable sc (conjugate sc w) /\ conjugate sc (conjugate sc w) = w.
Proof.
  intros [A|[->| -> ]]; [|rewrite !conjugate_zero; split; [right; left|]; reflexivity|rewrite !conjugate_one; split; [right; right|]; reflexivity].
  destruct (conjugate_atom w A) as (_ & A' & C'). split; [left; exact A'|exact C'].
Qed.
Section L.
Variables (arr : ndarray) (L : word -> C) (MQ : moments_of sc arr L).
Lemma L_sym g w : In g syms -> in_range (S n) w -> L (apply_lexsym g w) = L w.
Proof.
  intros Hg R. apply (PropMemo.C35_symmetries_are_relabellings sc g W) in Hg as (sg & h & Rl & In' & ->). apply (mq_symmetric _ _ _ MQ sg h w Rl In'). intros x Hx. specialize (R x Hx). lia.
Qed.
Lemma L_ce' u v : comm_eq nc u v -> L u = L v. Proof. apply (L_ce sc arr L MQ). Qed.
Lemma L_rep w r : in_range (S n) w -> is_representative nc syms w r -> L r = L w.
Proof. intros R [(g & Hg & E) _]. rewrite <- (L_ce' _ _ E). apply L_sym; assumption. Qed.
Lemma L_conjugate w : usable sc w -> L (conjugate sc w) = Cconj (L w).
Proof.
  intros [A|[->| -> ]]; [|rewrite conjugate_zero, (mq_zero _ _ _ MQ); symmetry; apply conj_0|rewrite conjugate_one, (mq_one _ _ _ MQ); symmetry; apply conj_1].
  destruct (conjugate_atom w A) as (-> & _). rewrite <- (mq_conjugate _ _ _ MQ). destruct (conj_ok w) as [C1 C2]. destruct (sub_any nc w) eqn:Q.
  - assert (Q' := proj1 (MemoProofs.sub_any_spec nc w) Q). apply L_rep; [|exact (C2 A Q')]. intros x Hx. apply in_rev in Hx. apply (op_range w (op_atom w A) x Hx).
  - assert (H : forall a b, In a w -> In b w -> nc a b = false).
    { intros a b Ha Hb. destruct (nc a b) eqn:E; [|reflexivity]. assert (sub_any nc w = true); [|congruence]. apply MemoProofs.sub_any_spec. eauto. }
    rewrite (C1 H). apply L_ce'. clear - H G. induction w as [|a w IH]; [apply ce_refl|]. cbn [rev]. eapply ce_trans; [apply CanonProofs.ce_cons, IH; intros x y Hx Hy; apply H; right; assumption|].
    apply ce_sym. change (a :: rev w) with (a :: rev w ++ []) || idtac. replace (a :: rev w) with (a :: (rev w ++ [])) by (rewrite app_nil_r; reflexivity). apply CanonProofs.ce_move; [exact (gt_nc_sym _ _ G)|].
    intros b Hb. apply H; [left; reflexivity|right; apply in_rev; exact Hb].
Qed.
End L.
Hypothesis FC : few_copies sc.
Lemma atoms_of_is w : reduced nc ortho w -> operator_word sc w ->
  exists l, atoms_of sc w = Some l /\ (forall a, In a l -> atom_word sc a) /\ forall arr L, moments_of sc arr L -> cprod (map L l) = L w.
Proof.
  intros R O. destruct (factors_are sc W FC w O) as (fs & lw & N & E & EW & RG & SP & EF & NE). unfold atoms_of. rewrite E.
  set (ff := filter _ fs) in *. assert (P : forall f, In f ff -> reduced nc ortho (map S f) /\ operator_word sc (map S f) /\ map S f <> []).
  { intros f Hf. apply (in_map (map S)) in Hf. rewrite EF in Hf. apply in_map_iff in Hf as (q & <- & Hq). apply in_seq in Hq. split; [|split].
    - apply (reduced_part sc W lw q); [intros x Hx; apply RG, Hx|exact SP|rewrite EW; exact R].
    - intros x Hx. unfold part in Hx. apply in_map_iff in Hx as (y & <- & Hy). apply filter_In in Hy as [Hy _]. apply RG, Hy.
    - apply NE. lia. }
  assert (EL : forall arr L, moments_of sc arr L -> L w = cprod (map (fun f => L (map S f)) ff)).
  { intros arr L MQ. rewrite <- EW, (L_parts sc W arr L MQ N lw RG SP), <- (map_map (part lw) L), <- EF, map_map. reflexivity. }
  enough (EX : exists l, map_opt (fun f => atom_of sc (map S f)) ff = Some l /\ (forall a, In a l -> atom_word sc a) /\ forall arr L, moments_of sc arr L -> cprod (map L l) = cprod (map (fun f => L (map S f)) ff)).
  { destruct EX as (l & E1 & E2 & E3). exists l. split; [exact E1|]. split; [exact E2|]. intros arr L MQ. rewrite (EL arr L MQ). apply (E3 arr L MQ). }
  clear EL EF E. induction ff as [|f l IH]; [exists []; split; [reflexivity|split; [intros a []|reflexivity]]|].
  destruct IH as (r & E1 & E2 & E3); [intros f' Hf'; apply P; right; exact Hf'|]. destruct (P f (or_introl eq_refl)) as (P1 & P2 & P3). destruct (atom_of_is _ P1 P2 P3) as (a & Ea & Rep & Aa).
  exists (a :: r). cbn [map_opt]. rewrite Ea, E1. split; [reflexivity|]. split; [intros x [<-|Hx]; [exact Aa|apply E2, Hx]|]. intros arr L MQ. cbn [map]. rewrite !cprod_cons, (E3 arr L MQ). f_equal. apply (L_rep arr L MQ); [apply op_range, P2|exact Rep].
Qed.
End Values.
