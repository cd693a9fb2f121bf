(** Semidefinite programmes about supports: tables of possibilities. *)
From Coq Require Import Permutation QArith Qcanon List Arith Bool Lia Sorted String Ascii.
From Verif Require Import CanonModel CanonSpec MomentModel MomentSpec OrbitModel ScenarioModel ScenarioSpec SymModel SymSpec KnowModel KnowSpec FactorModel FactorSpec
  MargModel QcSum QcArith ColumnModel ColumnSpec MemoModel MemoSpec NormModel NormSpec NameModel NameSpec ProgramModel ProgramSpec ProgramProofs ProgramProofs2 ProgramProofs3 LPMomentModel QuantumSpec QuantumProofs QInflationSpec SDPMomentModel SDPRunSpec SoundProofs QMomentProofs QMomentProofs2 QMomentProofs3 QMomentProofs4 QMomentProofs5 QMomentProofs6 QMomentProofs7 QMomentLengths QMomentProofs8 QMomentProofs9 QMomentProofs10 QMomentProofs14 SupportSpec SupportSDPSpec SupportProofs SupportProofs3 SupportProofs4 SupportProofs5 SupportProofs6.
From Verif Require CanonProofs ScenarioProofs PropProgram KnowProofs PropMarg ClassicalProofs2.
From Verif Require Import SupportProofs2.
Import ListNotations.
Close Scope Q_scope. Close Scope Qc_scope. Open Scope string_scope. Open Scope nat_scope. Open Scope list_scope.

Section Generated.
Variables (sc : scenario) (W : wf_scenario sc) (FC : few_copies sc) (Hset : forall x, In x (private_settings sc) -> 1 <= x).
Notation n := (List.length (lexorder sc)).
Variables (cols : list word) (GC : good_columns (sdp_notcomm sc) (sdp_orthomat sc) (S n) cols).
Context {sup : bool}.
Variables (hc : list bool) (r : SDPMomentModel.relaxation) (GE : SDPMomentModel.generate sc hc sup cols = Some r).
Notation c := (SDPMomentModel.r_context r).
Notation atoms := (SDPMomentModel.r_atoms r).
Variables (arr : ndarray) (Sh : nd_shape arr = outcomes sc ++ private_settings sc) (PT : possibility_table sc arr).
Lemma atom_large a v : a < List.length atoms -> knowable_of sc atoms a = true -> SDPMomentModel.atom_value sc arr (nth a atoms []) = Some v -> zero_or_large v.
Proof.
  intros Ha K E1. destruct (parts sc W FC cols GC hc sup r GE) as (ob & co & lists & eqs & EM & HLs & F & EA & ER & _).
  unfold SDPMomentModel.atom_value in E1. assert (I := nth_In (A := word) atoms [] Ha). rewrite EA in I. destruct (atoms_are sc W _ HLs _ I) as [E|A]; rewrite <- EA in *.
  - rewrite E in E1. cbn [NameModel.is_zero forallb Nat.eqb negb andb] in E1. left. congruence.
  - unfold knowable_of in K. set (w := nth a atoms []) in *. assert (A' := A). destruct A' as (NE & R & _). assert (Z : NameModel.is_zero w = false).
    { unfold NameModel.is_zero. apply negb_false_iff, forallb_forall. intros o Ho. specialize (R o Ho). destruct o; [lia|reflexivity]. }
    assert (K' : NameModel.is_knowable sc w = Some true) by (destruct (NameModel.is_knowable sc w) as [[|]|]; congruence). assert (K2 := knowable_word sc W w R K' NE).
    assert (HV : forall k, In k (map pred w) -> k < List.length (lexorder sc)) by (intros k Hk; apply in_map_iff in Hk as (o & <- & Ho); specialize (R o Ho); lia).
    assert (NE' : map pred w <> []) by (destruct w; [contradiction|discriminate]).
    rewrite Z in E1. destruct (PropMarg.C16_knowable_moment_value sc (map pred w) arr W HV NE' (atom_sorted sc W w A K2) K2 Sh Hset) as (v2 & Ev & Hv). rewrite Ev in E1. assert (v2 = v) by congruence. subst v2.
    destruct (KnowProofs.atom_is_knowable_correct sc (map pred w) W HV) as (b & Eb & Hb). rewrite K2 in Eb. injection Eb as <-. destruct (proj1 Hb eq_refl) as (OP & OC & PA).
    destruct (settings_ok sc W (map pred w) HV OP) as [LS S'].
    rewrite (Hv (agreeing sc (map pred w)) (settings_of sc (map pred w)) (agreeing_nodup sc (map pred w)) (agreeing_in sc W (map pred w) HV) LS S').
    apply large_sum. intros o Ho. apply PT; [apply (agreeing_in sc W _ HV), Ho|]. apply (ClassicalProofs2.settings_in_range sc W (map pred w) HV _ S' LS Hset).
Qed.
Lemma given_large values m v : distribution_values sc r arr = Some values -> given values m = Some v -> zero_or_large v.
Proof.
  intros E Gv. unfold given in Gv. destruct (find _ _) as [[m' o]|] eqn:Fd; [|discriminate]. subst o. apply find_some in Fd as [Fd _]. apply in_rev in Fd. unfold distribution_values in E. apply ScenarioProofs.map_opt_some in E.
  assert (X : exists a, In a (knowable_atoms r) /\ SDPMomentModel.atom_value sc arr (nth a atoms []) = Some v).
  { clear - E Fd. induction E as [|a q l l' H _ IH]; [destruct Fd|]. destruct Fd as [->|Fd]; [|destruct (IH Fd) as (b & Hb & Eb); exists b; split; [right; exact Hb|exact Eb]].
    exists a. split; [left; reflexivity|]. destruct (SDPMomentModel.atom_value sc arr (nth a atoms [])) as [u|]; [|discriminate]. congruence. }
  destruct X as (a & Ha & Ea). unfold knowable_atoms in Ha. apply filter_In in Ha as [Ha K]. apply in_seq in Ha. apply andb_prop in K as [_ K].
  destruct (generate_is sc cols hc sup r GE) as (_ & _ & _ & _ & _ & _ & _ & _ & _ & _ & _ & _ & _ & EK & _). rewrite EK in K. apply (atom_large a v ltac:(lia) K Ea).
Qed.
Lemma base_large values m v : distribution_values sc r arr = Some values -> base sdp c values m = Some v -> zero_or_large v.
Proof.
  intros E. unfold base. destruct (given values m) as [u|] eqn:Gv; [intros Q; assert (u = v) by congruence; subst u; apply (given_large values m v E Gv)|].
  destruct (meq m One) as [|]; [intros Q; assert (v = 1%Qc) as -> by congruence; right; apply Qcle_refl|]. destruct (zero_moment c) as [z|]; [|discriminate]. destruct (meq m z) as [|]; [|discriminate]. intros Q. left. congruence.
Qed.
Lemma known_large values lpi only s sp m v : distribution_values sc r arr = Some values -> set_values sdp (plain c) values lpi only s = Some sp -> In (m, v) (known sp) -> zero_or_large v.
Proof.
  intros EV E Hm. pose proof (wf_set sdp (plain c) values lpi only s sp E) as Wf. pose proof (in_get meq m v (known sp) (wf_known _ Wf) Hm) as Gm.
  assert (BC : forall m v, base sdp (plain c) values m = Some v -> zero_or_large v) by (intros m' v'; exact (base_large values m' v' EV)). clear Hm. destruct only.
  - destruct (PropProgram.C22_only_specified sdp (plain c) values lpi s sp eq_refl E) as [_ K]. rewrite K in Gm. apply (BC m v Gm).
  - destruct values as [|q vs] eqn:EQ.
    + destruct (PropProgram.C22_without_values sdp (plain c) lpi false s sp eq_refl E) as [_ K]. rewrite K in Gm. apply (BC m v Gm).
    + rewrite <- EQ in *. assert (NE : values <> []) by (rewrite EQ; discriminate). apply (PropProgram.C22_known_exactly sdp (plain c) values lpi s sp (dagger_ok sc W FC cols GC hc sup r GE) eq_refl NE E) in Gm as (_ & KV).
      unfold known_value in KV. destruct ((2 <=? List.length m) && _) eqn:D; [|apply (BC m v KV)]. assert (v = coefficient sdp (plain c) values m) as -> by congruence. apply large_product. intros a _.
      destruct (ProgramSpec.atom_value sdp (plain c) values a) as [u|] eqn:Ea; [|right; apply Qcle_refl]. unfold ProgramSpec.atom_value in Ea. destruct (base sdp (plain c) values [ProgramModel.dagger (plain c) a]) as [u'|] eqn:E1; [|apply (BC _ _ Ea)]. assert (u' = u) by congruence. subst u'. apply (BC _ _ E1).
Qed.
End Generated.
Lemma table_known_zero sc (W : wf_scenario sc) (FC : few_copies sc) (Hset : forall x, In x (private_settings sc) -> 1 <= x) cols (GC : good_columns (sdp_notcomm sc) (sdp_orthomat sc) (S (List.length (lexorder sc))) cols) hc nm arr lpi shared feas r s a : sdp_supports_run sc hc cols nm arr lpi shared feas r s a -> nd_shape arr = outcomes sc ++ private_settings sc -> possibility_table sc arr -> forall m v, In (m, v) (known s) -> v = 0%Qc.
Proof.
  intros RUN Sh PT m v Hm. destruct (state_facts sc cols hc nm arr lpi shared feas r s a RUN) as (values & sp & EV & ESP & _ & K & _). destruct (K m v Hm) as [H C0].
  apply zero_or_large_close; [|exact C0]. exact (known_large sc W FC Hset cols GC hc r (sp_generate _ _ _ _ _ _ _ _ _ _ _ RUN) arr Sh PT values lpi shared empty_state sp m v EV ESP H).
Qed.
