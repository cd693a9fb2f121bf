(** The atoms of a generated programme are not longer than two columns; means of commuting products. *)
From Coq Require Import Permutation QArith Qcanon List Arith Bool Lia Sorted.
From Verif Require Import CanonModel CanonSpec MomentModel MomentSpec OrbitModel ScenarioModel ScenarioSpec SymModel SymSpec KnowModel KnowSpec FactorModel FactorSpec
  MargModel ColumnModel ColumnSpec MemoModel MemoSpec NameModel NameSpec ProgramModel ProgramSpec ProgramProofs LPMomentModel QuantumSpec QuantumProofs QInflationSpec SDPMomentModel SoundProofs QMomentProofs QMomentProofs2 QMomentProofs3 QMomentProofs4 QMomentProofs5.
From Verif Require ScenarioProofs CanonProofs CanonProofs2 ColumnProofs ColumnProofs2 ColumnProofs3 MemoProofs PropOrbit PropCanon PropPhys.
Import ListNotations.
Close Scope Q_scope. Close Scope Qc_scope. Open Scope nat_scope.

Lemma real_state sc arr L : moments_of sc arr L -> PhysSpec.state (sdp_notcomm sc) (sdp_orthomat sc) (fun w => fst (L w)).
Proof.
  intros MQ. constructor.
  - intros u v H. rewrite (mq_equal _ _ _ MQ u v H). reflexivity.
  - rewrite (mq_zero _ _ _ MQ). reflexivity.
  - intros u. assert (P := mq_positive _ _ _ MQ [(C1, u)]). unfold Csum in P. cbn [map fold_right fst snd] in P.
    match type of P with (0 <= ?p)%Qc => replace p with (fst (L (rev u ++ u))) in P; [exact P|] end.
    destruct (L (rev u ++ u)) as [p q]. unfold Cplus, Cmult, Cconj, C1, C0. cbn [fst snd]. ring.
Qed.
Lemma commuting_nonneg sc arr L w : wf_scenario sc -> moments_of sc arr L -> (forall a b, In a w -> In b w -> sdp_notcomm sc a b = false) -> (0 <= fst (L w))%Qc.
Proof.
  intros W MQ H. apply (PropPhys.C41_self_conjugate_nonnegative (sdp_notcomm sc) (sdp_orthomat sc) w (fun w => fst (L w)) (ScenarioProofs.scenario_good_tables sc W)); [|exact (real_state sc arr L MQ)].
  apply CanonProofs2.ce_pe, CanonSpec.ce_sym. apply CanonProofs.commuting_perm_ce; [apply Permutation_rev|exact H].
Qed.

Definition longest (cols : list word) : nat := list_max (map (@length nat) cols).
Lemma longest_le cols i : length (nth i cols []) <= longest cols.
Proof.
  destruct (Nat.lt_ge_cases i (length cols)) as [H|H]; [|rewrite nth_overflow by exact H; cbn; lia]. unfold longest.
  assert (Q := proj1 (list_max_le (map (@length nat) cols) _) (le_n _)). rewrite Forall_forall in Q. apply Q. apply in_map_iff. exists (nth i cols []). split; [reflexivity|apply (nth_In (A := word)), H].
Qed.

Section Lengths.
Variables (sc : scenario) (W : wf_scenario sc) (FC : few_copies sc).
Notation n := (length (lexorder sc)).
Notation nc := (sdp_notcomm sc).
Notation ortho := (sdp_orthomat sc).
Notation syms := (sdp_lexorder_symmetries sc).
Notation oc := (operators_commute sc).
Variables (cols : list word) (GC : good_columns nc ortho (S n) cols).
Let G := ScenarioProofs.scenario_good_tables sc W.
Let OS := ColumnProofs3.scenario_symmetries sc W.
Notation N := (length cols).
Lemma entry_length i j : length (entry cols i j) <= 2 * longest cols.
Proof. unfold entry. rewrite app_length, rev_length. assert (H := longest_le cols i). assert (H' := longest_le cols j). unfold word in *. lia. Qed.
Lemma corresp_length M orbits corresp : symmetrized_moment_matrix nc ortho oc cols syms = Some (M, orbits, corresp) ->
  forall k w, In (k, w) corresp -> length w <= 2 * longest cols.
Proof.
  intros E k w H. destruct (corresp_words sc W cols GC M orbits corresp E k w H) as (_ & (NZ & _) & _). destruct (PropOrbit.C06_scenario_moment_matrix sc oc cols W (comm_flag sc W) GC) as (M' & ob & co & E' & Z & _ & ND & A & B & _). rewrite E in E'.
  assert (co = corresp) by congruence. assert (M' = M) by congruence. subst co M'. clear E' E.
  destruct (B k w H) as (K0 & CW & i & j & Hi & Hj & Ek). destruct (A i j Hi Hj) as (w' & g & Ew & Hg & _ & SM); [congruence|]. rewrite Ek, (ColumnProofs2.assoc_unique _ _ _ ND H) in Ew. assert (w' = w) by congruence. subst w'. clear Ew.
  set (u := apply_lexsym g (entry cols i j)) in *. assert (Lu : length u = length (entry cols i j)) by apply map_length.
  assert (I : forall v, proj_eq nc ortho v w -> length w <= length v).
  { intros v P. assert (Ev : to_canonical_1d_internal nc ortho false false v = Some w) by (rewrite <- CW; apply (PropCanon.C03_equal_iff_same_canonical_form nc ortho v w G), P).
    destruct (PropCanon.C04_shape nc ortho v w G Ev) as [Q|(_ & _ & I & _)]; [|exact I]. exfalso. apply NZ. rewrite Q. left. reflexivity. }
  assert (EL := entry_length i j). destruct SM as [SM|SM]; [specialize (I u SM); lia|]. assert (SM' : proj_eq nc ortho (rev u) w) by (rewrite <- (rev_involutive w); apply CanonProofs2.pe_rev; try exact G; exact SM). specialize (I _ SM'). rewrite rev_length in I. lia.
Qed.
Lemma part_length lw q : length (part lw q) <= length lw.
Proof. unfold part. rewrite map_length. clear. induction lw as [|x lw IH]; cbn [filter length]; [lia|]. destruct (_ =? _); cbn [length]; lia. Qed.
Lemma atoms_of_length w l : operator_word sc w -> reduced nc ortho w -> atoms_of sc w = Some l -> forall a, In a l -> length a <= length w.
Proof.
  intros O R E a Ha. destruct (factors_are sc W FC w O) as (fs & lw & K & E' & EW & RG & SP & EF & NE). unfold atoms_of in E. rewrite E' in E.
  set (ff := filter _ fs) in *. assert (P : forall f, In f ff -> reduced nc ortho (map S f) /\ operator_word sc (map S f) /\ map S f <> [] /\ length (map S f) <= length w).
  { intros f Hf. apply (in_map (map S)) in Hf. rewrite EF in Hf. apply in_map_iff in Hf as (q & <- & Hq). apply in_seq in Hq. split; [|split; [|split]].
    - apply (reduced_part sc W lw q); [intros x Hx; apply RG, Hx|exact SP|rewrite EW; exact R].
    - intros x Hx. unfold part in Hx. apply in_map_iff in Hx as (y & <- & Hy). apply filter_In in Hy as [Hy _]. apply RG, Hy.
    - apply NE. lia.
    - rewrite <- EW, (map_length snd lw). apply part_length. }
  clear EF E'. revert l E Ha. induction ff as [|f ff IH]; intros l E Ha; cbn [map_opt] in E; [assert (l = []) by congruence; subst l; destruct Ha|].
  destruct (P f (or_introl eq_refl)) as (P1 & P2 & P3 & P4). destruct (atom_of_is sc W _ P1 P2 P3) as (b & Eb & ((g & _ & Rep) & _) & _). rewrite Eb in E. destruct (map_opt _ ff) as [l'|] eqn:E2; [|discriminate]. assert (l = b :: l') by congruence. subst l.
  destruct Ha as [<-|Ha]; [|apply (IH (fun f' Hf' => P f' (or_intror Hf')) l' eq_refl Ha)]. apply (CanonProofs.ce_length nc) in Rep. unfold apply_lexsym in Rep. rewrite map_length in Rep. lia.
Qed.
Lemma conjugate_length w : atom_word sc w -> length (conjugate sc w) = length w.
Proof.
  intros A. destruct (conjugate_atom sc W w A) as (E & _). rewrite E. destruct (conj_ok sc W w) as [C1' C2]. destruct (sub_any nc w) eqn:Q.
  - specialize (C2 A (proj1 (MemoProofs.sub_any_spec nc w) Q)). destruct C2 as [(g & _ & Rep) _]. apply (CanonProofs.ce_length nc) in Rep. unfold apply_lexsym in Rep. rewrite map_length, rev_length in Rep. congruence.
  - rewrite C1'; [reflexivity|]. apply CanonProofs.sub_any_false. exact Q.
Qed.
Variables (hc : list bool) (sup : bool) (r : SDPMomentModel.relaxation) (GE : SDPMomentModel.generate sc hc sup cols = Some r).
Lemma atoms_length a : In a (SDPMomentModel.r_atoms r) -> a = [0] \/ length a <= 2 * longest cols.
Proof.
  destruct (parts sc W FC cols GC hc sup r GE) as (ob & co & lists & eqs & EM & HL & F2 & EA & _). rewrite EA. intros H. apply (atoms_in sc) in H.
  assert (K : forall l b, In l (map snd lists) -> In b l -> length b <= 2 * longest cols).
  { intros l b Hl Hb. apply in_map_iff in Hl as ([k l'] & <- & Hl). cbn [snd] in Hb. assert (CW := corresp_words sc W cols GC _ _ _ EM). assert (CL := corresp_length _ _ _ EM). clear - F2 CW CL Hl Hb W FC.
    induction F2 as [|[k0 w0] [k1 l1] co lists (E1 & E2 & _) F2 IH]; [destruct Hl|]. cbn [fst snd] in *. destruct Hl as [E|Hl].
    - assert (l1 = l') by congruence. subst l1. destruct (CW k0 w0 (or_introl eq_refl)) as (_ & RD & OW). assert (Q := atoms_of_length w0 l' OW RD E2 b Hb). assert (Q' := CL k0 w0 (or_introl eq_refl)). lia.
    - apply IH; [exact Hl|intros k2 w2 H; apply (CW k2 w2); right; exact H|intros k2 w2 H; apply (CL k2 w2); right; exact H]. }
  destruct H as [->|[(l & Hl & Ha)|(l & b & Hl & Hb & ->)]]; [left; reflexivity|right; apply (K l a Hl Ha)|right]. rewrite (conjugate_length b (HL l b Hl Hb)). apply (K l b Hl Hb).
Qed.
End Lengths.
