(** Known values of semidefinite programmes are marginals of the distribution. *)
From Coq Require Import Permutation QArith Qcanon List Arith Bool Lia Sorted String Ascii.
From Verif Require Import CanonModel CanonSpec MomentModel MomentSpec OrbitModel ScenarioModel ScenarioSpec SymModel SymSpec KnowModel KnowSpec FactorModel FactorSpec
  MargModel QcSum QcArith ColumnModel ColumnSpec MemoModel MemoSpec NormModel NormSpec NameModel NameSpec ProgramModel ProgramSpec ProgramProofs ProgramProofs2 ProgramProofs3 LPMomentModel QuantumSpec QuantumProofs QInflationSpec SDPMomentModel SDPRunSpec SoundProofs QMomentProofs QMomentProofs2 QMomentProofs3 QMomentProofs4 QMomentProofs5 QMomentProofs6 QMomentProofs7 QMomentLengths QMomentProofs8 QMomentProofs9 QMomentProofs10 QMomentProofs11 QMomentProofs12 QMomentProofs13 CertModel CertSpec.
From Verif Require CanonProofs ScenarioProofs KnowProofs PropProgram PropMarg PropSDP SDPSolveModel SDPSolveSpec PSD ClassicalProofs2 CertProofs3 NameProofs4.
Import ListNotations.
Close Scope Q_scope. Close Scope Qc_scope. Open Scope string_scope. Open Scope nat_scope. Open Scope list_scope.

Lemma product_bounds (l : list Qc) : (forall q, In q l -> (0 <= q /\ q <= 1)%Qc) -> (0 <= ProgramModel.product l /\ ProgramModel.product l <= 1)%Qc.
Proof.
  induction l as [|q l IH]; intros H; [split; discriminate|]. destruct (IH (fun q' Hq' => H q' (or_intror Hq'))) as [A B]. destruct (H q (or_introl eq_refl)) as [C D]. cbn [ProgramModel.product fold_right]. fold (ProgramModel.product l). split; qcnra.
Qed.
Lemma product_zero (l : list Qc) : In 0%Qc l -> ProgramModel.product l = 0%Qc.
Proof. induction l as [|q l IH]; intros H; [destruct H|]. cbn [ProgramModel.product fold_right]. fold (ProgramModel.product l). destruct H as [->|H]; [ring|]. rewrite (IH H). ring. Qed.

Section Known.
Variables (sc : scenario) (W : wf_scenario sc) (FC : few_copies sc) (Hout : forall o, In o (outcomes sc) -> 1 <= o).
Variable Hset : forall k, In k (private_settings sc) -> 1 <= k.
Notation n := (List.length (lexorder sc)).
Notation nc := (sdp_notcomm sc).
Notation ortho := (sdp_orthomat sc).
Variables (cols : list word) (GC : good_columns nc ortho (S n) cols).
Variables (hc : list bool) (r : SDPMomentModel.relaxation) (GE : SDPMomentModel.generate sc hc false cols = Some r).
Notation c := (SDPMomentModel.r_context r).
Notation atoms := (SDPMomentModel.r_atoms r).
Notation F := (the_facts sc W FC cols GC hc r GE).

Lemma knowable_is : ProgramModel.is_knowable c = knowable_of sc atoms.
Proof. destruct (generate_is sc cols hc false r GE) as (_ & _ & _ & _ & _ & _ & _ & _ & _ & _ & _ & _ & _ & EK & _). exact EK. Qed.
Lemma knowable_facts a : a < List.length atoms -> knowable_of sc atoms a = true -> nth a atoms [] = [0] \/ (atom_word sc (nth a atoms []) /\ atom_is_knowable sc (map pred (nth a atoms [])) = Some true).
Proof.
  intros Ha K. destruct (f_atoms _ _ F _ (nth_In (A := word) atoms [] Ha)) as [E|A]; [left; exact E|]. right. split; [exact A|]. destruct A as (NE & R & _). unfold knowable_of in K.
  apply (knowable_word sc W _ R); [|exact NE]. destruct (NameModel.is_knowable sc (nth a atoms [])) as [[|]|]; congruence.
Qed.
Lemma knowable_commute w : atom_word sc w -> atom_is_knowable sc (map pred w) = Some true -> forall a b, In a w -> In b w -> nc a b = false.
Proof.
  intros (NE & R & _) K. destruct w as [|k0 w0]; [contradiction|]. set (w := k0 :: w0) in *.
  assert (AC : all_commuting_q_1d (default_notcomm sc) (map pred w) = true).
  { unfold atom_is_knowable in K. change (map pred w) with (pred k0 :: map pred w0) in K. cbv iota in K.
    change (pred k0 :: map pred w0) with (map pred w) in K.
    destruct (nb_is_knowable _ _); [|discriminate]. cbn [andb] in K. destruct (all_commuting_q_1d _ _); [reflexivity|discriminate]. }
  intros a b Ha Hb.
    unfold all_commuting_q_1d in AC. rewrite forallb_forall in AC. specialize (AC (pred a) (in_map _ _ _ Ha)). rewrite forallb_forall in AC.
    specialize (AC (pred b) (in_map _ _ _ Hb)). rewrite negb_true_iff in AC.
    destruct a as [|a]; [specialize (R 0 Ha); lia|]. destruct b as [|b]; [specialize (R 0 Hb); lia|]. exact AC.
Qed.
Lemma knowable_dagger a : a < List.length atoms -> knowable_of sc atoms a = true -> ProgramModel.dagger c a = a.
Proof.
  intros Ha K. destruct (f_dagger _ _ F a Ha) as [Hd E]. assert (X : conjugate sc (nth a atoms []) = nth a atoms []).
  { destruct (knowable_facts a Ha K) as [->|[A KN]]; [apply conjugate_zero|]. destruct (conjugate_atom sc W _ A) as (-> & _). apply (conj_ok sc W). apply (knowable_commute _ A KN). }
  rewrite X in E. apply (proj1 (NoDup_nth atoms []) (f_nodup _ _ F) _ _ Hd Ha E).
Qed.
Variables (arr : ndarray) (PA : probability_array sc arr).
Notation val := (fun a => SDPMomentModel.atom_value sc arr (nth a atoms [])).
Lemma atom_bounds a : a < List.length atoms -> knowable_of sc atoms a = true -> exists v, val a = Some v /\ (0 <= v /\ v <= 1)%Qc.
Proof.
  intros Ha K. unfold SDPMomentModel.atom_value. destruct (knowable_facts a Ha K) as [->|[A KN]].
  { exists 0%Qc. split; [reflexivity|split; discriminate]. }
  set (w := nth a atoms []) in *. assert (A' := A). destruct A' as (NE & R & _). rewrite (NameProofs4.not_zero sc _ (NameProofs4.atom_letters sc _ A)).
  assert (HV : forall k, In k (map pred w) -> k < n) by (intros k Hk; apply in_map_iff in Hk as (x & <- & Hx); specialize (R x Hx); lia).
  assert (NE' : map pred w <> []) by (destruct w; [contradiction|discriminate]).
  destruct (PropMarg.C16_knowable_moment_value sc (map pred w) arr W HV NE' (atom_sorted sc W w A KN) KN (pa_shape _ _ PA) Hset) as (v & Ev & Hv). exists v. split; [exact Ev|].
  destruct (KnowProofs.atom_is_knowable_correct sc (map pred w) W HV) as (b & Eb & Hb). rewrite KN in Eb. injection Eb as <-. destruct (proj1 Hb eq_refl) as (OP & OC & PAR).
  destruct (settings_ok sc W (map pred w) HV OP) as [LS S']. set (x := settings_of sc (map pred w)) in *.
  rewrite (Hv (agreeing sc (map pred w)) x (agreeing_nodup sc (map pred w)) (agreeing_in sc W (map pred w) HV) LS S').
  assert (XR : Forall2 lt x (private_settings sc)) by apply (ClassicalProofs2.settings_in_range sc W (map pred w) HV _ S' LS Hset).
  rewrite <- (pa_total _ _ PA x XR). unfold agreeing. assert (NN : forall o, In o (ndindex (outcomes sc)) -> (0 <= nd_at arr (o ++ x))%Qc).
  { intros o Ho. apply (pa_nonneg _ _ PA); [|exact XR]. apply ScenarioProofs.ndindex_in, Ho. }
  revert NN. generalize (ndindex (outcomes sc)). intros l NN. induction l as [|o l IH]; [split; discriminate|]. specialize (IH (fun o' Ho' => NN o' (or_intror Ho'))). specialize (NN o (or_introl eq_refl)). cbn [filter map]. rewrite sumQ_cons. destruct IH as [A1 A2].
  destruct (forallb _ _); cbn [map]; rewrite ?sumQ_cons; split; qclra.
Qed.
Lemma given_atom values m v : distribution_values sc r arr = Some values -> given values m = Some v -> exists a, a < List.length atoms /\ knowable_of sc atoms a = true /\ val a = Some v /\ m = [a].
Proof.
  intros EV Gv. unfold given in Gv. destruct (find _ _) as [[m' o]|] eqn:Fd; [|discriminate]. subst o. apply find_some in Fd as [Fd Q]. cbn [fst snd] in Q. apply andb_prop in Q as [Q _]. destruct (meq m' m) as [->|]; [|discriminate]. clear Q.
  apply in_rev in Fd. pose proof EV as EV2. unfold distribution_values in EV2. apply ScenarioProofs.map_opt_some in EV2.
  assert (X : exists a, In a (knowable_atoms r) /\ match SDPMomentModel.atom_value sc arr (nth a atoms []) with Some v => Some (ProgramModel.monomial_from_atoms c [a], Some v) | None => None end = Some (m, Some v)).
  { clear - EV2 Fd. revert Fd. induction EV2 as [|a q l l' H _ IH]; [intros []|]. intros [->|Fd]; [exists a; split; [left; reflexivity|exact H]|]. destruct (IH Fd) as (b & Hb & Eb). exists b. split; [right; exact Hb|exact Eb]. }
  destruct X as (a & Ha & Ea). unfold knowable_atoms in Ha. apply filter_In in Ha as [Ha K]. apply in_seq in Ha. apply andb_prop in K as [_ K]. rewrite knowable_is in K. assert (La : a < List.length atoms) by lia.
  exists a. split; [exact La|]. split; [exact K|]. destruct (SDPMomentModel.atom_value sc arr (nth a atoms [])) as [u|] eqn:EU; [|discriminate]. split; [congruence|]. assert (Em : m = ProgramModel.monomial_from_atoms c [a]) by congruence.
  assert (NE : ProgramModel.monomial_from_atoms c [a] <> []) by (apply from_atoms_nonempty; [intros x [<-|[]]; apply (f_isone _ _ F a La)|discriminate]). assert (SH := from_atoms_short c a). rewrite <- Em in *. destruct m as [|b [|]]; [contradiction| |cbn in SH; lia].
  destruct (single_from_atoms r a b (eq_sym Em)) as [->| -> ]; [reflexivity|]. rewrite (knowable_dagger a La K). reflexivity.
Qed.
Lemma zero_value a : ProgramModel.is_zero c a = true -> val a = Some 0%Qc.
Proof. intros Z. rewrite (f_iszero _ _ F) in Z. cbv beta. unfold SDPMomentModel.atom_value. rewrite Z. reflexivity. Qed.
Definition seen (a : nat) (v : Qc) : Prop := val a = Some v /\ (0 <= v /\ v <= 1)%Qc /\ (ProgramModel.is_zero c a = true \/ ProgramModel.is_knowable c a = true).
Lemma base_seen values m v : distribution_values sc r arr = Some values -> base sdp c values m = Some v -> (m = One /\ v = 1%Qc) \/ exists a, m = [a] /\ seen a v.
Proof.
  intros EV. unfold base. destruct (given values m) as [u|] eqn:Gv.
  - intros E. assert (u = v) by congruence. subst u. destruct (given_atom values m v EV Gv) as (a & La & K & V & ->). right. exists a. split; [reflexivity|]. destruct (atom_bounds a La K) as (v' & V' & B). assert (v' = v) by (cbv beta in *; congruence). subst v'. split; [exact V|]. split; [exact B|]. right. rewrite knowable_is. exact K.
  - destruct (meq m One) as [->|]; [left; split; [reflexivity|congruence]|]. destruct (zero_moment c) as [x|] eqn:EZ; [|discriminate]. destruct (meq m x) as [->|]; [|discriminate]. intros E. assert (v = 0%Qc) as -> by congruence.
    right. exists (number atoms [0]). split; [apply (zero_is sc cols hc false r GE x EZ)|]. destruct (zero_dagger sc W FC cols GC hc r GE) as [_ Z]. split; [apply zero_value, Z|]. split; [split; discriminate|left; exact Z].
Qed.
Lemma value_seen values a v : a < List.length atoms -> distribution_values sc r arr = Some values -> ProgramSpec.atom_value sdp c values a = Some v -> seen a v.
Proof.
  intros La EV. unfold ProgramSpec.atom_value. destruct (base sdp c values [ProgramModel.dagger c a]) as [u|] eqn:B.
  - intros E. assert (u = v) by congruence. subst u. destruct (base_seen values _ v EV B) as [(E' & _)|(b & E' & V & Bd & ZK)]; [discriminate|]. assert (b = ProgramModel.dagger c a) by congruence. subst b.
    destruct ZK as [Z|K].
    + rewrite (dagger_zero sc W FC cols GC hc r GE a La) in Z. pose proof (zero_value a Z) as Z'. split; [|split; [exact Bd|left; exact Z]]. rewrite Z'. f_equal. rewrite <- (dagger_zero sc W FC cols GC hc r GE a La) in Z. apply zero_value in Z. cbv beta in *. congruence.
    + assert (Ld : ProgramModel.dagger c a < List.length atoms) by apply (f_dagger _ _ F a La). pose proof K as K'. rewrite knowable_is in K'. pose proof (knowable_dagger _ Ld K') as E1. rewrite (f_twice _ _ F a) in E1. rewrite <- E1 in V, K. split; [exact V|]. split; [exact Bd|right; exact K].
  - intros B'. destruct (base_seen values _ v EV B') as [(E' & _)|(b & E' & X)]; [discriminate|]. assert (b = a) by congruence. subst b. exact X.
Qed.
(** known moments: products of marginals *)
Definition value_of (a : nat) : Qc := match val a with Some v => v | None => 0%Qc end.
Lemma seen_value a v : seen a v -> v = value_of a.
Proof. intros [V _]. unfold value_of. rewrite V. reflexivity. Qed.
Lemma known_seen lpi only s1 s2 m v : lpi = false \/ only = true -> SDPMomentModel.set_distribution sc r (Some arr) lpi only s1 = Some s2 -> In (m, v) (known s2) ->
  v = moment_at value_of m /\ forall a, In a m -> exists u, seen a u.
Proof.
  intros LP E Hm. assert (SI := no_supports sc cols hc r GE). assert (DI := dagger_ok sc W FC cols GC hc false r GE). unfold SDPMomentModel.set_distribution in E. destruct (distribution_values sc r arr) as [values|] eqn:EV; [|discriminate].
  pose proof (wf_set sdp c values lpi only s1 s2 E) as Wf. apply (in_get meq m v (known s2) (wf_known _ Wf)) in Hm.
  assert (BC : base sdp c values m = Some v -> v = moment_at value_of m /\ forall a, In a m -> exists u, seen a u).
  { intros B. destruct (base_seen values m v EV B) as [(-> & ->)|(a & -> & X)]; [split; [reflexivity|intros a []]|]. split; [unfold moment_at; cbn [map ProgramModel.product fold_right]; rewrite (seen_value a v X); ring|]. intros b [<-|[]]. eauto. }
  destruct only.
  - destruct (PropProgram.C22_only_specified sdp c values lpi s1 s2 SI E) as [_ K]. rewrite K in Hm. apply BC, Hm.
  - destruct LP as [->|]; [|discriminate]. destruct values as [|q values'] eqn:EQ.
    + destruct (PropProgram.C22_without_values sdp c false false s1 s2 SI E) as [_ K]. rewrite K in Hm. apply BC, Hm.
    + rewrite <- EQ in *. assert (NE : values <> []) by (rewrite EQ; discriminate).
      apply (PropProgram.C22_known_exactly sdp c values false s1 s2 DI SI NE E) in Hm as (I & KV). unfold known_value in KV. cbn [andb] in KV. rewrite orb_false_r in KV.
      destruct ((2 <=? List.length m) && forallb (valued sdp c values) m) eqn:D; [|apply BC, KV]. apply andb_prop in D as [_ D]. injection KV as <-.
      assert (RG := proper_range sc W FC cols GC hc r GE m (moments_proper sc W FC cols GC hc r GE m I)).
      assert (AV : forall i, In i m -> exists w, ProgramSpec.atom_value sdp c values i = Some w /\ seen i w).
      { intros i Hi. pose proof (proj1 (forallb_forall _ _) D i Hi) as V. unfold valued in V. destruct (ProgramSpec.atom_value sdp c values i) as [w|] eqn:A; [|discriminate]. exists w. split; [reflexivity|]. apply (value_seen values i w (RG i Hi) EV A). }
      split; [|intros i Hi; destruct (AV i Hi) as (w & _ & X); eauto]. unfold coefficient, moment_at. f_equal. apply map_ext_in. intros i Hi. destruct (AV i Hi) as (w & -> & X). apply seen_value, X.
Qed.
Lemma seen_marginal m : (forall a, In a m -> exists u, seen a u) -> (0 <= moment_at value_of m /\ moment_at value_of m <= 1)%Qc /\ (moment_is_zero c m = true -> moment_at value_of m = 0%Qc) /\
  (moment_is_zero c m = false -> compute_marginal c val m = Some (moment_at value_of m)).
Proof.
  intros H. split; [|split].
  - apply product_bounds. intros q Hq. apply in_map_iff in Hq as (a & <- & Ha). destruct (H a Ha) as (u & X). rewrite <- (seen_value a u X). apply X.
  - unfold moment_is_zero. rewrite existsb_exists. intros (a & Ha & Z). apply product_zero. apply in_map_iff. exists a. split; [|exact Ha]. unfold value_of. rewrite (zero_value a Z). reflexivity.
  - intros NZ. apply CertProofs3.marginal_is.
    + apply forallb_forall. intros a Ha. destruct (H a Ha) as (u & _ & _ & [Z|K]); [|exact K]. exfalso. assert (moment_is_zero c m = true); [|congruence]. unfold moment_is_zero. apply existsb_exists. eauto.
    + intros a Ha. destruct (H a Ha) as (u & X). rewrite <- (seen_value a u X). apply X.
Qed.
End Known.
