(** Semidefinite programmes about supports: values given by a table and by a distribution with the same support. *)
From Coq Require Import Permutation QArith Qcanon List Arith Bool Lia Sorted String Ascii.
From Verif Require Import CanonModel CanonSpec MomentModel MomentSpec OrbitModel ScenarioModel ScenarioSpec SymModel SymSpec KnowModel KnowSpec FactorModel FactorSpec
  MargModel QcSum QcArith ColumnModel ColumnSpec MemoModel MemoSpec NormModel NormSpec NameModel NameSpec ProgramModel ProgramSpec ProgramProofs ProgramProofs2 ProgramProofs3 LPMomentModel QuantumSpec QuantumProofs QInflationSpec SDPMomentModel SDPRunSpec SoundProofs QMomentProofs QMomentProofs2 QMomentProofs3 QMomentProofs4 QMomentProofs5 QMomentProofs6 QMomentProofs7 QMomentLengths QMomentProofs8 QMomentProofs9 QMomentProofs10 QMomentProofs14 SupportSpec SupportProofs.
From Verif Require CanonProofs ScenarioProofs PropProgram KnowProofs PropMarg ClassicalProofs2 SupportProofs2.
Import ListNotations.
Close Scope Q_scope. Close Scope Qc_scope. Open Scope string_scope. Open Scope nat_scope. Open Scope list_scope.

(** both are zero, or both are positive *)
Definition alike (v v' : Qc) : Prop := (0 <= v)%Qc /\ (0 <= v')%Qc /\ (v = 0%Qc <-> v' = 0%Qc).
Lemma alike_refl v : (0 <= v)%Qc -> alike v v.
Proof. intros H. split; [exact H|]. split; [exact H|reflexivity]. Qed.
Lemma alike_sums {A} (f g : A -> Qc) l : (forall a, In a l -> alike (f a) (g a)) -> alike (sumQ (map f l)) (sumQ (map g l)).
Proof.
  intros H. split; [apply sumQ_nonneg; apply H|]. split; [apply sumQ_nonneg; apply H|]. rewrite !sum_zero_iff by apply H. split; intros Z a Ha; apply (H a Ha); auto.
Qed.
Lemma forall2_rev {A B} (R : A -> B -> Prop) l l' : Forall2 R l l' -> Forall2 R (rev l) (rev l').
Proof. induction 1 as [|a b l l' H _ IH]; [constructor|]. cbn [rev]. apply Forall2_app; [exact IH|repeat constructor; exact H]. Qed.
Lemma cprod_zero l : In C0 l -> cprod l = C0.
Proof.
  induction l as [|z l IH]; [intros []|]. rewrite cprod_cons. intros [->|H]; [|rewrite (IH H)]; unfold Cmult, C0; cbn [fst snd]; apply injective_projections; cbn [fst snd]; ring.
Qed.
Lemma prod_is_product l : prodQ l = ProgramModel.product l.
Proof. reflexivity. Qed.

Section Generated.
Variables (sc : scenario) (W : wf_scenario sc) (FC : few_copies sc) (Hset : forall k, In k (private_settings sc) -> 1 <= k).
Notation n := (List.length (lexorder sc)).
Notation nc := (sdp_notcomm sc).
Notation ortho := (sdp_orthomat sc).
Variables (cols : list word) (GC : good_columns nc ortho (S n) cols).
Context {sup : bool}.
Variables (hc : list bool) (r : SDPMomentModel.relaxation) (GE : SDPMomentModel.generate sc hc sup cols = Some r).
Notation c := (SDPMomentModel.r_context r).
Notation atoms := (SDPMomentModel.r_atoms r).
Variables (arr x : ndarray) (SS : same_support sc arr x).
Variables (Sh : nd_shape arr = outcomes sc ++ private_settings sc) (Sh' : nd_shape x = outcomes sc ++ private_settings sc).

Lemma atom_pair a : a < List.length atoms -> knowable_of sc atoms a = true ->
  exists v v', SDPMomentModel.atom_value sc arr (nth a atoms []) = Some v /\ SDPMomentModel.atom_value sc x (nth a atoms []) = Some v' /\ alike v v'.
Proof.
  intros Ha K. destruct (parts sc W FC cols GC hc sup r GE) as (ob & co & lists & eqs & EM & HLs & F & EA & ER & _).
  unfold SDPMomentModel.atom_value. assert (I := nth_In (A := word) atoms [] Ha). rewrite EA in I. destruct (atoms_are sc W _ HLs _ I) as [E|A]; rewrite <- EA in *.
  - rewrite E. cbn [NameModel.is_zero forallb Nat.eqb negb andb]. exists 0%Qc, 0%Qc. split; [reflexivity|]. split; [reflexivity|]. apply alike_refl, Qcle_refl.
  - unfold knowable_of in K. set (w := nth a atoms []) in *. assert (A' := A). destruct A' as (NE & R & _). assert (Z : NameModel.is_zero w = false).
    { unfold NameModel.is_zero. apply negb_false_iff, forallb_forall. intros o Ho. specialize (R o Ho). destruct o; [lia|reflexivity]. }
    assert (K' : NameModel.is_knowable sc w = Some true) by (destruct (NameModel.is_knowable sc w) as [[|]|]; congruence). assert (K2 := knowable_word sc W w R K' NE).
    assert (HV : forall k, In k (map pred w) -> k < List.length (lexorder sc)) by (intros k Hk; apply in_map_iff in Hk as (o & <- & Ho); specialize (R o Ho); lia).
    assert (NE' : map pred w <> []) by (destruct w; [contradiction|discriminate]).
    rewrite Z. destruct (PropMarg.C16_knowable_moment_value sc (map pred w) arr W HV NE' (atom_sorted sc W w A K2) K2 Sh Hset) as (v & Ev & Hv). destruct (PropMarg.C16_knowable_moment_value sc (map pred w) x W HV NE' (atom_sorted sc W w A K2) K2 Sh' Hset) as (v' & Ev' & Hv').
    exists v, v'. split; [exact Ev|]. split; [exact Ev'|].
    destruct (KnowProofs.atom_is_knowable_correct sc (map pred w) W HV) as (b & Eb & Hb). rewrite K2 in Eb. injection Eb as <-. destruct (proj1 Hb eq_refl) as (OP & OC & PA).
    destruct (settings_ok sc W (map pred w) HV OP) as [LS S'].
    rewrite (Hv (agreeing sc (map pred w)) (settings_of sc (map pred w)) (agreeing_nodup sc (map pred w)) (agreeing_in sc W (map pred w) HV) LS S').
    rewrite (Hv' (agreeing sc (map pred w)) (settings_of sc (map pred w)) (agreeing_nodup sc (map pred w)) (agreeing_in sc W (map pred w) HV) LS S').
    apply alike_sums. intros o Ho. apply SS; [apply (agreeing_in sc W _ HV), Ho|]. apply (ClassicalProofs2.settings_in_range sc W (map pred w) HV _ S' LS Hset).
Qed.
Lemma zero_proper m : zero_moment c = Some m -> proper_moment r m.
Proof.
  intros E. rewrite (zero_is sc cols hc sup r GE m E). assert (Z0 := zero_atom sc W FC cols GC hc sup r GE). destruct (zero_dagger sc W FC cols GC hc r GE) as [ZD ZZ].
  destruct (parts sc W FC cols GC hc sup r GE) as (ob & co & lists & eqs & EM & HLs & F & EA & ER & _).
  exists [number atoms [0]]. split.
  - intros a [<-|[]]. rewrite EA in *. apply (number_ok sc (map snd lists) [0] Z0).
  - unfold ProgramModel.monomial_from_atoms. cbn [find]. rewrite ZZ. cbn [sort_atoms fold_right insert_atom map]. rewrite ZD. destruct (ProgramModel.lex_lt _ _); reflexivity.
Qed.
Definition paired (p p' : moment * option Qc) : Prop := fst p = fst p' /\ proper_moment r (fst p) /\ exists v v', snd p = Some v /\ snd p' = Some v' /\ alike v v'.
Lemma values_pair values values' : distribution_values sc r arr = Some values -> distribution_values sc r x = Some values' -> Forall2 paired values values'.
Proof.
  intros E E'. unfold distribution_values in E, E'. apply ScenarioProofs.map_opt_some in E, E'.
  assert (IN : forall a, In a (knowable_atoms r) -> a < List.length atoms /\ knowable_of sc atoms a = true).
  { intros a Ha. unfold knowable_atoms in Ha. apply filter_In in Ha as [Ha K]. apply in_seq in Ha. apply andb_prop in K as [_ K]. destruct (generate_is sc cols hc sup r GE) as (_ & _ & _ & _ & _ & _ & _ & _ & _ & _ & _ & _ & _ & EK & _). rewrite EK in K. split; [lia|exact K]. }
  revert values' E' IN. induction E as [|a q l l' H _ IH]; intros values' E' IN; inversion E' as [|? q' ? l2 H' E2]; subst; [constructor|]. constructor; [|apply IH; [exact E2|intros b Hb; apply IN; right; exact Hb]].
  destruct (IN a (or_introl eq_refl)) as [Ha K]. destruct (atom_pair a Ha K) as (v & v' & Ev & Ev' & Hr). rewrite Ev in H. rewrite Ev' in H'. injection H as <-. injection H' as <-.
  split; [reflexivity|]. split; [exists [a]; split; [intros b [<-|[]]; exact Ha|reflexivity]|]. exists v, v'. auto.
Qed.
Lemma values_other : exists values', distribution_values sc r x = Some values'.
Proof.
  assert (IN : forall a, In a (knowable_atoms r) -> a < List.length atoms /\ knowable_of sc atoms a = true).
  { intros a Ha. unfold knowable_atoms in Ha. apply filter_In in Ha as [Ha K]. apply in_seq in Ha. apply andb_prop in K as [_ K]. destruct (generate_is sc cols hc sup r GE) as (_ & _ & _ & _ & _ & _ & _ & _ & _ & _ & _ & _ & _ & EK & _). rewrite EK in K. split; [lia|exact K]. }
  unfold distribution_values. revert IN. generalize (knowable_atoms r). induction l as [|a l IH]; intros IN; [exists []; reflexivity|].
  destruct IH as (vs & E); [intros b Hb; apply IN; right; exact Hb|]. destruct (IN a (or_introl eq_refl)) as [Ha K]. destruct (atom_pair a Ha K) as (v & v' & _ & Ev & _).
  eexists. cbn [map_opt]. rewrite Ev, E. reflexivity.
Qed.
Section Values.
Variables (values values' : list (moment * option Qc)) (PV : Forall2 paired values values').
Lemma given_pair m : match given values m with Some v => proper_moment r m /\ exists v', given values' m = Some v' /\ alike v v' | None => given values' m = None end.
Proof.
  unfold given. assert (PR := forall2_rev paired values values' PV). induction PR as [|[p o] [p' o'] l l' (E1 & P & v & v' & Ev & Ev' & Hr) _ IH]; [reflexivity|]. cbn [fst snd] in E1, P, Ev, Ev'. subst p' o o'. cbn [find fst snd].
  destruct (meq p m) as [->|NE]; cbn [andb]; [|exact IH]. split; [exact P|]. exists v'. auto.
Qed.
Lemma base_pair m : match base sdp c values m with Some v => proper_moment r m /\ exists v', base sdp c values' m = Some v' /\ alike v v' | None => base sdp c values' m = None end.
Proof.
  unfold base. assert (G := given_pair m). destruct (given values m) as [v|].
  - destruct G as (P & v' & -> & Hr). split; [exact P|]. exists v'. auto.
  - rewrite G. destruct (meq m One) as [->|].
    + split; [exists []; split; [intros a []|reflexivity]|]. exists 1%Qc. split; [reflexivity|]. apply alike_refl. discriminate.
    + destruct (zero_moment c) as [z|] eqn:EZ; [|reflexivity]. destruct (meq m z) as [->|]; [|reflexivity]. split; [apply zero_proper, EZ|]. exists 0%Qc. split; [reflexivity|]. apply alike_refl, Qcle_refl.
Qed.
Lemma atom_pair_value a : match ProgramSpec.atom_value sdp c values a with Some v => exists v', ProgramSpec.atom_value sdp c values' a = Some v' /\ alike v v' | None => ProgramSpec.atom_value sdp c values' a = None end.
Proof.
  unfold ProgramSpec.atom_value. assert (G1 := base_pair [ProgramModel.dagger c a]). assert (G2 := base_pair [a]). destruct (base sdp c values [ProgramModel.dagger c a]) as [v|].
  - destruct G1 as (_ & v' & -> & Hr). exists v'. auto.
  - rewrite G1. destruct (base sdp c values [a]) as [v|]; [destruct G2 as (_ & v' & E & Hr); exists v'; auto|exact G2].
Qed.
End Values.

(** ** The known values of the programme that is not about supports *)
Lemma known_proper_plain lpi only s sp m v values values' : Forall2 paired values values' -> set_values sdp (plain c) values lpi only s = Some sp -> In (m, v) (known sp) -> proper_moment r m.
Proof.
  intros PV E Hm. pose proof (wf_set sdp (plain c) values lpi only s sp E) as Wf. pose proof (in_get meq m v (known sp) (wf_known _ Wf) Hm) as Gm.
  assert (BP : forall v, base sdp (plain c) values m = Some v -> proper_moment r m) by (intros u Hu; assert (B := base_pair values values' PV m); change (base sdp (plain c) values m) with (base sdp c values m) in Hu; rewrite Hu in B; apply B).
  destruct only.
  - destruct (PropProgram.C22_only_specified sdp (plain c) values lpi s sp eq_refl E) as [_ K]. rewrite K in Gm. apply (BP v Gm).
  - destruct values as [|q vs] eqn:EQ.
    + destruct (PropProgram.C22_without_values sdp (plain c) lpi false s sp eq_refl E) as [_ K]. rewrite K in Gm. apply (BP v Gm).
    + rewrite <- EQ in *. assert (NE : values <> []) by (rewrite EQ; discriminate). apply (PropProgram.C22_known_exactly sdp (plain c) values lpi s sp (dagger_ok sc W FC cols GC hc sup r GE) eq_refl NE E) in Gm as (I & _). apply (moments_proper sc W FC cols GC hc r GE m I).
Qed.
Section Mean.
Variables (L : word -> C) (MQ : moments_of sc x L).
Notation y := (moment_mean r L).
Notation z := (fun a => L (nth a atoms [])).
Lemma mean_matches lpi only s sp values values' : Forall2 paired values values' -> distribution_values sc r x = Some values' -> set_values sdp (plain c) values lpi only s = Some sp -> SupportProofs2.matches y sp.
Proof.
  intros PV EV' E. pose proof (wf_set sdp (plain c) values lpi only s sp E) as Wf.
  assert (DI : dagger_involutive (plain c)) by exact (dagger_ok sc W FC cols GC hc sup r GE).
  assert (AT : forall a v, ProgramSpec.atom_value sdp (plain c) values a = Some v -> exists v', z a = creal v' /\ alike v v').
  { intros a v H. assert (B := atom_pair_value values values' PV a). change (ProgramSpec.atom_value sdp (plain c) values a) with (ProgramSpec.atom_value sdp c values a) in H. rewrite H in B. destruct B as (v' & Ev' & Hr). exists v'. split; [|exact Hr].
    apply (atom_value_mean sc W FC cols GC hc sup r GE x L MQ Hset Sh' values' (or_intror EV') a v' Ev'). }
  assert (BC : forall m v, base sdp (plain c) values m = Some v -> (v = 0%Qc -> y m = 0%Qc) /\ (isclose0 v = false -> (0 < y m)%Qc)).
  { intros m v H. assert (B := base_pair values values' PV m). change (base sdp (plain c) values m) with (base sdp c values m) in H. rewrite H in B. destruct B as (_ & v' & Ev' & (P1 & P2 & P3)).
    rewrite (base_value sc W FC cols GC hc sup r GE x L MQ Hset Sh' values' (or_intror EV') m v' Ev'). split; [apply P3|]. intros C0. apply SupportProofs2.positive_of; [exact P2|]. intros Z. apply (SupportProofs2.nonzero _ C0), P3, Z. }
  intros m v Hm. pose proof (in_get meq m v (known sp) (wf_known _ Wf) Hm) as Gm. destruct only.
  - destruct (PropProgram.C22_only_specified sdp (plain c) values lpi s sp eq_refl E) as [_ K]. rewrite K in Gm. apply BC, Gm.
  - destruct values as [|q vs] eqn:EQ.
    + destruct (PropProgram.C22_without_values sdp (plain c) lpi false s sp eq_refl E) as [_ K]. rewrite K in Gm. apply BC, Gm.
    + rewrite <- EQ in *. assert (NE : values <> []) by (rewrite EQ; discriminate). apply (PropProgram.C22_known_exactly sdp (plain c) values lpi s sp DI eq_refl NE E) in Gm as (_ & KV).
      unfold known_value in KV. destruct ((2 <=? List.length m) && _) eqn:D; [|apply BC, KV]. assert (v = coefficient sdp (plain c) values m) as -> by congruence. clear KV Hm.
      assert (NN : forall a, In a m -> (0 <= match ProgramSpec.atom_value sdp (plain c) values a with Some v => v | None => 1 end)%Qc) by (intros a _; destruct (ProgramSpec.atom_value sdp (plain c) values a) as [u|] eqn:Ea; [destruct (AT a u Ea) as (? & _ & H & _); exact H|discriminate]).
      destruct (product_zero_or_positive _ m NN) as [[(a & Ha & Z) E0]|[PO E0]]; fold (coefficient sdp (plain c) values m) in E0.
      * split; [|intros C0; exfalso; apply (SupportProofs2.nonzero _ C0 E0)]. intros _. destruct (ProgramSpec.atom_value sdp (plain c) values a) as [u|] eqn:Ea; [|discriminate]. destruct (AT a u Ea) as (v' & Ez & _ & _ & P3). apply P3 in Z. rewrite Z in Ez.
        unfold moment_mean, cmoment. rewrite cprod_zero; [reflexivity|]. apply in_map_iff. exists a. split; [exact Ez|exact Ha].
      * split; [intros Z; exfalso; rewrite Z in E0; apply (Qclt_not_eq _ _ E0); reflexivity|]. intros C0. rewrite C0, !andb_false_r, orb_false_r in D. apply andb_prop in D as (_ & F). rewrite forallb_forall in F.
        assert (PP : forall a, In a m -> real (z a) /\ (0 < fst (z a))%Qc).
        { intros a Ha. specialize (PO a Ha). specialize (F a Ha). unfold valued in F. destruct (ProgramSpec.atom_value sdp (plain c) values a) as [u|] eqn:Ea; [|discriminate]. destruct (AT a u Ea) as (v' & Ez & _ & P2 & P3). cbv beta. rewrite Ez. split; [reflexivity|]. cbn [creal fst].
          apply SupportProofs2.positive_of; [exact P2|]. intros Z. apply P3 in Z. rewrite Z in PO. apply (Qclt_not_eq _ _ PO). reflexivity. }
        unfold moment_mean, cmoment. destruct (cprod_real (map z m)) as [_ EP]; [intros zz Hzz; apply in_map_iff in Hzz as (a & <- & Ha); apply (PP a Ha)|]. rewrite EP, map_map, prod_is_product.
        destruct (product_zero_or_positive (fun a => fst (z a)) m (fun a Ha => Qclt_le_weak _ _ (proj2 (PP a Ha)))) as [[(a & Ha & Z) _]|[_ Q]]; [|exact Q]. exfalso. destruct (PP a Ha) as [_ Q]. cbv beta in Z, Q. rewrite Z in Q. apply (Qclt_not_eq _ _ Q). reflexivity.
Qed.
End Mean.
(** with shared randomness, mixtures *)
Section Mixture.
Variable l : list (Qc * (ndarray * (word -> C))).
Variable HL : forall q, In q l -> (0 <= fst q)%Qc /\ moments_of sc (fst (snd q)) (snd (snd q)) /\ nonnegative_hermitian sc (2 * longest cols) (snd (snd q)).
Variable TOT : sumQ (map fst l) = 1%Qc.
Variable MX : forall a i, Forall2 lt a (outcomes sc) -> Forall2 lt i (private_settings sc) -> nd_at x (a ++ i) = sumQ (map (fun q => fst q * nd_at (fst (snd q)) (a ++ i))%Qc l).
Lemma mixed_matches lpi s sp values values' : Forall2 paired values values' -> distribution_values sc r x = Some values' -> set_values sdp (plain c) values lpi true s = Some sp -> SupportProofs2.matches (mixed l (fun q m => moment_mean r (snd q) m)) sp.
Proof.
  intros PV EV' E. pose proof (wf_set sdp (plain c) values lpi true s sp E) as Wf. intros m v Hm. pose proof (in_get meq m v (known sp) (wf_known _ Wf) Hm) as Gm.
  destruct (PropProgram.C22_only_specified sdp (plain c) values lpi s sp eq_refl E) as [_ K]. rewrite K in Gm. change (base sdp (plain c) values m) with (base sdp c values m) in Gm.
  assert (B := base_pair values values' PV m). rewrite Gm in B. destruct B as (_ & v' & Ev' & (P1 & P2 & P3)).
  rewrite (values_mix sc W FC Hset cols GC hc r GE l HL TOT x Sh' MX values' m v' EV' Ev'). split; [apply P3|]. intros C0. apply SupportProofs2.positive_of; [exact P2|]. intros Z. apply (SupportProofs2.nonzero _ C0), P3, Z.
Qed.
End Mixture.
End Generated.
