(** Linear programmes about supports: rescaled inflations are feasible. *)
From Coq Require Import List Arith Bool QArith Qcanon Lia Permutation Sorted.
From Verif Require Import CanonModel ScenarioModel ScenarioSpec MargModel QcSum QcArith CausalSpec InflatedSpec SearchModel ProgramModel ProgramSpec ProgramProofs ProgramProofs2 ProgramProofs3 LPSolveModel LPSolveSpec LPSolveProofs ProgramLP ProgramLPProofs LPModel LPMomentModel SoundProofs SoundProofs2 SoundProofs4 SoundProofs5 SoundProofs6 SupportSpec SupportProofs.
From Verif Require PropProgram ClassicalProofs2 SearchProofs SoundProofs3.
Import ListNotations.
Close Scope Q_scope. Close Scope Qc_scope. Open Scope nat_scope.

Definition plain_relaxation (r : relaxation) : relaxation := {| r_programme := r_programme r; r_context := plain (r_context r); r_atoms := r_atoms r |}.
Lemma generate_plain sc ao sup r : generate sc ao sup = Some r -> generate sc ao false = Some (plain_relaxation r).
Proof.
  unfold generate. destruct (scenario_lp sc ao) as [prog|]; [|discriminate]. destruct (all_atoms sc (lp_columns prog) []) as [(lists & ca)|]; [|discriminate].
  destruct (_ && _); [|discriminate]. intros E. injection E as <-. reflexivity.
Qed.
Lemma zero_factor (x : nat -> Qc) (m : moment) a : In a m -> x a = 0%Qc -> moment_at x m = 0%Qc.
Proof.
  intros Ha Z. unfold moment_at. induction m as [|b m IH]; [destruct Ha|]. cbn [map]. change (product (x b :: map x m)) with (x b * product (map x m))%Qc. destruct Ha as [->|Ha]; [rewrite Z; ring|rewrite IH by exact Ha; ring].
Qed.
Lemma entry_sum_scale A i t (f : nat -> Qc) : entry_sum A i (fun j => t * f j)%Qc = (t * entry_sum A i f)%Qc.
Proof. unfold entry_sum. rewrite <- sumQ_scale. apply sumQ_ext. intros e _. try destruct (_ =? _); ring. Qed.
Section LP.
Variables (sc : scenario) (W : wf_scenario sc) (Hout : forall o, In o (outcomes sc) -> 1 <= o) (Hset : forall k, In k (private_settings sc) -> 1 <= k) (Np : 0 < nr_parties sc).
Hypothesis FC : few_copies sc.
Variables (ao : bool) (r : relaxation) (G : generate sc ao true = Some r).
Notation rp := (plain_relaxation r).
Notation P := (r_programme r).
Notation c := (r_context r).
Let GP : generate sc ao false = Some rp := generate_plain sc ao true r G.
Let SP : supports_problem c = true := supports_is sc W Hout FC ao true r G.
Lemma marginal_support arr x i : same_support sc arr x -> i < length (r_atoms r) -> is_knowable c i = true ->
  (0 <= marginal_of sc arr (nth i (r_atoms r) []))%Qc /\ (0 <= marginal_of sc x (nth i (r_atoms r) []))%Qc /\ (marginal_of sc arr (nth i (r_atoms r) []) = 0%Qc <-> marginal_of sc x (nth i (r_atoms r) []) = 0%Qc).
Proof.
  intros SS Hi K. pose proof (settings_range sc W Hout Hset FC ao rp GP i Hi K) as SR. set (ops := nth i (r_atoms r) []) in *. change (nth i (r_atoms rp) []) with ops in SR.
  assert (R : forall k, In k ops -> k < length (lexorder sc)) by apply (some_atom sc W Hout FC ao true r G i Hi).
  assert (H : forall a, In a (agreeing sc ops) -> (0 <= nd_at arr (a ++ settings_of sc ops))%Qc /\ (0 <= nd_at x (a ++ settings_of sc ops))%Qc /\ (nd_at arr (a ++ settings_of sc ops) = 0%Qc <-> nd_at x (a ++ settings_of sc ops) = 0%Qc)).
  { intros a Ha. apply SS; [|exact SR]. apply (agreeing_in sc W ops R) in Ha. apply Ha. }
  unfold marginal_of. split; [apply sumQ_nonneg; apply H|]. split; [apply sumQ_nonneg; apply H|]. rewrite !sum_zero_iff by apply H. split; intros Z a Ha; apply H; auto.
Qed.
(** the point [y] has zeros and positive values where the code expects them *)
Definition matches (y : moment -> Qc) (s : state) : Prop := forall m v, In (m, v) (known s) -> (v = 0%Qc -> y m = 0%Qc) /\ (isclose0 v = false -> (0 < y m)%Qc).
Lemma nonzero v : isclose0 v = false -> v <> 0%Qc. Proof. intros C0 ->. discriminate. Qed.
Lemma positive_of v : (0 <= v)%Qc -> v <> 0%Qc -> (0 < v)%Qc.
Proof. intros L N. destruct (Qcle_lt_or_eq _ _ L) as [H|H]; [exact H|congruence]. Qed.
Lemma inflation_matches arr x Pr lpi only s sp : inflation_of sc x Pr -> same_support sc arr x -> set_distribution sc rp (Some arr) lpi only s = Some sp -> matches (moment_at (the_atom sc r Pr)) sp.
Proof.
  intros IO SS E. unfold set_distribution in E. destruct (distribution_values sc rp arr) as [values|] eqn:EV; [|discriminate]. change (r_context rp) with (plain c) in E.
  pose proof (wf_set lp (plain c) values lpi only s sp E) as Wf.
  assert (DI : dagger_involutive (plain c)) by (apply (dagger_ok sc W Hout FC ao true r G)).
  assert (AT : forall i v, atom_value lp (plain c) values i = Some v -> (0 <= v)%Qc /\ (0 <= the_atom sc r Pr i)%Qc /\ (v = 0%Qc <-> the_atom sc r Pr i = 0%Qc)).
  { intros i v H. destruct (atom_value_is sc W Hout Hset FC ao false rp GP arr values i v EV H) as (Hi & K & ->). destruct (marginal_support arr x i SS Hi K) as (P1 & P2 & P3). change (r_atoms rp) with (r_atoms r).
    rewrite (the_marginal sc W Hout FC ao true r G x Pr IO i Hi K). auto. }
  assert (BC : forall m v, base lp (plain c) values m = Some v -> (v = 0%Qc -> moment_at (the_atom sc r Pr) m = 0%Qc) /\ (isclose0 v = false -> (0 < moment_at (the_atom sc r Pr) m)%Qc)).
  { intros m v H. destruct (base_is sc W Hout Hset FC ao false rp GP arr values m v EV H) as [(i & Hi & K & -> & ->)|[-> ->]].
    - change (r_atoms rp) with (r_atoms r) in *. destruct (marginal_support arr x i SS Hi K) as (P1 & P2 & P3). replace (moment_at (the_atom sc r Pr) [i]) with (marginal_of sc x (nth i (r_atoms r) [])).
      + split; [apply P3|]. intros C0. apply positive_of; [exact P2|]. intros Z. apply (nonzero _ C0), P3, Z.
      + rewrite <- (the_marginal sc W Hout FC ao true r G x Pr IO i Hi K). unfold moment_at. cbn. ring.
    - split; [discriminate|]. intros _. reflexivity. }
  assert (SI : supports_problem (plain c) = false) by reflexivity.
  intros m v Hm. pose proof (in_get meq m v (known sp) (wf_known _ Wf) Hm) as Gm. destruct only.
  - destruct (PropProgram.C22_only_specified lp (plain c) values lpi s sp SI E) as [_ K]. rewrite K in Gm. apply BC, Gm.
  - destruct values as [|q values'] eqn:EQ.
    + destruct (PropProgram.C22_without_values lp (plain c) lpi false s sp SI E) as [_ K]. rewrite K in Gm. apply BC, Gm.
    + rewrite <- EQ in *. assert (NE : values <> []) by (rewrite EQ; discriminate). apply (PropProgram.C22_known_exactly lp (plain c) values lpi s sp DI SI NE E) in Gm as (_ & KV).
      unfold known_value in KV. destruct ((2 <=? length m) && _) eqn:D; [|apply BC, KV]. assert (v = coefficient lp (plain c) values m) as -> by congruence. clear KV Hm.
      assert (NN : forall a, In a m -> (0 <= match atom_value lp (plain c) values a with Some v => v | None => 1 end)%Qc) by (intros a _; destruct (atom_value lp (plain c) values a) as [u|] eqn:Ea; [apply (AT a u Ea)|discriminate]).
      destruct (product_zero_or_positive _ m NN) as [[(a & Ha & Z) E0]|[PO E0]]; fold (coefficient lp (plain c) values m) in E0.
      * split; [|intros C0; exfalso; apply (nonzero _ C0 E0)]. intros _. apply (zero_factor _ m a Ha). destruct (atom_value lp (plain c) values a) as [u|] eqn:Ea; [|discriminate]. apply (AT a u Ea), Z.
      * split; [intros Z; exfalso; rewrite Z in E0; apply (Qclt_not_eq _ _ E0); reflexivity|]. intros C0. rewrite C0, !andb_false_r, orb_false_r in D. apply andb_prop in D as (_ & F). rewrite forallb_forall in F.
        assert (PP : forall a, In a m -> (0 < the_atom sc r Pr a)%Qc).
        { intros a Ha. specialize (PO a Ha). specialize (F a Ha). unfold valued in F. destruct (atom_value lp (plain c) values a) as [u|] eqn:Ea; [|discriminate]. destruct (AT a u Ea) as (_ & P2 & P3). apply positive_of; [exact P2|]. intros Z. apply P3 in Z. rewrite Z in PO. apply (Qclt_not_eq _ _ PO). reflexivity. }
        destruct (product_zero_or_positive (the_atom sc r Pr) m (fun a Ha => Qclt_le_weak _ _ (PP a Ha))) as [[(a & Ha & Z) _]|[_ Q]]; [|exact Q]. exfalso. specialize (PP a Ha). rewrite Z in PP. apply (Qclt_not_eq _ _ PP). reflexivity.
Qed.
Lemma mixture_matches arr x y lpi s s2 sp s' : same_support sc arr x -> set_distribution sc rp (Some arr) lpi true s = Some sp -> set_distribution sc rp (Some x) lpi true s2 = Some s' -> lp_point P true s' y -> matches y sp.
Proof.
  intros SS E E' PT. unfold set_distribution in E, E'. destruct (distribution_values sc rp arr) as [values|] eqn:EV; [|discriminate]. destruct (distribution_values sc rp x) as [values'|] eqn:EV'; [|discriminate]. change (r_context rp) with (plain c) in E, E'.
  pose proof (wf_set lp (plain c) values lpi true s sp E) as Wf. assert (SI : supports_problem (plain c) = false) by reflexivity.
  intros m v Hm. pose proof (in_get meq m v (known sp) (wf_known _ Wf) Hm) as Gm.
  destruct (PropProgram.C22_only_specified lp (plain c) values lpi s sp SI E) as [_ K]. rewrite K in Gm. destruct (PropProgram.C22_only_specified lp (plain c) values' lpi s2 s' SI E') as [_ K'].
  destruct (base_is sc W Hout Hset FC ao false rp GP arr values m v EV Gm) as [(i & Hi & Ki & -> & ->)|[-> ->]].
  - change (r_atoms rp) with (r_atoms r) in *. destruct (marginal_support arr x i SS Hi Ki) as (P1 & P2 & P3). replace (y [i]) with (marginal_of sc x (nth i (r_atoms r) [])).
    + split; [apply P3|]. intros C0. apply positive_of; [exact P2|]. intros Z. apply (nonzero _ C0), P3, Z.
    + symmetry. apply (lpp_known _ _ _ _ PT). apply (get_some_in meq). rewrite K'. unfold base. rewrite (given_knowable sc W Hout Hset FC ao false rp GP x values' i EV' Hi Ki). reflexivity.
  - assert (Y1 : y One = 1%Qc). { apply (lpp_known _ _ _ _ PT). apply (get_some_in meq). rewrite K'. unfold base. destruct (given values' One) as [u|] eqn:Gv; [|reflexivity]. exfalso. apply (given_is sc W Hout Hset FC ao false rp GP x values' One u EV') in Gv as (i & _ & _ & Q & _). discriminate. }
    rewrite Y1. split; [discriminate|]. intros _. reflexivity.
Qed.

(** ** The state *)
Lemma generated_supports : exists s0, generated lp c = Some s0 /\ lower s0 = [(One, 1%Qc)] /\ upper s0 = [] /\ ProgramModel.objective s0 = [] /\ reachable lp c s0.
Proof.
  destruct (generated lp c) as [s0|] eqn:E; [|unfold generated in E; cbn [run fold_left step set_objective] in E; rewrite set_values_is in E; discriminate].
  exists s0. split; [reflexivity|]. assert (R : reachable lp c s0) by (exists []; exact E). unfold generated in E. cbn [run fold_left step set_objective] in E.
  rewrite set_values_is in E. cbn [cleanup] in E. unfold cleanup_lp, supports_step in E. rewrite SP in E. injection E as <-. repeat (split; [reflexivity|]). exact R.
Qed.
Section State.
Variables (s0 : state) (L0 : lower s0 = [(One, 1%Qc)]) (U0 : upper s0 = []).
Lemma supports_state arr lpi only s : set_distribution sc r (Some arr) lpi only s0 = Some s -> exists sp, set_distribution sc rp (Some arr) lpi only s0 = Some sp /\
  (forall m v, In (m, v) (known s) -> In (m, v) (known sp) /\ isclose0 v = true) /\
  (forall m b, In (m, b) (lower s) -> (b = 1%Qc /\ exists v, In (m, v) (known sp) /\ isclose0 v = false) \/ (m, b) = (One, 1%Qc)) /\
  upper s = [] /\ semiknown s = [] /\ extra_equalities s = [] /\ extra_inequalities s = [] /\ ProgramModel.objective s = ProgramModel.objective s0.
Proof.
  intros E. unfold set_distribution in E |- *. change (distribution_values sc rp arr) with (distribution_values sc r arr). destruct (distribution_values sc r arr) as [values|]; [|discriminate].
  destruct (supports_lp c SP values lpi only s0 s) as (sp & E' & K & L & U & SK & X & X' & O); [rewrite L0; repeat constructor; intros []|exact E|]. exists sp. split; [exact E'|]. split; [exact K|]. rewrite U, U0. split; [|auto 8].
  intros m b Hb. destruct (L m b Hb) as [H|H]; [left; exact H|right]. rewrite L0 in H. destruct H as [H|[]]. congruence.
Qed.
Lemma scaled_point y s sp : matches y sp -> (forall m v, In (m, v) (known s) -> In (m, v) (known sp) /\ v = 0%Qc) ->
  (forall m b, In (m, b) (lower s) -> (b = 1%Qc /\ exists v, In (m, v) (known sp) /\ isclose0 v = false) \/ (m, b) = (One, 1%Qc)) ->
  upper s = [] -> semiknown s = [] -> extra_equalities s = [] -> extra_inequalities s = [] ->
  (forall i, i < c_rows (minimal_sparse_equalities P) -> entry_sum (minimal_sparse_equalities P) i (fun j => y (nth j (columns P) [])) = 0%Qc) ->
  (forall i, i < c_rows (minimal_sparse_inequalities P) -> (0 <= entry_sum (minimal_sparse_inequalities P) i (fun j => y (nth j (columns P) [])))%Qc) ->
  (forall m, In m (columns P) -> (0 <= y m)%Qc) -> y One = 1%Qc -> exists y', lp_point P true s y'.
Proof.
  intros M K L U SK X X' C1 C2 C3 Y1. set (l := filter (fun p => negb (isclose0 (snd p))) (known sp)).
  destruct (enlarge (fun p => y (fst p)) l) as (t & T & TL). { intros (m & v) H. apply filter_In in H as [H C0]. cbn [snd] in C0. apply negb_true_iff in C0. apply (M m v H), C0. }
  assert (T0 : (0 <= t)%Qc) by (apply (Qcle_trans _ 1); [discriminate|exact T]).
  exists (fun m => t * y m)%Qc. constructor; rewrite ?U, ?SK, ?X, ?X'; try (intros ? []; fail); try (intros ? ? []; fail); try (intros ? ? ? []; fail).
  - intros i Hi. rewrite entry_sum_scale, C1 by exact Hi. ring.
  - intros i Hi. rewrite entry_sum_scale. apply nonneg_mult; [exact T0|apply C2, Hi].
  - intros m v Hm. destruct (K m v Hm) as [Hm' ->]. rewrite (proj1 (M m _ Hm') eq_refl). ring.
  - intros m b Hb. destruct (L m b Hb) as [[-> (v & Hv & C0)]|E].
    + apply (TL (m, v)). apply filter_In. split; [exact Hv|]. cbn [snd]. rewrite C0. reflexivity.
    + assert (m = One /\ b = 1%Qc) as [-> ->] by (split; congruence). rewrite Y1, Qcmult_1_r. exact T.
  - intros _ m Hm. apply nonneg_mult; [exact T0|apply C3, Hm].
Qed.
Definition zeros_are_zero (s : state) : Prop := forall m v, In (m, v) (known s) -> v = 0%Qc.
Lemma support_point arr lpi only s : possible_support sc arr -> acyclic sc -> set_distribution sc r (Some arr) lpi only s0 = Some s -> zeros_are_zero s -> exists y, lp_point P true s y.
Proof.
  intros (x & C & SS) AC E Z. destruct (ClassicalProofs2.compatible_inflation sc x W AC Hset C) as (Pr & IO). destruct (supports_state arr lpi only s E) as (sp & E' & K & L & U & SK & X & X' & _).
  destruct (the_constraints sc W Hout FC ao true r G x Pr IO) as (C1 & C2 & C3 & C4). apply (scaled_point (moment_at (the_atom sc r Pr)) s sp); try assumption.
  - apply (inflation_matches arr x Pr lpi only s0 sp IO SS E').
  - intros m v Hm. split; [apply (K m v Hm)|apply (Z m v Hm)].
Qed.
Lemma support_point_shared arr lpi s : possible_support_shared sc arr -> acyclic sc -> set_distribution sc r (Some arr) lpi true s0 = Some s -> zeros_are_zero s -> exists y, lp_point P true s y.
Proof.
  intros (x & (SH & l & HL & W1 & MX) & SS) AC E Z. destruct (supports_state arr lpi true s E) as (sp & E' & K & L & U & SK & X & X' & _).
  assert (IL : exists l', map fst l' = l /\ forall q, In q l' -> SoundProofs6.inflated sc q /\ (0 <= fst (fst q))%Qc).
  { clear - HL W AC Hset. induction l as [|q l IH]; [exists []; split; [reflexivity|intros q []]|]. destruct IH as (l' & E & IH); [intros q' Hq'; apply HL; right; exact Hq'|].
    destruct (HL q (or_introl eq_refl)) as [Wq Cq]. destruct (ClassicalProofs2.compatible_inflation sc (snd q) W AC Hset Cq) as (Pr & IO). exists ((q, Pr) :: l'). split; [cbn [map fst]; congruence|].
    intros q' [<-|Hq']; [|apply IH, Hq']. split; [exact IO|exact Wq]. }
  destruct IL as (l' & EL & HL').
  destruct (generated_fresh sc W Hout FC ao false rp GP eq_refl) as (s1 & _ & _ & L1 & U1 & _).
  destruct (set_distribution_some sc W Hout Hset FC ao false rp GP (Some x) lpi true s1 SH) as (s' & ES).
  pose proof (mixture_point sc W Hout Hset FC ao rp GP s1 L1 U1 x lpi s' l' HL') as PT. specialize (PT ltac:(rewrite <- W1, <- EL, map_map; reflexivity)).
  specialize (PT ltac:(intros o i Ho Hi; rewrite (MX o i Ho Hi), <- EL, map_map; reflexivity) ES). pose proof PT as PT'. destruct PT' as [C1 C2 _ _ _ KN _ _ C3].
  apply (scaled_point (mix (map (point_of sc rp) l')) s sp); try assumption.
  - apply (mixture_matches arr x _ lpi s0 s1 sp s' SS E' ES PT).
  - intros m v Hm. split; [apply (K m v Hm)|apply (Z m v Hm)].
  - apply C3. reflexivity.
  - unfold mix. rewrite map_map. rewrite <- W1, <- EL, map_map. apply sumQ_ext. intros q _. unfold point_of, moment_at. cbn. ring.
Qed.
(** tables of possibilities *)
Definition zero_or_large (v : Qc) : Prop := v = 0%Qc \/ (1 <= v)%Qc.
Lemma zero_or_large_close v : zero_or_large v -> isclose0 v = true -> v = 0%Qc.
Proof.
  intros [Z|L] C0; [exact Z|exfalso]. unfold isclose0, isclose in C0. apply SearchProofs.qleb_true in C0. replace (v - 0)%Qc with v in C0 by ring. unfold qabs in C0 at 1. destruct (qltb v 0) eqn:N.
  - apply SearchProofs.qltb_true in N. apply (Qcle_not_lt _ _ L). apply (Qclt_trans _ 0); [exact N|reflexivity].
  - assert (Q : (1 <= atol + rtol * qabs 0)%Qc) by (apply (Qcle_trans _ v); assumption). apply (Qcle_not_lt _ _ Q). reflexivity.
Qed.
Lemma large_mult u v : zero_or_large u -> zero_or_large v -> zero_or_large (u * v)%Qc.
Proof.
  intros [->|U]; [intros _; left; ring|]. intros [->|V]; [left; ring|right]. replace 1%Qc with (1 * 1)%Qc by ring. apply (Qcle_trans _ (u * 1)).
  - apply Qcmult_le_compat_r; [exact U|discriminate].
  - rewrite (Qcmult_comm u 1), (Qcmult_comm u v). apply Qcmult_le_compat_r; [exact V|]. apply (Qcle_trans _ 1); [discriminate|exact U].
Qed.
Lemma large_product {A} (f : A -> Qc) l : (forall a, In a l -> zero_or_large (f a)) -> zero_or_large (product (map f l)).
Proof.
  induction l as [|a l IH]; intros H; [right; apply Qcle_refl|]. cbn [map]. change (product (f a :: map f l)) with (f a * product (map f l))%Qc. apply large_mult; [apply H; left; reflexivity|apply IH; intros b Hb; apply H; right; exact Hb].
Qed.
Lemma large_sum {A} (f : A -> Qc) l : (forall a, In a l -> zero_or_large (f a)) -> zero_or_large (sumQ (map f l)).
Proof.
  induction l as [|a l IH]; intros H; [left; reflexivity|]. cbn [map]. rewrite sumQ_cons. destruct IH as [Z|L]; [intros b Hb; apply H; right; exact Hb| |].
  - rewrite Z. replace (f a + 0)%Qc with (f a) by ring. apply H. left. reflexivity.
  - right. destruct (H a (or_introl eq_refl)) as [->|La]; [rewrite Qcplus_0_l; exact L|]. replace 1%Qc with (0 + 1)%Qc by ring. apply Qcplus_le_compat; [|exact L]. apply (Qcle_trans _ 1); [discriminate|exact La].
Qed.
Lemma table_zeros arr lpi only s : possibility_table sc arr -> set_distribution sc r (Some arr) lpi only s0 = Some s -> zeros_are_zero s.
Proof.
  intros PT E. destruct (supports_state arr lpi only s E) as (sp & E' & K & _). intros m v Hm. destruct (K m v Hm) as [Hm' C0]. apply zero_or_large_close; [|exact C0]. clear K Hm C0.
  unfold set_distribution in E'. destruct (distribution_values sc rp arr) as [values|] eqn:EV; [|discriminate]. change (r_context rp) with (plain c) in E'.
  pose proof (wf_set lp (plain c) values lpi only s0 sp E') as Wf. assert (DI : dagger_involutive (plain c)) by (apply (dagger_ok sc W Hout FC ao true r G)). assert (SI : supports_problem (plain c) = false) by reflexivity.
  assert (ML : forall i, i < length (r_atoms r) -> is_knowable c i = true -> zero_or_large (marginal_of sc arr (nth i (r_atoms r) []))).
  { intros i Hi Ki. pose proof (settings_range sc W Hout Hset FC ao rp GP i Hi Ki) as SR. change (r_atoms rp) with (r_atoms r) in SR. apply large_sum. intros a Ha. apply PT; [|exact SR].
    apply (agreeing_in sc W _ (proj2 (proj2 (some_atom sc W Hout FC ao true r G i Hi)))) in Ha. apply Ha. }
  assert (BC : forall m v, base lp (plain c) values m = Some v -> zero_or_large v).
  { intros m' v' H. destruct (base_is sc W Hout Hset FC ao false rp GP arr values m' v' EV H) as [(i & Hi & Ki & -> & ->)|[-> ->]]; [apply ML; assumption|right; apply Qcle_refl]. }
  pose proof (in_get meq m v (known sp) (wf_known _ Wf) Hm') as Gm. destruct only.
  - destruct (PropProgram.C22_only_specified lp (plain c) values lpi s0 sp SI E') as [_ K]. rewrite K in Gm. apply (BC _ _ Gm).
  - destruct values as [|q values'] eqn:EQ.
    + destruct (PropProgram.C22_without_values lp (plain c) lpi false s0 sp SI E') as [_ K]. rewrite K in Gm. apply (BC _ _ Gm).
    + rewrite <- EQ in *. assert (NE : values <> []) by (rewrite EQ; discriminate). apply (PropProgram.C22_known_exactly lp (plain c) values lpi s0 sp DI SI NE E') in Gm as (_ & KV).
      unfold known_value in KV. destruct ((2 <=? length m) && _) eqn:D; [|apply (BC _ _ KV)]. assert (v = coefficient lp (plain c) values m) as -> by congruence. apply large_product. intros a _.
      destruct (atom_value lp (plain c) values a) as [u|] eqn:Ea; [|right; apply Qcle_refl]. destruct (atom_value_is sc W Hout Hset FC ao false rp GP arr values a u EV Ea) as (Hi & Ki & ->). apply ML; assumption.
Qed.
Lemma supports_prepared arr lpi only s nn rk ri : ProgramModel.objective s0 = [] -> set_distribution sc r (Some arr) lpi only s0 = Some s -> exists a, prepare_lp P nn rk ri s = Some a.
Proof.
  intros O0 E. destruct (supports_state arr lpi only s E) as (sp & E' & K & L & U & SK & X & X' & O). rewrite O0 in O.
  destruct (known_columns sc W Hout Hset FC ao false rp GP (Some arr) lpi only s0 sp eq_refl E') as [KC _]. change (r_programme rp) with P in KC. unfold prepare_lp. rewrite U, SK, X, X', O.
  assert (B1 : all_columns P (keys (known s)) = true). { apply SoundProofs3.all_columns_iff. intros m Hm. apply in_map_iff in Hm as ((m' & v) & <- & Hm). apply KC, in_map_iff. exists (m', v). split; [reflexivity|apply (K m' v Hm)]. }
  assert (B2 : all_columns P (keys (lower s)) = true).
  { apply SoundProofs3.all_columns_iff. intros m Hm. apply in_map_iff in Hm as ((m' & b) & <- & Hm). destruct (L m' b Hm) as [[_ (v & Hv & _)]|Q].
    - apply KC, in_map_iff. exists (m', v). split; [reflexivity|exact Hv].
    - assert (m' = One) as -> by congruence. apply (one_column sc W Hout FC ao true r G). }
  rewrite B1, B2. cbn. eauto.
Qed.
End State.
End LP.
