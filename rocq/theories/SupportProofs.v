(** Problems about supports: the state after set_values, and rescaled points. *)
From Coq Require Import List Arith Bool QArith Qcanon Lia Permutation Sorted.
From Verif Require Import CanonModel ScenarioModel ScenarioSpec MargModel QcSum QcArith CausalSpec SearchModel ProgramModel ProgramSpec ProgramProofs ProgramProofs2 ProgramProofs3 LPSolveModel LPSolveSpec ProgramLP ProgramLPProofs SoundProofs6.
Import ListNotations.
Close Scope Q_scope. Close Scope Qc_scope. Open Scope nat_scope.

(** the same programme, not about supports *)
Definition plain (c : context) : context :=
  {| moments := moments c; is_knowable := is_knowable c; dagger := dagger c; is_zero := is_zero c; is_one := is_one c;
     hermitian_moments := hermitian_moments c; zero_moment := zero_moment c; supports_problem := false;
     minimal_equalities := minimal_equalities c; minimal_inequalities := minimal_inequalities c |}.
Lemma result_plain t c values lpi only : result_values t (plain c) values lpi only = result_values t c values lpi only.
Proof. reflexivity. Qed.
Lemma keys_set_one {V} (l : list (moment * V)) : forall (d : mdict Qc) m b, In (m, b) (fold_left (fun d p => set meq (fst p) 1%Qc d) l d) -> NoDup (keys d) ->
  (b = 1%Qc /\ In m (keys l)) \/ In (m, b) d.
Proof.
  induction l as [|[k v] l IH]; intros d m b H ND; [right; exact H|]. cbn [fold_left fst] in H. apply IH in H.
  - destruct H as [[E H]|H]; [left; split; [exact E|right; exact H]|]. assert (ND' : NoDup (keys (set meq k 1%Qc d))) by (apply nodup_set, ND). pose proof (in_get meq m b _ ND' H) as G. rewrite get_set in G. destruct (meq m k) as [->|].
    + left. split; [congruence|left; reflexivity].
    + right. apply (get_some_in meq), G.
  - apply nodup_set, ND.
Qed.
Section Supports.
Variables (c : context) (SP : supports_problem c = true).
Lemma supports_lp values lpi only s s' : NoDup (keys (lower s)) -> set_values lp c values lpi only s = Some s' -> exists sp, set_values lp (plain c) values lpi only s = Some sp /\
  (forall m v, In (m, v) (known s') -> In (m, v) (known sp) /\ isclose0 v = true) /\
  (forall m b, In (m, b) (lower s') -> (b = 1%Qc /\ exists v, In (m, v) (known sp) /\ isclose0 v = false) \/ In (m, b) (lower s)) /\
  upper s' = upper s /\ semiknown s' = [] /\ extra_equalities s' = [] /\ extra_inequalities s' = [] /\ ProgramModel.objective s' = ProgramModel.objective s.
Proof.
  intros ND E. pose proof (wf_set lp c values lpi only s s' E) as Wf. rewrite set_values_is in E |- *. rewrite result_plain. set (d := fst (result_values lp c values lpi only)) in *. set (sk := snd (result_values lp c values lpi only)) in *.
  eexists. split; [reflexivity|]. pose proof E as E'. apply cleanup_values in E' as (K & SK & O & X & X'). cbn [cleanup] in E. unfold cleanup_lp in E.
  assert (EL : lower s' = fold_left (fun d p => set meq (fst p) 1%Qc d) (filter (fun p => negb (isclose0 (snd p))) d) (lower s) /\ upper s' = upper s).
  { injection E as <-. unfold supports_step. rewrite SP. split; reflexivity. }
  clear E. destruct EL as (EL & EU). cbn [with_values known plain supports_problem supports_step].
  unfold supports_step in K, SK. rewrite SP in K, SK. cbn [with_values with_bounds known semiknown] in K, SK.
  assert (NZ : forall m v, In (m, v) (filter (fun p => negb (isclose0 (snd p))) d) <-> In (m, v) d /\ isclose0 v = false) by (intros m v; rewrite filter_In; cbn [snd]; rewrite negb_true_iff; reflexivity).
  split; [|split; [|split; [exact EU|split; [|split; [rewrite X; reflexivity|split; [rewrite X'; reflexivity|rewrite O; reflexivity]]]]]].
  - intros m v Hm. apply (in_get meq m v (known s') (wf_known _ Wf)) in Hm. rewrite K, get_pop_all in Hm. destruct (mmem m _) eqn:M; [discriminate|]. apply (get_some_in meq) in Hm. split; [exact Hm|].
    destruct (isclose0 v) eqn:C0; [reflexivity|]. exfalso. assert (I : In m (keys (filter (fun p => negb (isclose0 (snd p))) d))) by (apply in_map_iff; exists (m, v); split; [reflexivity|apply NZ; auto]). apply mmem_iff in I. congruence.
  - rewrite EL. intros m b Hb. apply keys_set_one in Hb; [|exact ND]. destruct Hb as [[-> Hb]|Hb]; [left; split; [reflexivity|]|right; exact Hb]. apply in_map_iff in Hb as ((m' & v) & <- & Hb). apply NZ in Hb. exists v. exact Hb.
  - rewrite SK. generalize (keys (pop_all (keys (filter (fun p => negb (isclose0 (snd p))) d)) d)). intros l. clear. induction l; [reflexivity|assumption].
Qed.
End Supports.

(** a factor that makes finitely many positive numbers at least 1 *)
Lemma enlarge {A} (f : A -> Qc) (l : list A) : (forall a, In a l -> 0 < f a)%Qc -> exists t, (1 <= t)%Qc /\ forall a, In a l -> (1 <= t * f a)%Qc.
Proof.
  induction l as [|a l IH]; intros H; [exists 1%Qc; split; [apply Qcle_refl|intros a []]|]. destruct IH as (t & T & IH); [intros b Hb; apply H; right; exact Hb|].
  assert (P : (0 < f a)%Qc) by (apply H; left; reflexivity). assert (NZ : f a <> 0%Qc) by (intros Z; rewrite Z in P; apply (Qclt_not_eq _ _ P); reflexivity).
  assert (I0 : (0 < / f a)%Qc).
  { destruct (Qclt_le_dec 0 (/ f a)) as [L|L]; [exact L|exfalso]. assert (Q : (1 <= 0)%Qc); [|apply (Qcle_not_lt _ _ Q); reflexivity].
    replace 1%Qc with (/ f a * f a)%Qc by (field; exact NZ). replace 0%Qc with (0 * f a)%Qc by ring. apply Qcmult_le_compat_r; [exact L|apply Qclt_le_weak, P]. }
  exists (t + / f a)%Qc. split.
  - replace 1%Qc with (1 + 0)%Qc by ring. apply Qcplus_le_compat; [exact T|apply Qclt_le_weak, I0].
  - assert (T0 : (0 <= t)%Qc) by (apply (Qcle_trans _ 1); [discriminate|exact T]). intros b [<-|Hb].
    + replace ((t + / f a) * f a)%Qc with (t * f a + 1)%Qc by (field; exact NZ). replace 1%Qc with (0 + 1)%Qc at 1 by ring. apply Qcplus_le_compat; [apply nonneg_mult; [exact T0|apply Qclt_le_weak, P]|apply Qcle_refl].
    + replace ((t + / f a) * f b)%Qc with (t * f b + / f a * f b)%Qc by ring. replace 1%Qc with (1 + 0)%Qc by ring. apply Qcplus_le_compat; [apply IH, Hb|apply nonneg_mult; apply Qclt_le_weak; [exact I0|apply H; right; exact Hb]].
Qed.
(** sums and products of non-negative numbers *)
Lemma sum_zero_iff {A} (f : A -> Qc) (l : list A) : (forall a, In a l -> 0 <= f a)%Qc -> (sumQ (map f l) = 0%Qc <-> forall a, In a l -> f a = 0%Qc).
Proof.
  intros H. split; [|apply sumQ_zero]. induction l as [|a l IH]; intros E b Hb; [destruct Hb|]. cbn [map] in E. rewrite sumQ_cons in E.
  assert (P1 : (0 <= f a)%Qc) by (apply H; left; reflexivity). assert (P2 : (0 <= sumQ (map f l))%Qc) by (apply sumQ_nonneg; intros c Hc; apply H; right; exact Hc).
  assert (Z : f a = 0%Qc). { apply Qcle_antisym; [|exact P1]. rewrite <- E. replace (f a) with (f a + 0)%Qc at 1 by ring. apply Qcplus_le_compat; [apply Qcle_refl|exact P2]. }
  destruct Hb as [<-|Hb]; [exact Z|]. apply IH; [intros c Hc; apply H; right; exact Hc| |exact Hb]. rewrite Z in E. rewrite <- E. ring.
Qed.
Lemma positive_mult (x y : Qc) : (0 < x -> 0 < y -> 0 < x * y)%Qc.
Proof.
  intros X Y. destruct (Qcle_lt_or_eq 0 (x * y)) as [L|L]; [apply nonneg_mult; apply Qclt_le_weak; assumption|exact L|]. exfalso. symmetry in L. apply Qcmult_integral in L as [Z|Z]; subst.
  - apply (Qclt_not_eq _ _ X). reflexivity.
  - apply (Qclt_not_eq _ _ Y). reflexivity.
Qed.
Lemma product_zero_or_positive {A} (f : A -> Qc) (l : list A) : (forall a, In a l -> 0 <= f a)%Qc -> ((exists a, In a l /\ f a = 0%Qc) /\ product (map f l) = 0%Qc) \/ ((forall a, In a l -> (0 < f a)%Qc) /\ (0 < product (map f l))%Qc).
Proof.
  induction l as [|a l IH]; intros H; [right; split; [intros a []|reflexivity]|]. cbn [map]. change (product (f a :: map f l)) with (f a * product (map f l))%Qc.
  destruct IH as [[(b & Hb & Z) E]|[P E]]; [intros b Hb; apply H; right; exact Hb| |].
  - left. split; [exists b; split; [right; exact Hb|exact Z]|]. rewrite E. ring.
  - destruct (Qcle_lt_or_eq _ _ (H a (or_introl eq_refl))) as [L|L].
    + right. split; [intros b [<-|Hb]; auto|]. apply positive_mult; assumption.
    + left. split; [exists a; split; [left; reflexivity|symmetry; exact L]|]. rewrite <- L. ring.
Qed.
