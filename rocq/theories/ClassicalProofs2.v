(** Classical causal models have inflations: copies of the original scenario. *)
From Coq Require Import List Arith Bool QArith Qcanon Lia Permutation.
From Verif Require Import ScenarioModel ScenarioSpec SymSpec KnowSpec MargModel QcSum LPSpec LPSpec2 CausalSpec InflatedSpec MeanProofs ClassicalProofs.
From Verif Require ScenarioProofs SymProofs MargProofs.
Import ListNotations.
Close Scope Q_scope. Open Scope nat_scope.

Section Observed.
Variables (sc : scenario) (W : wf_scenario sc) (m : causal_model) (M : model_of sc m) (AC : acyclic sc).
Notation n := (length (lexorder sc)).
Notation N := (nr_parties sc).
Notation mean := (mean var_dec (distribution_of m)).

(** the outcomes computed by the parties *)
Fixpoint solve (u : variable -> nat) (x : list nat) (fuel p : nat) : nat :=
  match fuel with
  | O => 0
  | S f => response m p (fun k => u (Source k 0)) (u (Noise p [])) (nth p x 0) (map (solve u x f) (nth p (parents sc) []))
  end.
Lemma parents_range p q : In q (nth p (parents sc) []) -> q < N.
Proof.
  intros H. destruct (Nat.lt_ge_cases p (length (parents sc))) as [K|K].
  - apply (wf_parents_range _ W (nth p (parents sc) []) q); [apply nth_In; exact K|exact H].
  - rewrite nth_overflow in H by exact K. destruct H.
Qed.
Lemma solution u x : exists a, length a = N /\ Forall2 lt a (outcomes sc) /\ consistent sc m a x u = true /\
  (forall b, length b = N -> consistent sc m b x u = true -> b = a).
Proof.
  destruct AC as (rank & R).
  assert (ST : forall k k' p, p < N -> rank p < k -> rank p < k' -> solve u x k p = solve u x k' p).
  { induction k as [|k IH]; intros k' p Hp H H'; [lia|]. destruct k' as [|k']; [lia|]. cbn [solve]. f_equal. apply map_ext_in. intros q Hq.
    assert (Q := R p q Hp Hq). apply IH; [apply (parents_range p q Hq)|lia|lia]. }
  set (K := S (list_max (map rank (seq 0 N)))).
  assert (KB : forall p, p < N -> rank p < K).
  { intros p Hp. unfold K. apply Nat.lt_succ_r. assert (Q := proj1 (list_max_le (map rank (seq 0 N)) _) (le_n _)). rewrite Forall_forall in Q. apply Q, in_map, in_seq. lia. }
  set (a := map (solve u x K) (seq 0 N)). assert (La : length a = N) by (unfold a; rewrite map_length, seq_length; reflexivity).
  assert (Na : forall p, p < N -> nth p a 0 = solve u x K p).
  { intros p Hp. unfold a. rewrite (nth_indep _ 0 (solve u x K 0)) by (rewrite map_length, seq_length; exact Hp). rewrite map_nth, seq_nth by exact Hp. reflexivity. }
  assert (EQ : forall p, p < N -> nth p a 0 = response m p (fun k => u (Source k 0)) (u (Noise p [])) (nth p x 0) (map (fun q => nth q a 0) (nth p (parents sc) []))).
  { intros p Hp. rewrite (Na p Hp). rewrite (ST K (S K) p Hp) by (assert (Q := KB p Hp); lia). cbn [solve]. f_equal. apply map_ext_in. intros q Hq. symmetry. apply Na, (parents_range p q Hq). }
  exists a. split; [exact La|]. split; [|split].
  - apply (MargProofs.Forall2_nth_iff lt a (outcomes sc) 0 0). split; [exact La|]. intros p Hp. rewrite La in Hp. rewrite (EQ p Hp). apply (mo_range _ _ M), Hp.
  - unfold consistent. apply forallb_forall. intros p Hp. apply in_seq in Hp. apply Nat.eqb_eq, EQ. lia.
  - intros b Lb Cb. unfold consistent in Cb. rewrite forallb_forall in Cb.
    assert (EB : forall r p, p < N -> rank p < r -> nth p b 0 = nth p a 0).
    { induction r as [|r IH]; intros p Hp Hr; [lia|]. rewrite (EQ p Hp). assert (C := Cb p ltac:(apply in_seq; lia)). apply Nat.eqb_eq in C. rewrite C. f_equal. apply map_ext_in. intros q Hq.
      assert (Q := R p q Hp Hq). apply IH; [apply (parents_range p q Hq)|lia]. }
    apply SymProofs.list_ext; [congruence|]. intros p Hp. rewrite Lb in Hp. apply (EB K); [exact Hp|apply KB, Hp].
Qed.

(** does operator i fire in the original scenario? *)
Definition fires0 (u : variable -> nat) (i : nat) : bool :=
  let r := nth i (lexorder sc) [] in
  let p := row_party r - 1 in
  match assoc (effective_to_parent sc p) (row_setting r) with
  | Some (x :: os) => response m p (fun k => u (Source k 0)) (u (Noise p [])) x os =? row_outcome r
  | _ => false
  end.
Lemma fires0_row u i p c s o x os : nth_error (lexorder sc) i = Some (mkrow (p + 1) c s o) -> assoc (effective_to_parent sc p) s = Some (x :: os) ->
  fires0 u i = (response m p (fun k => u (Source k 0)) (u (Noise p [])) x os =? o).
Proof.
  intros E A. unfold fires0. rewrite (nth_error_nth _ _ _ E), ScenarioProofs.mkrow_party, ScenarioProofs.mkrow_setting, ScenarioProofs.mkrow_outcome.
  replace (p + 1 - 1) with p by lia. rewrite A. reflexivity.
Qed.

Variables (ops : list nat) (Hops : forall k, In k ops -> k < n).
Let mon := map (fun k => nth k (lexorder sc) []) ops.
Hypotheses (OP : one_operator_per_party mon) (OC : one_copy_per_source mon) (PA : parents_agree sc mon).

Lemma mon_row i : In i ops -> exists p c s o, nth_error (lexorder sc) i = Some (mkrow (p + 1) c s o) /\ valid_operator sc p c s o /\ In (mkrow (p + 1) c s o) mon.
Proof.
  intros Hi. destruct (SymProofs.lexorder_parts sc i W (Hops i Hi)) as (p & c & s & o & E & V). exists p, c, s, o. split; [exact E|]. split; [exact V|].
  unfold mon. apply in_map_iff. exists i. split; [apply nth_error_nth, E|exact Hi].
Qed.
Lemma row_mon r : In r mon -> exists i p c s o, In i ops /\ r = mkrow (p + 1) c s o /\ nth_error (lexorder sc) i = Some (mkrow (p + 1) c s o) /\ valid_operator sc p c s o.
Proof.
  intros H. unfold mon in H. apply in_map_iff in H as (i & <- & Hi). destruct (SymProofs.lexorder_parts sc i W (Hops i Hi)) as (p & c & s & o & E & V).
  exists i, p, c, s, o. split; [exact Hi|]. split; [apply nth_error_nth, E|]. auto.
Qed.
Lemma same_party p c s o c' s' o' : In (mkrow p c s o) mon -> In (mkrow p c' s' o') mon -> c = c' /\ s = s' /\ o = o'.
Proof.
  intros H H'. apply In_nth_error in H as (i & Hi). apply In_nth_error in H' as (j & Hj). assert (i = j) by (eapply OP; eassumption). subst j.
  rewrite Hi in Hj. assert (E : mkrow p c s o = mkrow p c' s' o') by congruence. apply ScenarioProofs.mkrow_inj in E as (_ & -> & -> & ->). auto.
Qed.
Lemma event_nth i : nth i (event_of sc ops) false = true <-> In i ops.
Proof.
  unfold event_of. split.
  - intros H. destruct (Nat.lt_ge_cases i n) as [K|K]; [|rewrite nth_overflow in H by (rewrite map_length, seq_length; exact K); discriminate].
    rewrite (nth_indep _ false (memb 0 ops)) in H by (rewrite map_length, seq_length; exact K). rewrite (map_nth (fun i => memb i ops)), seq_nth in H by exact K. apply ScenarioProofs.memb_in, H.
  - intros H. assert (K := Hops i H). rewrite (nth_indep _ false (memb 0 ops)) by (rewrite map_length, seq_length; exact K). rewrite (map_nth (fun i => memb i ops)), seq_nth by exact K. apply ScenarioProofs.memb_in, H.
Qed.
Lemma event_length : length (event_of sc ops) = n.
Proof. unfold event_of. rewrite map_length, seq_length. reflexivity. Qed.

(** ** From the inflation to the original scenario *)
Definition original (x : variable) : variable := match x with Source k _ => Source k 0 | Noise p _ => Noise p [] end.
Notation A := (event_vars sc (event_of sc ops)).
Lemma A_row x : In x A -> exists p c s o, In (mkrow (p + 1) c s o) mon /\ valid_operator sc p c s o /\ In x (used_by sc p c).
Proof.
  intros H. apply (event_vars_row sc W) in H as (i & p & c & s & o & Hi & Ei & V & Hx). apply event_nth in Hi. exists p, c, s, o. split; [|auto].
  unfold mon. apply in_map_iff. exists i. split; [apply nth_error_nth, Ei|exact Hi].
Qed.
Lemma original_injective x y : In x A -> In y A -> original x = original y -> x = y.
Proof.
  intros Hx Hy E. apply A_row in Hx as (p & c & s & o & Hm & V & Hx). apply A_row in Hy as (p' & c' & s' & o' & Hm' & V' & Hy).
  apply in_used in Hx as [(k & Hk & Nk & Ex)|Ex]; apply in_used in Hy as [(k' & Hk' & Nk' & Ey)|Ey]; subst x y; cbn [original] in E; try discriminate.
  - assert (k = k') by congruence. subst k'. f_equal. exact (OC _ _ _ _ _ _ _ _ k Hm Hm' Nk Nk').
  - assert (p = p') by congruence. subst p'. f_equal. apply (same_party _ _ _ _ _ _ _ Hm Hm').
Qed.
Lemma in_exogenous x : In x (exogenous sc) <-> match x with Source k c => k < nr_sources sc /\ c = 0 | Noise p c => p < N /\ c = [] end.
Proof.
  unfold exogenous. rewrite in_app_iff, !in_map_iff. split.
  - intros [(k & <- & Hk)|(p & <- & Hp)]; [apply in_seq in Hk|apply in_seq in Hp]; split; (reflexivity || lia).
  - destruct x as [k c|p c]; intros [H ->]; [left; exists k|right; exists p]; (split; [reflexivity|apply in_seq; lia]).
Qed.
Lemma exogenous_NoDup : NoDup (exogenous sc).
Proof.
  unfold exogenous. apply NoDup_app.
  - apply map_NoDup; [congruence|apply seq_NoDup].
  - apply map_NoDup; [congruence|apply seq_NoDup].
  - intros z H H'. apply in_map_iff in H as (k & <- & _). apply in_map_iff in H' as (p & E & _). discriminate.
Qed.
Lemma A_exogenous x : In x A -> In (original x) (exogenous sc).
Proof.
  intros H. apply A_row in H as (p & c & s & o & _ & V & H). apply in_exogenous. apply in_used in H as [(k & Hk & _ & ->)| -> ]; cbn [original]; split; try reflexivity; [exact Hk|apply V].
Qed.
Definition happens0 (u : variable -> nat) : bool := forallb (fires0 u) ops.
Lemma moved u u' : (forall x, In x A -> u x = u' (original x)) -> indicator (happens (fires sc m u) (event_of sc ops)) = indicator (happens0 u').
Proof.
  intros E. f_equal. apply eq_true_iff_eq. rewrite happens_iff. unfold happens0. rewrite forallb_forall.
  assert (Q : forall i, In i ops -> fires sc m u i = fires0 u' i).
  { intros i Hi. destruct (mon_row i Hi) as (p & c & s & o & Ei & V & _). destruct (setting_parts sc p s ltac:(apply V)) as (x & os & As & _).
    assert (IA : forall y, In y (used_by sc p c) -> In y A).
    { intros y Hy. unfold event_vars. apply in_flat_map. exists i. split; [apply filter_In; split; [apply in_seq; assert (K := Hops i Hi); lia|apply event_nth, Hi]|].
      rewrite (op_vars_row sc i p c s o Ei). exact Hy. }
    rewrite (fires_row sc m u i p c s o x os Ei As), (fires0_row u' i p c s o x os Ei As). f_equal.
    rewrite (E (Noise p c)) by (apply IA, in_used; right; reflexivity). cbn [original]. apply (mo_local _ _ M); [apply V|]. intros k src Hk Rk.
    destruct (reached_copy sc p c s o k src V Hk Rk) as [Lk Nk]. rewrite (E (Source k (nth k c 0))); [reflexivity|]. apply IA, in_used. left. exists k. auto. }
  split; intros H i Hi.
  - rewrite <- Q by exact Hi. apply H, event_nth, Hi.
  - apply event_nth in Hi. rewrite Q by exact Hi. apply H, Hi.
Qed.
Lemma happens0_depends : depends (fun u => indicator (happens0 u)) (map original A).
Proof.
  intros u u' E. rewrite <- (moved (fun x => u (original x)) u) by reflexivity. apply moved. intros x Hx. apply E, in_map, Hx.
Qed.
Lemma inflated_original : inflated sc m (event_of sc ops) = mean (exogenous sc) (fun u => indicator (happens0 u)) (fun _ => 0).
Proof.
  unfold inflated. set (inA := fun x => if in_dec var_dec x A then true else false).
  assert (InA : forall x, inA x = true <-> In x A) by (intros x; unfold inA; destruct (in_dec var_dec x A); intuition congruence).
  rewrite (mean_restrict var_dec (distribution_of m) A _ inA _ (event_depends sc W m M _ event_length)).
  2: { intros x Hx _. apply InA, Hx. }
  2: { intros x Hx. apply (vars_prob sc m M), Hx. }
  set (L := filter inA (vars sc)).
  assert (LA : forall x, In x L <-> In x A).
  { intros x. unfold L. rewrite filter_In, InA. split; [tauto|]. intros H. split; [|exact H]. apply A_row in H as (p & c & s & o & _ & V & H). eapply (used_in_vars sc W); eassumption. }
  assert (ND : NoDup (map original L)).
  { apply map_NoDup; [intros x y Hx Hy; apply original_injective; apply LA; assumption|]. apply NoDup_filter, (vars_NoDup sc W). }
  rewrite (mean_rename var_dec var_dec (distribution_of m) (distribution_of m) original A _ (fun u => indicator (happens0 u)) moved L) with (u' := fun _ => 0).
  2: { intros x _. destruct x; reflexivity. }
  2: { intros x y Hx Hy. apply original_injective; [apply LA, Hx|exact Hy]. }
  2: { reflexivity. }
  set (inB := fun x => if in_dec var_dec x (map original A) then true else false).
  assert (InB : forall x, inB x = true <-> In x (map original A)) by (intros x; unfold inB; destruct (in_dec var_dec x (map original A)); intuition congruence).
  rewrite (mean_restrict var_dec (distribution_of m) (map original A) _ inB (exogenous sc) happens0_depends).
  2: { intros x Hx _. apply InB, Hx. }
  2: { intros x Hx. apply in_exogenous in Hx. destruct x as [k c|p c]; destruct Hx as [Hx _]; [apply (mo_sources _ _ M), Hx|apply (mo_noise _ _ M), Hx]. }
  apply (mean_perm var_dec (distribution_of m) (map original A)); [apply happens0_depends| |exact ND].
  apply perm_of_same_elements; [exact ND|apply NoDup_filter, exogenous_NoDup|]. intros x. rewrite filter_In, InB, !in_map_iff. split.
  - intros (y & <- & Hy). apply LA in Hy. split; [apply A_exogenous, Hy|]. exists y. auto.
  - intros [_ (y & <- & Hy)]. exists y. split; [reflexivity|apply LA, Hy].
Qed.

(** ** The event in the original scenario *)
Variables (l : list (list nat)) (x : list nat) (Nl : NoDup l).
Hypothesis Hl : forall a, In a l <-> Forall2 lt a (outcomes sc) /\ forall p c s o, In (mkrow (p + 1) c s o) mon -> nth p a 0 = o.
Hypothesis Hx : forall p, p < N ->
  (forall c s o y os, In (mkrow (p + 1) c s o) mon -> assoc (effective_to_parent sc p) s = Some (y :: os) -> nth p x 0 = y) /\
  ((forall c s o, ~ In (mkrow (p + 1) c s o) mon) -> nth p x 0 = 0).

Lemma pointwise u : indicator (happens0 u) = sumQ (map (fun a => indicator (consistent sc m a x u)) l).
Proof.
  destruct (solution u x) as (a & La & Ra & Ca & Ua).
  assert (EQ : forall p, p < N -> nth p a 0 = response m p (fun k => u (Source k 0)) (u (Noise p [])) (nth p x 0) (map (fun q => nth q a 0) (nth p (parents sc) []))).
  { intros p Hp. unfold consistent in Ca. rewrite forallb_forall in Ca. apply Nat.eqb_eq, Ca, in_seq. lia. }
  (* the outcomes of the parents *)
  assert (OS : forall p c s o y os, In (mkrow (p + 1) c s o) mon -> assoc (effective_to_parent sc p) s = Some (y :: os) -> p < N ->
     (forall q c' s' o', In q (nth p (parents sc) []) -> In (mkrow (q + 1) c' s' o') mon -> nth q a 0 = o') -> nth p a 0 = response m p (fun k => u (Source k 0)) (u (Noise p [])) y os).
  { intros p c s o y os Hm As Hp Q. rewrite (EQ p Hp). rewrite (proj1 (Hx p Hp) c s o y os Hm As). f_equal.
    destruct (PA p c s o Hm) as (y' & os' & As' & Lo & P). assert (os' = os) by congruence. subst os'. apply SymProofs.list_ext; [rewrite map_length; congruence|].
    intros j Hj. rewrite map_length in Hj. destruct (nth_error (nth p (parents sc) []) j) as [q|] eqn:Eq; [|apply nth_error_None in Eq; lia].
    destruct (P j q Eq) as (c' & s' & Hq). rewrite (nth_error_nth _ j 0 (map_nth_error (fun q => nth q a 0) j _ Eq)). apply (Q q c' s' _ (nth_error_In _ _ Eq) Hq). }
  assert (KEY : happens0 u = true <-> In a l).
  { unfold happens0. rewrite forallb_forall, Hl. split.
    - intros H. split; [exact Ra|]. destruct AC as (rank & R).
      assert (G : forall r p c s o, rank p < r -> In (mkrow (p + 1) c s o) mon -> nth p a 0 = o).
      { induction r as [|r IH]; intros p c s o Hr Hm; [lia|]. destruct (row_mon _ Hm) as (i & p' & c' & s' & o' & Hi & E & Ei & V). rewrite E in Hm. apply ScenarioProofs.mkrow_inj in E as (E1 & -> & -> & ->).
        assert (p = p') by lia. subst p'. destruct (setting_parts sc p s' ltac:(apply V)) as (y & os & As & _). assert (F := H i Hi). rewrite (fires0_row u i p c' s' o' y os Ei As) in F.
        apply Nat.eqb_eq in F. rewrite <- F. apply (OS p c' s' o' y os Hm As); [apply V|]. intros q cq sq oq Hq. apply IH. assert (RQ := R p q ltac:(apply V) Hq). lia. }
      intros p c s o. apply (G (S (rank p))). lia.
    - intros [_ H] i Hi. destruct (mon_row i Hi) as (p & c & s & o & Ei & V & Hm). destruct (setting_parts sc p s ltac:(apply V)) as (y & os & As & _).
      rewrite (fires0_row u i p c s o y os Ei As). apply Nat.eqb_eq. rewrite <- (OS p c s o y os Hm As); [apply (H p c s o Hm)|apply V|]. intros q c' s' o' _. apply H. }
  assert (OTHER : forall b, In b l -> b <> a -> indicator (consistent sc m b x u) = 0%Qc).
  { intros b Hb NE. destruct (consistent sc m b x u) eqn:C; [|reflexivity]. exfalso. apply NE, Ua; [|exact C]. apply Hl in Hb as [Hb _]. apply ScenarioProofs.Forall2_len in Hb. exact Hb. }
  destruct (in_dec (list_eq_dec Nat.eq_dec) a l) as [I|I].
  - rewrite (proj2 KEY I). rewrite (sumQ_single (list_eq_dec Nat.eq_dec) l a _ Nl I OTHER). rewrite Ca. reflexivity.
  - assert (F : happens0 u = false) by (destruct (happens0 u); [exfalso; apply I, KEY; reflexivity|reflexivity]). rewrite F. symmetry. apply sumQ_zero. intros b Hb. apply OTHER; [exact Hb|]. intros ->. contradiction.
Qed.
Lemma inflated_observed : inflated sc m (event_of sc ops) = sumQ (map (fun a => observed sc m a x) l).
Proof. rewrite inflated_original. unfold observed. rewrite <- mean_sum. apply mean_ext, pointwise. Qed.
Hypotheses (Lx : length x = N) (PS : forall k, In k (private_settings sc) -> 1 <= k).
Lemma settings_in_range : Forall2 lt x (private_settings sc).
Proof.
  apply (MargProofs.Forall2_nth_iff lt x (private_settings sc) 0 0). split; [rewrite (wf_settings _ W); exact Lx|]. intros p Hp. rewrite Lx in Hp. destruct (Hx p Hp) as [H1 H2].
  destruct (existsb (fun r => row_party r =? p + 1) mon) eqn:E.
  - apply existsb_exists in E as (r & Hr & E). apply Nat.eqb_eq in E. destruct (row_mon r Hr) as (i & p' & c & s & o & _ & -> & _ & V). rewrite ScenarioProofs.mkrow_party in E. assert (p' = p) by lia. subst p'.
    destruct (setting_parts sc p s ltac:(apply V)) as (y & os & As & By & _). rewrite (H1 c s o y os Hr As). exact By.
  - rewrite H2; [apply PS, nth_In; rewrite (wf_settings _ W); exact Hp|]. intros c s o H. assert (F : existsb (fun r => row_party r =? p + 1) mon = true); [|congruence].
    apply existsb_exists. exists (mkrow (p + 1) c s o). split; [exact H|]. rewrite ScenarioProofs.mkrow_party. apply Nat.eqb_refl.
Qed.
End Observed.

Theorem compatible_inflation : forall sc arr, wf_scenario sc -> acyclic sc -> (forall k, In k (private_settings sc) -> 1 <= k) ->
  compatible_distribution sc arr -> exists P, inflation_of sc arr P.
Proof.
  intros sc arr W AC PS (_ & m & M & E). exists (inflated sc m). split.
  - apply (inflated_behaviour sc W m M).
  - apply (inflated_invariant sc W m M).
  - intros v w Lv Lw _ S'. apply (inflated_independent sc W m M); assumption.
  - intros ops H mon OP OC PA l x Nl Hl Lx Hx. rewrite (inflated_observed sc W m M AC ops H OP OC PA l x Nl Hl Hx). apply sumQ_ext. intros a Ha. symmetry. apply E; [apply Hl, Ha|].
    apply (settings_in_range sc W ops H x Hx Lx PS).
Qed.
