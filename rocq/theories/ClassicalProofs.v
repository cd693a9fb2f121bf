(** Classical causal models have inflations. *)
From Coq Require Import List Arith Bool QArith Qcanon Lia Permutation.
From Verif Require Import ScenarioModel ScenarioSpec SymSpec KnowSpec MargModel QcSum LPSpec LPSpec2 CausalSpec InflatedSpec MeanProofs.
From Verif Require ScenarioProofs SymProofs.
Import ListNotations.
Close Scope Q_scope. Open Scope nat_scope.

Section Classical.
Variables (sc : scenario) (W : wf_scenario sc) (m : causal_model) (M : model_of sc m).
Notation n := (length (lexorder sc)).
Notation mean := (mean var_dec (distribution_of m)).

(** does operator i fire? *)
Definition fires (u : variable -> nat) (i : nat) : bool :=
  let r := nth i (lexorder sc) [] in
  let p := row_party r - 1 in
  match assoc (effective_to_parent sc p) (row_setting r) with
  | Some (x :: os) => response m p (fun k => u (Source k (nth k (row_copies r) 0))) (u (Noise p (row_copies r))) x os =? row_outcome r
  | _ => false
  end.
Definition vars : list variable :=
  flat_map (fun k => map (Source k) (seq 1 (nth k (levels sc) 0))) (seq 0 (nr_sources sc)) ++
  flat_map (fun p => map (Noise p) (inflation_indices sc p)) (seq 0 (nr_parties sc)).
Definition inflated (v : list bool) : Qc := mean vars (fun u => indicator (happens (fires u) v)) (fun _ => 0).
Definition used_by (p : nat) (c : list nat) : list variable :=
  map (fun k => Source k (nth k c 0)) (filter (fun k => negb (nth k c 0 =? 0)) (seq 0 (nr_sources sc))) ++ [Noise p c].
Definition op_vars (i : nat) : list variable := let r := nth i (lexorder sc) [] in used_by (row_party r - 1) (row_copies r).

Lemma setting_parts p s : s < nr_settings sc p -> exists x os, assoc (effective_to_parent sc p) s = Some (x :: os) /\ x < nth p (private_settings sc) 0 /\
  length os = length (nth p (parents sc) []).
Proof.
  intros H. destruct (ScenarioProofs.effective_bijection sc p) as (B1 & _). destruct (B1 s H) as (t & Et & Ft). cbn zeta in Ft. unfold setting_shape in Ft.
  inversion Ft as [|x k os sh Hx Ho]; subst. exists x, os. split; [exact Et|]. split; [exact Hx|]. apply ScenarioProofs.Forall2_len in Ho. rewrite map_length in Ho. exact Ho.
Qed.
Lemma fires_row u i p c s o x os : nth_error (lexorder sc) i = Some (mkrow (p + 1) c s o) -> assoc (effective_to_parent sc p) s = Some (x :: os) ->
  fires u i = (response m p (fun k => u (Source k (nth k c 0))) (u (Noise p c)) x os =? o).
Proof.
  intros E A. unfold fires. rewrite (nth_error_nth _ _ _ E), ScenarioProofs.mkrow_party, ScenarioProofs.mkrow_copies, ScenarioProofs.mkrow_setting, ScenarioProofs.mkrow_outcome.
  replace (p + 1 - 1) with p by lia. rewrite A. reflexivity.
Qed.
Lemma op_vars_row i p c s o : nth_error (lexorder sc) i = Some (mkrow (p + 1) c s o) -> op_vars i = used_by p c.
Proof. intros E. unfold op_vars. rewrite (nth_error_nth _ _ _ E), ScenarioProofs.mkrow_party, ScenarioProofs.mkrow_copies. f_equal. lia. Qed.
Lemma in_used p c x : In x (used_by p c) <-> (exists k, k < nr_sources sc /\ nth k c 0 <> 0 /\ x = Source k (nth k c 0)) \/ x = Noise p c.
Proof.
  unfold used_by. rewrite in_app_iff, in_map_iff. split.
  - intros [(k & <- & Hk)|[<-|[]]]; [left|right; reflexivity]. apply filter_In in Hk as [Hk Hc]. apply in_seq in Hk. exists k. split; [lia|]. split; [|reflexivity].
    intros C. rewrite C in Hc. discriminate.
  - intros [(k & Hk & Hc & ->)| -> ]; [left|right; left; reflexivity]. exists k. split; [reflexivity|]. apply filter_In. split; [apply in_seq; lia|].
    destruct (Nat.eqb_spec (nth k c 0) 0); [contradiction|reflexivity].
Qed.
Lemma in_vars x : In x vars <-> match x with
  | Source k c => k < nr_sources sc /\ 1 <= c <= nth k (levels sc) 0
  | Noise p c => p < nr_parties sc /\ In c (inflation_indices sc p) end.
Proof.
  unfold vars. rewrite in_app_iff, !in_flat_map. split.
  - intros [(k & Hk & Hx)|(p & Hp & Hx)]; apply in_map_iff in Hx as (c & <- & Hc).
    + apply in_seq in Hk, Hc. split; lia.
    + apply in_seq in Hp. split; [lia|exact Hc].
  - destruct x as [k c|p c]; intros [H1 H2]; [left|right].
    + exists k. split; [apply in_seq; lia|]. apply in_map, in_seq. lia.
    + exists p. split; [apply in_seq; lia|]. apply in_map, H2.
Qed.
Lemma NoDup_flat_map {A B} (f : A -> list B) l : NoDup l -> (forall x, In x l -> NoDup (f x)) -> (forall x y b, In x l -> In y l -> In b (f x) -> In b (f y) -> x = y) -> NoDup (flat_map f l).
Proof.
  induction l as [|x l IH]; intros N Nf D; cbn [flat_map]; [constructor|]. inversion N as [|? ? Hx Nl]; subst.
  assert (Q : forall (a b : list B), NoDup a -> NoDup b -> (forall z, In z a -> In z b -> False) -> NoDup (a ++ b)).
  { clear. induction a as [|z a IH]; intros b Na Nb D; [exact Nb|]. inversion Na; subst. cbn. constructor.
    - rewrite in_app_iff. intros [I|I]; [contradiction|exact (D z (or_introl eq_refl) I)].
    - apply IH; auto. intros y Hy. apply D. right. exact Hy. }
  apply Q; [apply Nf; left; reflexivity| |].
  - apply IH; [exact Nl|intros y Hy; apply Nf; right; exact Hy|]. intros y z b Hy Hz. apply D; right; assumption.
  - intros b Hb Hb'. apply in_flat_map in Hb' as (y & Hy & Hb'). apply Hx. rewrite (D x y b (or_introl eq_refl) (or_intror Hy) Hb Hb'). exact Hy.
Qed.
Lemma NoDup_app {A} (a b : list A) : NoDup a -> NoDup b -> (forall z, In z a -> In z b -> False) -> NoDup (a ++ b).
Proof.
  induction a as [|z a IH]; intros Na Nb D; [exact Nb|]. inversion Na; subst. cbn. constructor.
  - rewrite in_app_iff. intros [I|I]; [contradiction|exact (D z (or_introl eq_refl) I)].
  - apply IH; auto. intros y Hy. apply D. right. exact Hy.
Qed.
Lemma map_NoDup {A B} (f : A -> B) l : (forall x y, In x l -> In y l -> f x = f y -> x = y) -> NoDup l -> NoDup (map f l).
Proof.
  intros I N. induction N as [|x l Hx N IH]; cbn [map]; [constructor|]. constructor.
  - intros H. apply in_map_iff in H as (y & E & Hy). apply Hx. rewrite (I x y (or_introl eq_refl) (or_intror Hy)); [exact Hy|congruence].
  - apply IH. intros y z Hy Hz. apply I; right; assumption.
Qed.
Lemma vars_NoDup : NoDup vars.
Proof.
  unfold vars. apply NoDup_app.
  - apply NoDup_flat_map; [apply seq_NoDup| |].
    + intros k _. apply map_NoDup; [intros x y _ _ E; congruence|apply seq_NoDup].
    + intros k k' b _ _ H H'. apply in_map_iff in H as (c & <- & _). apply in_map_iff in H' as (c' & E & _). congruence.
  - apply NoDup_flat_map; [apply seq_NoDup| |].
    + intros p _. apply map_NoDup; [intros x y _ _ E; congruence|]. apply (ScenarioProofs.SS_NoDup lex_lt); [apply ScenarioProofs.lex_lt_irrefl|]. apply ScenarioProofs.inflation_indices_SS, W.
    + intros k k' b _ _ H H'. apply in_map_iff in H as (c & <- & _). apply in_map_iff in H' as (c' & E & _). congruence.
  - intros z H H'. apply in_flat_map in H as (k & _ & H). apply in_flat_map in H' as (k' & _ & H'). apply in_map_iff in H as (c & <- & _). apply in_map_iff in H' as (c' & E & _). discriminate.
Qed.
Lemma vars_prob x : In x vars -> is_probability (distribution_of m x).
Proof. intros H. apply in_vars in H. destruct x as [k c|p c]; destruct H as [H _]; [apply (mo_sources _ _ M), H|apply (mo_noise _ _ M), H]. Qed.
Lemma valid_indices p c s o : valid_operator sc p c s o -> In c (inflation_indices sc p).
Proof. intros (H1 & H2 & H3 & _). apply ScenarioProofs.inflation_indices_in; [exact W|]. split; assumption. Qed.
Lemma used_in_vars p c s o x : valid_operator sc p c s o -> In x (used_by p c) -> In x vars.
Proof.
  intros V H. apply in_vars. apply in_used in H as [(k & Hk & Hc & ->)| -> ].
  - split; [exact Hk|]. assert (B := SymProofs.valid_copy sc p c s o k W V Hk). lia.
  - split; [apply V|]. eapply valid_indices, V.
Qed.
Lemma reached_copy p c s o k src : valid_operator sc p c s o -> nth_error (sources sc) k = Some src -> reaches src p -> k < nr_sources sc /\ nth k c 0 <> 0.
Proof.
  intros V E R. assert (L : k < nr_sources sc) by (apply nth_error_Some; congruence). split; [exact L|]. destruct V as (_ & _ & V & _). destruct (V k src E) as [V1 _]. specialize (V1 R). lia.
Qed.
Lemma response_used p c s o u u' x os : valid_operator sc p c s o -> (forall y, In y (used_by p c) -> u y = u' y) ->
  response m p (fun k => u (Source k (nth k c 0))) (u (Noise p c)) x os = response m p (fun k => u' (Source k (nth k c 0))) (u' (Noise p c)) x os.
Proof.
  intros V E. rewrite (E (Noise p c)) by (apply in_used; right; reflexivity). apply (mo_local _ _ M); [apply V|]. intros k src Hk R.
  destruct (reached_copy p c s o k src V Hk R) as [L N]. apply E. apply in_used. left. exists k. auto.
Qed.
Lemma fires_depends i u u' : i < n -> (forall x, In x (op_vars i) -> u x = u' x) -> fires u i = fires u' i.
Proof.
  intros Hi E. destruct (SymProofs.lexorder_parts sc i W Hi) as (p & c & s & o & Ei & V). destruct (setting_parts p s ltac:(apply V)) as (x & os & A & _).
  rewrite !(fires_row _ i p c s o x os Ei A). rewrite (op_vars_row i p c s o Ei) in E. rewrite (response_used p c s o u u' x os V E). reflexivity.
Qed.
Lemma happens_iff w v : happens w v = true <-> forall i, nth i v false = true -> w i = true.
Proof.
  unfold happens. rewrite forallb_forall. split.
  - intros H i Hi. specialize (H i). rewrite Hi in H. apply H. apply in_seq. split; [lia|]. cbn. destruct (Nat.lt_ge_cases i (length v)) as [K|K]; [exact K|].
    rewrite nth_overflow in Hi by exact K. discriminate.
  - intros H i _. destruct (nth i v false) eqn:E; [|reflexivity]. cbn. apply H, E.
Qed.
Definition event_vars (v : list bool) : list variable := flat_map op_vars (filter (fun i => nth i v false) (seq 0 n)).
Lemma event_depends v : length v = n -> depends (fun u => indicator (happens (fires u) v)) (event_vars v).
Proof.
  intros L u u' E. f_equal. apply eq_true_iff_eq. rewrite !happens_iff.
  assert (Q : forall i, nth i v false = true -> fires u i = fires u' i).
  { intros i Hi. assert (B : i < n). { destruct (Nat.lt_ge_cases i n) as [B|B]; [exact B|]. rewrite nth_overflow in Hi by lia. discriminate. }
    apply fires_depends; [exact B|]. intros x Hx. apply E. apply in_flat_map. exists i. split; [apply filter_In; split; [apply in_seq; lia|exact Hi]|exact Hx]. }
  split; intros H i Hi; [rewrite <- Q by exact Hi|rewrite Q by exact Hi]; apply H, Hi.
Qed.

(** ** One joint distribution *)
Lemma inflated_behaviour : scenario_behaviour sc inflated.
Proof.
  intros ms [JM _]. destruct (mean_mixture var_dec (distribution_of m) vars vars_prob (fun _ => 0)) as (ws & NN & TOT & MIX & _).
  exists (map (fun q => (fst q, fires (snd q))) ws). split; [split|split].
  - intros q Hq. apply in_map_iff in Hq as (q' & <- & Hq'). apply NN, Hq'.
  - rewrite map_map. exact TOT.
  - intros q mm Hq Hm. apply in_map_iff in Hq as (q' & <- & Hq'). cbn [snd]. destruct mm as [[p c] s]. assert (V := JM _ Hm). unfold is_measurement in V. cbn [fst snd] in V.
    destruct (setting_parts p s ltac:(apply V)) as (x & os & A & _).
    set (o := response m p (fun k => snd q' (Source k (nth k c 0))) (snd q' (Noise p c)) x os).
    assert (Ho : o < nth p (outcomes sc) 0) by (apply (mo_range _ _ M), V).
    assert (V' : valid_operator sc p c s o) by (destruct V as (V1 & V2 & V3 & V4 & _); exact (conj V1 (conj V2 (conj V3 (conj V4 Ho))))).
    assert (I : In (mkrow (p + 1) c s o) (lexorder sc)) by (apply ScenarioProofs.lexorder_in; [exact W|]; exists p, c, s, o; auto).
    apply In_nth_error in I as (i & Hi). exists o, i. unfold outcome_of. cbn [fst snd]. split; [exact Hi|]. split.
    + rewrite (fires_row _ i p c s o x os Hi A). apply Nat.eqb_refl.
    + intros o' i' Hi' F. rewrite (fires_row _ i' p c s o' x os Hi' A) in F. apply Nat.eqb_eq in F. symmetry. exact F.
  - intros v L _. unfold inflated. rewrite MIX. unfold prob. rewrite map_map. apply sumQ_ext. intros q _. cbn [fst snd]. unfold indicator. destruct (happens _ _); ring.
Qed.

(** ** Exchangeable copies *)
Lemma nth_permuted v g i : i < length g -> nth i (permuted v g) false = nth (nth i g 0) v false.
Proof. intros Hi. unfold permuted. rewrite (nth_indep _ false (nth 0 v false)) by (rewrite map_length; exact Hi). apply (map_nth (fun k => nth k v false)). Qed.
Lemma inflated_invariant : relabelling_invariant sc inflated.
Proof.
  intros sg g v R I L. assert (Lg : length g = n) by apply I.
  set (rho := fun x : variable => match x with Source k c => Source k (sg k c) | Noise p c => Noise p (relabel sg c) end).
  assert (RV : forall x, In x vars -> In (rho x) vars).
  { intros x Hx. apply in_vars in Hx. apply in_vars. destruct x as [k c|p c]; cbn [rho].
    - destruct Hx as [H1 H2]. split; [exact H1|]. destruct (R k H1) as (_ & R2 & _). apply R2, H2.
    - destruct Hx as [H1 H2]. split; [exact H1|]. apply ScenarioProofs.inflation_indices_in in H2 as [H2 H3]; [|exact W]. apply ScenarioProofs.inflation_indices_in; [exact W|].
      split; [rewrite SymProofs.relabel_length; exact H2|]. intros k src Hk. assert (Lk : k < nr_sources sc) by (apply nth_error_Some; congruence).
      rewrite SymProofs.nth_relabel by (rewrite H2; exact Lk). destruct (R k Lk) as (R1 & R2 & _). destruct (H3 k src Hk) as [H4 H5]. split; intros Q.
      + apply R2, H4, Q.
      + rewrite (H5 Q). exact R1. }
  assert (RI : forall x y, In x vars -> In y vars -> rho x = rho y -> x = y).
  { intros x y Hx Hy E. apply in_vars in Hx, Hy. destruct x as [k c|p c], y as [k' c'|p' c']; cbn [rho] in E; try discriminate.
    - assert (k = k') by congruence. subst k'. destruct (R k (proj1 Hx)) as (_ & _ & R3). f_equal. apply R3; [apply Hx|apply Hy|congruence].
    - assert (p = p') by congruence. subst p'. destruct Hx as [_ Hx], Hy as [_ Hy]. apply ScenarioProofs.inflation_indices_in in Hx as [L1 X]; [|exact W]. apply ScenarioProofs.inflation_indices_in in Hy as [L2 Y]; [|exact W].
      f_equal. assert (E' : relabel sg c = relabel sg c') by congruence. apply SymProofs.list_ext; [congruence|]. intros k Hk. rewrite L1 in Hk.
      assert (Ek := f_equal (fun l => nth k l 0) E'). cbn beta in Ek. rewrite !SymProofs.nth_relabel in Ek by congruence.
      destruct (R k Hk) as (R1 & R2 & R3). destruct (nth_error (sources sc) k) as [src|] eqn:Es; [|apply nth_error_None in Es; unfold nr_sources in Hk; lia].
      destruct (X k src Es) as [X1 X2], (Y k src Es) as [Y1 Y2].
      assert (DEC : hypergraph sc k p = true \/ hypergraph sc k p = false) by (destruct (hypergraph sc k p); auto).
      assert (HR := ScenarioProofs.hypergraph_reaches sc k p src Es). destruct DEC as [Q|Q].
      + apply HR in Q. apply R3; auto.
      + assert (NR : ~ reaches src p) by (intros C; apply HR in C; congruence). rewrite X2, Y2 by exact NR. reflexivity. }
  assert (PV : Permutation (map rho vars) vars).
  { apply NoDup_Permutation_bis.
    - apply map_NoDup; [exact RI|apply vars_NoDup].
    - rewrite map_length. apply le_n.
    - intros x Hx. apply in_map_iff in Hx as (y & <- & Hy). apply RV, Hy. }
  unfold inflated. rewrite <- (mean_perm var_dec (distribution_of m) (event_vars v) (fun u => indicator (happens (fires u) v)) (map rho vars) vars (event_depends v L) PV).
  2: { apply map_NoDup; [exact RI|apply vars_NoDup]. }
  apply (mean_rename var_dec var_dec (distribution_of m) (distribution_of m) rho vars).
  - intros u u' E. f_equal. apply eq_true_iff_eq. rewrite !happens_iff.
    assert (Q : forall i, i < n -> nth i g 0 < n /\ fires u i = fires u' (nth i g 0)).
    { intros i Hi. destruct (SymProofs.lexorder_parts sc i W Hi) as (p & c & s & o & Ei & V). destruct (setting_parts p s ltac:(apply V)) as (x & os & A & _).
      destruct I as [_ I]. destruct (I i _ _ _ _ Ei) as (j & Gj & Ej). rewrite (nth_error_nth _ _ _ Gj). split; [apply nth_error_Some; congruence|].
      rewrite (fires_row u i p c s o x os Ei A), (fires_row u' j p (relabel sg c) s o x os Ej A). f_equal.
      rewrite (E (Noise p c)) by (apply in_vars; split; [apply V|eapply valid_indices, V]). cbn [rho]. apply (mo_local _ _ M); [apply V|]. intros k src Hk Rk.
      destruct (reached_copy p c s o k src V Hk Rk) as [Lk Nk]. assert (Lc : length c = nr_sources sc) by apply V. rewrite SymProofs.nth_relabel by (rewrite Lc; exact Lk).
      rewrite (E (Source k (nth k c 0))); [reflexivity|]. apply in_vars. split; [exact Lk|]. assert (B := SymProofs.valid_copy sc p c s o k W V Lk). lia. }
    assert (PG := SymProofs.induces_perm sc sg g W R I).
    split; intros H i Hi.
    + assert (Hn : i < n). { destruct (Nat.lt_ge_cases i n) as [B|B]; [exact B|]. rewrite nth_overflow in Hi by lia. discriminate. }
      assert (Hj : In i g) by (apply (Permutation_in i (Permutation_sym PG)), in_seq; lia). apply (In_nth g i 0) in Hj as (j & Hj & Ej).
      destruct (Q j ltac:(rewrite <- Lg; exact Hj)) as [_ Q']. rewrite <- Ej, <- Q'. apply H. rewrite nth_permuted by exact Hj. rewrite Ej. exact Hi.
    + assert (Hn : i < n). { destruct (Nat.lt_ge_cases i n) as [B|B]; [exact B|]. rewrite nth_overflow in Hi; [discriminate|]. unfold permuted. rewrite map_length. lia. }
      destruct (Q i Hn) as [_ Q']. rewrite Q'. apply H. rewrite <- nth_permuted by lia. exact Hi.
  - intros x _. destruct x; reflexivity.
  - intros x y Hx Hy. apply RI; assumption.
  - intros x Hx Hn. contradiction.
Qed.

(** ** Independence *)
Lemma nth_either v w i : length v = length w -> nth i (either v w) false = nth i v false || nth i w false.
Proof.
  unfold either. revert w i. induction v as [|a v IH]; intros [|b w] i L; try discriminate; destruct i; cbn [combine map nth]; try reflexivity. apply IH. cbn [length] in L. congruence.
Qed.
Lemma event_vars_row v x : In x (event_vars v) -> exists i p c s o, nth i v false = true /\ nth_error (lexorder sc) i = Some (mkrow (p + 1) c s o) /\ valid_operator sc p c s o /\ In x (used_by p c).
Proof.
  intros H. apply in_flat_map in H as (i & Hi & Hx). apply filter_In in Hi as [Hi Hv]. apply in_seq in Hi. destruct (SymProofs.lexorder_parts sc i W ltac:(lia)) as (p & c & s & o & Ei & V).
  rewrite (op_vars_row i p c s o Ei) in Hx. exists i, p, c, s, o. auto.
Qed.
Lemma has_copy p c s o : valid_operator sc p c s o -> exists k, nth k c 0 <> 0.
Proof.
  intros V. destruct (wf_sourced _ W p ltac:(apply V)) as (src & Hs & R). apply In_nth_error in Hs as (k & Hk). exists k. eapply reached_copy; eassumption.
Qed.
Lemma inflated_independent v w : length v = n -> length w = n -> separate sc v w -> inflated (either v w) = (inflated v * inflated w)%Qc.
Proof.
  intros Lv Lw S. unfold inflated.
  rewrite <- (mean_mul var_dec (distribution_of m) (event_vars v) (event_vars w) _ _ vars (event_depends v Lv) (event_depends w Lw)).
  - apply mean_ext. intros u. replace (happens (fires u) (either v w)) with (happens (fires u) v && happens (fires u) w).
    + unfold indicator. destruct (happens _ v), (happens _ w); cbn [andb]; ring.
    + apply eq_true_iff_eq. rewrite andb_true_iff, !happens_iff. split.
      * intros [A B] i Hi. rewrite nth_either in Hi by congruence. apply orb_prop in Hi as [Hi|Hi]; auto.
      * intros A. split; intros i Hi; apply A; rewrite nth_either by congruence; rewrite Hi; [reflexivity|apply orb_true_r].
  - intros x _ Hv Hw. apply event_vars_row in Hv as (i & p & c & s & o & Hi & Ei & V & Hx). apply event_vars_row in Hw as (j & p' & c' & s' & o' & Hj & Ej & V' & Hx').
    apply (S i j _ _ _ _ _ _ _ _ Hi Hj Ei Ej). apply in_used in Hx as [(k & Hk & Nk & Ex)|Ex]; apply in_used in Hx' as [(k' & Hk' & Nk' & Ex')|Ex']; try congruence.
    + assert (k = k') by congruence. subst k'. exists k. split; [exact Nk|congruence].
    + assert (c = c') by congruence. subst c'. destruct (has_copy p c s o V) as (k & Hk). exists k. split; [exact Hk|reflexivity].
  - intros x Hx. apply vars_prob, Hx.
Qed.
End Classical.
