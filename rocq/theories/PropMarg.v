(** Property theorems C16 (values of knowable moments) and C17 (products of moments).
    Statements use MargModel/KnowModel (the code) and ScenarioSpec/KnowSpec. *)
From Coq Require Import Permutation Sorted.
From Verif Require Import CanonModel ScenarioModel ScenarioSpec KnowModel KnowSpec MargModel.
From Verif Require ScenarioProofs SymProofs KnowProofs QcSum MargProofs MargProofs2 PropScenario PropKnow.
Import PropScenario.

(** ** C16 *)
(** Array level.  [P o1..on x1..xn] is the probability array; the rows of [atom] are
    [party (from 1), setting, outcome] with parties in increasing order.  The result is the
    sum of P over the outcome tuples [o] that agree with the atom, at the settings [xs] which
    are the atom's for the parties in it and 0 for the others. *)
Theorem C16_compute_marginal : forall outs sets P atom,
  length sets = length outs -> (forall n, In n sets -> 1 <= n) -> atom <> [] ->
  (forall r, In r atom -> exists p x a, r = [p + 1; x; a] /\ p < length outs /\ x < nth p sets 0 /\ a < nth p outs 0) ->
  StronglySorted lt (map (hd 0) atom) ->
  exists v, compute_marginal {| nd_shape := outs ++ sets; nd_at := P |} atom = Some v /\
  forall l xs, NoDup l ->
    (forall o, In o l <-> Forall2 lt o outs /\ forall p x a, In [p + 1; x; a] atom -> nth p o 0 = a) ->
    length xs = length outs ->
    (forall p, p < length outs ->
       (forall x a, In [p + 1; x; a] atom -> nth p xs 0 = x) /\
       ((forall x a, ~ In [p + 1; x; a] atom) -> nth p xs 0 = 0)) ->
    v = sumQ (map (fun o => P (o ++ xs)) l).
Proof. exact MargProofs.compute_marginal_correct. Qed.
Print Assumptions C16_compute_marginal.

(** Moment level: a knowable monomial of a scenario, its operators listed in increasing
    order, is given the corresponding marginal at the private settings its effective
    settings stand for. *)
Theorem C16_knowable_moment_value : forall sc lexmon arr, wf_scenario sc ->
  (forall k, In k lexmon -> k < length (lexorder sc)) -> lexmon <> [] ->
  StronglySorted le lexmon -> atom_is_knowable sc lexmon = Some true ->
  nd_shape arr = outcomes sc ++ private_settings sc -> (forall n, In n (private_settings sc) -> 1 <= n) ->
  let mon := map (fun k => nth k (lexorder sc) []) lexmon in
  exists v, atom_compute_marginal sc arr lexmon = Some v /\
  forall l xs, NoDup l ->
    (forall o, In o l <-> Forall2 lt o (outcomes sc) /\ forall p c s a, In (mkrow (p + 1) c s a) mon -> nth p o 0 = a) ->
    length xs = nr_parties sc ->
    (forall p, p < nr_parties sc ->
       (forall c s a x os, In (mkrow (p + 1) c s a) mon -> assoc (effective_to_parent sc p) s = Some (x :: os) -> nth p xs 0 = x) /\
       ((forall c s a, ~ In (mkrow (p + 1) c s a) mon) -> nth p xs 0 = 0)) ->
    v = sumQ (map (fun o => nd_at arr (o ++ xs)) l).
Proof.
  intros sc lexmon arr W HV NE S K Sh Pos mon.
  destruct (KnowProofs.atom_is_knowable_correct sc lexmon W HV) as (b & Eb & Hb). rewrite K in Eb. injection Eb as <-.
  destruct (proj1 Hb eq_refl) as (P & _ & PA).
  exact (MargProofs2.knowable_marginal sc W lexmon HV S P arr PA NE Sh Pos).
Qed.
Print Assumptions C16_knowable_moment_value.

(** The order hypothesis holds for every canonical knowable monomial (operators numbered
    from 1 as in the SDP, where number 0 is the zero operator; in the LP monomials are
    boolean vectors and always listed in increasing order). *)
Theorem C16_canonical_knowable_sorted : forall sc w, wf_scenario sc ->
  (forall k, In k w -> 1 <= k <= length (lexorder sc)) ->
  nb_lexmon_to_canonical (sdp_notcomm sc) w = Some w ->
  atom_is_knowable sc (map pred w) = Some true ->
  StronglySorted le (map pred w).
Proof.
  intros sc w W HV C K. destruct w as [|k0 w0]; [constructor|]. set (w := k0 :: w0) in *.
  assert (AC : all_commuting_q_1d (default_notcomm sc) (map pred w) = true).
  { unfold atom_is_knowable in K. change (map pred w) with (pred k0 :: map pred w0) in K. cbv iota in K.
    change (pred k0 :: map pred w0) with (map pred w) in K.
    destruct (nb_is_knowable _ _); [|discriminate]. cbn [andb] in K. destruct (all_commuting_q_1d _ _); [reflexivity|discriminate]. }
  assert (S : StronglySorted le w).
  { apply (MargProofs2.commuting_canonical_sorted (sdp_notcomm sc)); [|exact C]. intros a b Ha Hb.
    unfold all_commuting_q_1d in AC. rewrite forallb_forall in AC. specialize (AC (pred a) (in_map _ _ _ Ha)). rewrite forallb_forall in AC.
    specialize (AC (pred b) (in_map _ _ _ Hb)). rewrite negb_true_iff in AC.
    pose proof (HV a Ha). pose proof (HV b Hb). destruct a; [lia|]. destruct b; [lia|]. exact AC. }
  clear -S. induction S as [|x l S IH F]; cbn [map]; constructor; [exact IH|]. rewrite Forall_forall in *. intros y Hy.
  apply in_map_iff in Hy as (z & <- & Hz). specialize (F z Hz). lia.
Qed.
Print Assumptions C16_canonical_knowable_sorted.

(** Without the order the result is wrong: the outcomes are read off the remaining axes in
    increasing order of party whatever the order of the rows. *)
Definition ex_arr : ndarray :=
  {| nd_shape := [2; 2; 1; 1]; nd_at := fun i => match i with [0; 1; 0; 0] => 1%Qc | _ => 0%Qc end |}.
Example C16_order_needed :
  compute_marginal ex_arr [[1; 0; 0]; [2; 0; 1]] = Some 1%Qc /\
  compute_marginal ex_arr [[2; 0; 1]; [1; 0; 0]] = Some 0%Qc.
Proof. vm_compute. split; reflexivity. Qed.

(** a non-trivial instance: P(a0 b1) of ex_sc, summed over Charlie *)
Definition ex_arr3 : ndarray :=
  {| nd_shape := [2; 2; 3; 2; 1; 1];
     nd_at := fun i => Q2Qc (Z.of_nat (nth 0 i 0 + 2 * nth 1 i 0 + 4 * nth 2 i 0 + 12 * nth 3 i 0) # 1) |}.
Example C16_nonvacuous :
  atom_is_knowable ex_sc [3; 18] = Some true /\ StronglySorted le [3; 18] /\
  nd_shape ex_arr3 = outcomes ex_sc ++ private_settings ex_sc /\
  (* A: setting 1, outcome 1; B: (setting 0, parent outcome 1), outcome 0 *)
  atom_compute_marginal ex_sc ex_arr3 [3; 18] = Some (Q2Qc (51 # 1)) /\
  sumQ (map (fun o => nd_at ex_arr3 (o ++ [1; 0; 0])) [[1; 0; 0]; [1; 0; 1]; [1; 0; 2]]) = Q2Qc (51 # 1) /\
  nb_lexmon_to_canonical (sdp_notcomm ex_sc) [4; 19] = Some [4; 19].
Proof.
  split; [vm_compute; reflexivity|]. split; [repeat constructor; lia|]. split; [reflexivity|].
  split; [vm_compute; reflexivity|]. split; vm_compute; reflexivity.
Qed.

(** ** C17 *)
(** For every list of factors and every table of known values: the returned list contains
    the unknown factors with multiplicity; the returned value times the product of the
    unknown factors is the product of all factors, whatever the unknown values are; and the
    status is as documented ([isclose0 v] : |v| <= 1e-8). *)
Theorem C17_evaluate_exact : forall known use_lpi factors v unk st,
  evaluate known use_lpi factors = (v, unk, st) ->
  Permutation unk (filter (fun f => match known f with None => true | Some _ => false end) factors) /\
  (forall val : atom -> Qc, (forall f x, known f = Some x -> val f = x) ->
     prodQ (map val factors) = (v * prodQ (map val unk))%Qc) /\
  (st = Known <-> unk = [] \/ (use_lpi = true /\ length unk <> length factors /\ isclose0 v = true)) /\
  (st = Semi <-> use_lpi = true /\ unk <> [] /\ length unk <> length factors /\ isclose0 v = false).
Proof. exact MargProofs.evaluate_correct. Qed.
Print Assumptions C17_evaluate_exact.

(** consequences for the three reports *)
Theorem C17_known_report_exact : forall known use_lpi factors v unk val,
  evaluate known use_lpi factors = (v, unk, Known) ->
  (forall f x, known f = Some x -> val f = x) ->
  v = 0%Qc \/ unk = [] -> prodQ (map val factors) = v.
Proof.
  intros known u factors v unk val E HV H. destruct (C17_evaluate_exact _ _ _ _ _ _ E) as (_ & X & _). rewrite (X val HV).
  destruct H as [->| ->]; [ring|cbn; ring].
Qed.
Print Assumptions C17_known_report_exact.

(** When the report "known" is due to a small value (and not all factors are known), the
    reported value is off by at most 1e-8 for factors between 0 and 1. *)
Theorem C17_known_report_error : forall known use_lpi factors v unk val,
  evaluate known use_lpi factors = (v, unk, Known) ->
  (forall f x, known f = Some x -> val f = x) -> (forall f, 0 <= val f /\ val f <= 1)%Qc ->
  (v - prodQ (map val factors) <= Q2Qc (1 # 100000000) /\ - Q2Qc (1 # 100000000) <= v - prodQ (map val factors))%Qc.
Proof.
  intros known u factors v unk val E HV B. destruct (C17_evaluate_exact _ _ _ _ _ _ E) as (_ & X & K & _).
  rewrite (X val HV).
  assert (PB : (0 <= prodQ (map val unk) /\ prodQ (map val unk) <= 1)%Qc).
  { clear -B. induction unk as [|f l [IH1 IH2]]; cbn [map]; [split; [|apply Qcle_refl]; vm_compute; discriminate|].
    rewrite QcSum.prodQ_cons. destruct (B f) as [B1 B2]. split.
    - replace 0%Qc with (0 * prodQ (map val l))%Qc by ring. apply Qcmult_le_compat_r; assumption.
    - apply Qcle_trans with (1 * prodQ (map val l))%Qc; [apply Qcmult_le_compat_r; assumption|]. rewrite Qcmult_1_l. exact IH2. }
  set (t := prodQ (map val unk)) in *.
  destruct (proj1 K eq_refl) as [->|(_ & _ & C)].
  { subst t. cbn [map] in *. replace (v - v * prodQ [])%Qc with 0%Qc by (cbn; ring). split; vm_compute; discriminate. }
  assert (C1 : (v <= Q2Qc (1 # 100000000))%Qc /\ (- Q2Qc (1 # 100000000) <= v)%Qc).
  { unfold isclose0 in C. apply andb_prop in C as [C1 C2]. apply Qle_bool_iff in C1, C2. unfold Qcle. split.
    - replace (this (Q2Qc (1 # 100000000))) with (1 # 100000000)%Q by reflexivity. exact C1.
    - replace (this (- Q2Qc (1 # 100000000))%Qc) with (- (1 # 100000000))%Q by reflexivity. exact C2. }
  destruct C1 as [C1 C2]. replace (v - v * t)%Qc with (v * (1 - t))%Qc by ring.
  set (e := Q2Qc (1 # 100000000)) in *. destruct PB as [T0 T1].
  assert (U0 : (0 <= 1 - t)%Qc). { replace 0%Qc with (t - t)%Qc by ring. apply Qcplus_le_compat; [exact T1|apply Qcle_refl]. }
  assert (U1 : (1 - t <= 1)%Qc). { replace 1%Qc with (1 - 0)%Qc at 2 by ring. apply Qcplus_le_compat; [apply Qcle_refl|]. apply Qcopp_le_compat. exact T0. }
  assert (E0 : (0 <= e)%Qc) by (vm_compute; discriminate).
  split.
  - apply Qcle_trans with (e * (1 - t))%Qc; [apply Qcmult_le_compat_r; assumption|].
    rewrite (Qcmult_comm e). replace e with (1 * e)%Qc at 2 by ring. apply Qcmult_le_compat_r; assumption.
  - apply Qcle_trans with (- e * (1 - t))%Qc; [|apply Qcmult_le_compat_r; assumption].
    replace (- e * (1 - t))%Qc with (- ((1 - t) * e))%Qc by ring. apply Qcopp_le_compat.
    replace e with (1 * e)%Qc at 2 by ring. apply Qcmult_le_compat_r; assumption.
Qed.
Print Assumptions C17_known_report_error.

(** The status stored at construction, and the value of a knowable product. *)
Theorem C17_knowability_status : forall knowable factors,
  (knowability_status knowable factors = Known <-> forall f, In f factors -> knowable f = true) /\
  (knowability_status knowable factors = Unknown <-> factors <> [] /\ forall f, In f factors -> knowable f = false) /\
  Permutation (fst (split_factors knowable factors)) (filter knowable factors) /\
  Permutation (snd (split_factors knowable factors)) (filter (fun f => negb (knowable f)) factors).
Proof.
  intros knowable factors. destruct (MargProofs.split_factors_correct knowable factors) as [P1 P2].
  assert (L : length (snd (split_factors knowable factors)) = length (filter (fun f => negb (knowable f)) factors)) by (apply Permutation_length, P2).
  unfold knowability_status. rewrite L. clear L. split; [|split; [|split; assumption]].
  - destruct (Nat.eqb_spec (length (filter (fun f => negb (knowable f)) factors)) 0) as [E|E].
    + apply length_zero_iff_nil in E. split; [|reflexivity]. intros _ f Hf. destruct (knowable f) eqn:K; [reflexivity|]. exfalso.
      assert (In f (filter (fun f => negb (knowable f)) factors)) by (apply filter_In; rewrite K; auto). rewrite E in H. destruct H.
    + split; [destruct (_ =? _); discriminate|]. intros H. exfalso. apply E. apply length_zero_iff_nil.
      destruct (filter (fun f => negb (knowable f)) factors) as [|f u] eqn:F; [reflexivity|]. assert (In f (filter (fun f => negb (knowable f)) factors)) by (rewrite F; left; reflexivity).
      apply filter_In in H0 as [H0 H1]. rewrite (H f H0) in H1. discriminate.
  - assert (G : length (filter (fun f => negb (knowable f)) factors) = length factors <-> forall f, In f factors -> knowable f = false).
    { clear. induction factors as [|f l IH]; [cbn; split; [intros _ f []|reflexivity]|]. cbn [filter length].
      assert (LE : length (filter (fun f => negb (knowable f)) l) <= length l) by (clear; induction l as [|g l IHl]; cbn; [lia|destruct (knowable g); cbn; lia]).
      destruct (knowable f) eqn:K; cbn [negb length].
      - split; [intros; lia|]. intros H. specialize (H f (or_introl eq_refl)). congruence.
      - split; [intros H g [<-|Hg]; [exact K|apply IH; [lia|exact Hg]]|]. intros H. f_equal. apply IH. intros g Hg. apply H. right. exact Hg. }
    destruct (Nat.eqb_spec (length (filter (fun f => negb (knowable f)) factors)) 0) as [E|E].
    + split; [discriminate|]. intros [N H]. exfalso. apply G in H. rewrite E in H. destruct factors; [congruence|discriminate].
    + destruct (Nat.eqb_spec (length (filter (fun f => negb (knowable f)) factors)) (length factors)) as [E1|E1].
      * split; [|reflexivity]. intros _. split; [intros ->; apply E; reflexivity|apply G, E1].
      * split; [discriminate|]. intros [_ H]. apply G in H. contradiction.
Qed.
Print Assumptions C17_knowability_status.

Theorem C17_compound_marginal : forall marg factors,
  cm_compute_marginal marg factors = prodQ (map marg factors).
Proof. exact MargProofs.compound_marginal_correct. Qed.
Print Assumptions C17_compound_marginal.

Example C17_nonvacuous :
  let half := Q2Qc (1 # 2) in
  let known := fun f : atom => match f with [1] => Some half | [5] => Some 0%Qc | _ => None end in
  let is := fun (r : Qc * list atom * status) v u st => Qc_eq_bool (fst (fst r)) v = true /\ snd (fst r) = u /\ snd r = st in
  is (evaluate known true [[1]; [2; 3]; [1]; [2; 3]]) (Q2Qc (1 # 4)) [[2; 3]; [2; 3]] Semi /\
  is (evaluate known true [[1]; [5]; [2; 3]]) 0%Qc [[2; 3]] Known /\
  is (evaluate known false [[1]; [5]; [2; 3]]) 0%Qc [[2; 3]] Unknown /\
  is (evaluate known true [[2; 3]]) 1%Qc [[2; 3]] Unknown /\
  is (evaluate known true [[1]; [1]; [1]]) (Q2Qc (1 # 8)) [] Known.
Proof. vm_compute. repeat split. Qed.
