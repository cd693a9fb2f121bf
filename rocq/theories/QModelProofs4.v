(** Quantum models: independence of copies, relabelling of copies. *)
From Coq Require Import Permutation QArith Qcanon List Arith Bool Lia.
From Verif Require Import CanonModel CanonSpec ScenarioModel ScenarioSpec SymSpec MargModel QcSum CausalSpec MeanProofs QuantumSpec QuantumProofs QInflationSpec NormSpec QModelSpec QMomentProofs QModelProofs QModelProofs2 QModelProofs3.
From Verif Require ScenarioProofs ClassicalProofs SymProofs.
Import ListNotations.
Close Scope Q_scope. Close Scope Qc_scope. Open Scope nat_scope.
Add Ring CringQM4 : C_ring.
Lemma regroup2 (a b c d : C) : Cmult (Cconj (Cmult a b)) (Cmult c d) = Cmult (Cmult (Cconj a) c) (Cmult (Cconj b) d). Proof. rewrite conj_mult. ring. Qed.

(** a measurement operator at a place *)
Record place := { pl_p : nat; pl_c : list nat; pl_x : nat; pl_os : list nat; pl_o : nat }.

Section Split.
Variables (sc : scenario) (m : quantum_model).
Notation N := (nr_parties sc).
Notation D := (weights m).
Notation act := (apply_effect sc m).
Notation Psi := (joint_state sc m).
Notation vars := (flat_map (copy_variables sc)).
Definition pact (q : place) (F : vector) : vector := act (pl_p q) (pl_c q) (pl_x q) (pl_os q) (pl_o q) F.
Definition places_op (l : list place) (F : vector) : vector := fold_right pact F l.
Lemma places_app a b F : places_op (a ++ b) F = places_op a (places_op b F). Proof. apply fold_right_app. Qed.
Lemma places_ext l F : extensional F -> extensional (places_op l F).
Proof. intros EF. induction l as [|q l IH]; [exact EF|]. apply act_ext, IH. Qed.
Lemma held_heard p k : In k (held sc p) -> In k (heard sc p).
Proof.
  intros H. assert (H' := H). apply in_held in H as [Lk G]. apply filter_In. split; [apply in_seq; lia|]. destruct (held_joins sc p k H') as (src & Es & _ & J).
  apply (ScenarioProofs.hypergraph_reaches sc k p src Es). destruct J as [[_ J]|(l & Hl & _ & J & _)]; [left; exact J|right; exists l; auto].
Qed.
Definition uses (cs : list (nat * nat)) (q : place) : Prop := forall k, In k (heard sc (pl_p q)) -> In (k, nth k (pl_c q) 0) cs.
(** does not depend on the copies [cs] *)
Definition blind (cs : list (nat * nat)) (G : vector) : Prop := forall u u', (forall x, ~ In (copy_of x) cs -> u x = u' x) -> G u = G u'.
Lemma blind_ext cs G : blind cs G -> extensional G.
Proof. intros B u u' E. apply B. intros x _. apply E. Qed.
Lemma state_blind cs cs' : (forall ki, In ki cs -> In ki cs' -> False) -> blind cs' (Psi cs).
Proof.
  intros DJ u u' E. unfold joint_state. f_equal. apply map_ext_in. intros [k i] H. cbn [fst snd]. rewrite (E (Value k i)) by (intros X; exact (DJ _ H X)). f_equal. apply map_ext. intros p. apply E. intros X. exact (DJ _ H X).
Qed.
Lemma systems_copies q x : In x (systems sc (pl_p q) (pl_c q)) -> exists k, In k (heard sc (pl_p q)) /\ copy_of x = (k, nth k (pl_c q) 0).
Proof. intros H. apply in_systems in H as (k & Hk & ->). exists k. split; [apply held_heard, Hk|reflexivity]. Qed.
Lemma values_copies q x : In x (values sc (pl_p q) (pl_c q)) -> exists k, In k (heard sc (pl_p q)) /\ copy_of x = (k, nth k (pl_c q) 0).
Proof. intros H. apply in_map_iff in H as (k & <- & Hk). exists k. split; [exact Hk|reflexivity]. Qed.
Lemma pact_blind cs cs' q G : (forall ki, In ki cs -> In ki cs' -> False) -> uses cs q -> blind cs' G -> blind cs' (pact q G).
Proof.
  intros DJ U B u u' E. unfold pact, apply_effect.
  assert (EV : map u (values sc (pl_p q) (pl_c q)) = map u' (values sc (pl_p q) (pl_c q))).
  { apply map_ext_in. intros x Hx. apply values_copies in Hx as (k & Hk & Ex). apply E. rewrite Ex. intros X. exact (DJ _ (U k Hk) X). }
  assert (ES : map u (systems sc (pl_p q) (pl_c q)) = map u' (systems sc (pl_p q) (pl_c q))).
  { apply map_ext_in. intros x Hx. apply systems_copies in Hx as (k & Hk & Ex). apply E. rewrite Ex. intros X. exact (DJ _ (U k Hk) X). }
  rewrite EV, ES. apply Csum_ext. intros t Ht. f_equal. apply B. intros x Hx. destruct (in_dec qvar_dec x (systems sc (pl_p q) (pl_c q))) as [I|I].
  - apply In_nth_error in I as (j & I). rewrite !(set_in _ _ _ j x (systems_NoDup sc _ _) (systems_length sc m _ _ t Ht) I). reflexivity.
  - rewrite !set_notin by exact I. apply E, Hx.
Qed.
Lemma places_blind cs cs' l G : (forall ki, In ki cs -> In ki cs' -> False) -> (forall q, In q l -> uses cs q) -> blind cs' G -> blind cs' (places_op l G).
Proof. intros DJ U B. induction l as [|q l IH]; [exact B|]. apply (pact_blind cs); [exact DJ|apply U; left; reflexivity|]. apply IH. intros q' Hq'. apply U. right. exact Hq'. Qed.
Lemma blind_factor cs q (a F : vector) u : uses cs q -> blind cs a -> pact q (fun v => Cmult (a v) (F v)) u = Cmult (a u) (pact q F u).
Proof.
  intros U B. apply act_factor. intros t Ht. apply B. intros x Hx. apply set_notin. intros I. apply systems_copies in I as (k & Hk & Ex). rewrite Ex in Hx. apply Hx, U, Hk.
Qed.
Lemma pact_pointwise q F G : (forall u, F u = G u) -> forall u, pact q F u = pact q G u.
Proof. intros H u. unfold pact, apply_effect. apply Csum_ext. intros t _. rewrite H. reflexivity. Qed.
Lemma places_pointwise l F G : (forall u, F u = G u) -> forall u, places_op l F u = places_op l G u.
Proof. intros H. induction l as [|q l IH]; [exact H|]. apply pact_pointwise, IH. Qed.
Lemma places_factor cs l (a F : vector) u : (forall q, In q l -> uses cs q) -> blind cs a -> places_op l (fun v => Cmult (a v) (F v)) u = Cmult (a u) (places_op l F u).
Proof.
  intros U B. revert u. induction l as [|q l IH]; intros u; [reflexivity|]. change (pact q (places_op l (fun v => Cmult (a v) (F v))) u = Cmult (a u) (pact q (places_op l F) u)).
  rewrite <- (blind_factor cs q a (places_op l F) u (U q (or_introl eq_refl)) B). apply pact_pointwise. apply IH. intros q' Hq'. apply U. right. exact Hq'.
Qed.
Lemma state_app A B u : Psi (A ++ B) u = Cmult (Psi A u) (Psi B u).
Proof. unfold joint_state. rewrite map_app. apply cprod_app. Qed.
Lemma state_perm A B u : Permutation A B -> Psi A u = Psi B u.
Proof. intros P. unfold joint_state. apply cprod_perm. apply Permutation_map, P. Qed.
Lemma blind_vars cs g : blind cs g -> forall u u', (forall x, ~ In x (vars cs) -> u x = u' x) -> g u = g u'.
Proof. intros B u u' E. apply B. intros x Hx. apply E. intros I. apply in_variables in I as [I _]. contradiction. Qed.
Lemma expectation_split cs A B v w : NoDup cs -> Permutation cs (A ++ B) -> (forall q, In q v -> uses A q) -> (forall q, In q w -> uses B q) ->
  expectation sc m cs (places_op (v ++ w)) = Cmult (expectation sc m A (places_op v)) (expectation sc m B (places_op w)).
Proof.
  intros ND P UA UB. assert (ND' : NoDup (A ++ B)) by (eapply Permutation_NoDup; eassumption).
  assert (DJ : forall ki, In ki A -> In ki B -> False).
  { intros ki HA HB. clear - ND' HA HB. induction A as [|a A IH]; [destruct HA|]. cbn in ND'. inversion ND' as [|? ? N1 N2]; subst. destruct HA as [->|HA]; [apply N1, in_or_app; right; exact HB|apply IH; assumption]. }
  assert (DJ' : forall ki, In ki B -> In ki A -> False) by (intros ki H1 H2; exact (DJ ki H2 H1)).
  unfold expectation. rewrite !total_is.
  set (g := fun u => Cmult (Cconj (Psi A u)) (places_op v (Psi A) u)). set (h := fun u => Cmult (Cconj (Psi B u)) (places_op w (Psi B) u)).
  assert (Bg : blind B g). { intros u u' E. unfold g. rewrite (state_blind A B DJ u u' E), (places_blind A B v _ DJ UA (state_blind A B DJ) u u' E). reflexivity. }
  assert (Bh : blind A h). { intros u u' E. unfold h. rewrite (state_blind B A DJ' u u' E), (places_blind B A w _ DJ' UB (state_blind B A DJ') u u' E). reflexivity. }
  rewrite <- (ctot_product D (vars A) (vars B) g h (fun _ => 0) (blind_ext B g Bg) (blind_ext A h Bh) (blind_vars B g Bg) (blind_vars A h Bh)).
  assert (PT : forall u, Cmult (Cconj (Psi cs u)) (places_op (v ++ w) (Psi cs) u) = Cmult (g u) (h u)).
  { intros u. unfold g, h. rewrite <- regroup2. rewrite (state_perm cs (A ++ B) u P), state_app. f_equal. rewrite (places_pointwise (v ++ w) (Psi cs) (fun u => Cmult (Psi A u) (Psi B u))) by (intros u'; rewrite (state_perm cs (A ++ B) u' P); apply state_app).
    rewrite places_app. transitivity (places_op v (fun u => Cmult (places_op w (Psi B) u) (Psi A u)) u).
    - apply places_pointwise. intros u'. rewrite (places_factor B w (Psi A) (Psi B) u' UB (state_blind A B DJ)). ring.
    - rewrite (places_factor A v (places_op w (Psi B)) (Psi A) u UA (places_blind B A w _ DJ' UB (state_blind B A DJ'))). ring. }
  rewrite (ctot_ext D _ _ _ _ PT).
  assert (EX : extensional (fun u => Cmult (g u) (h u))) by (intros u u' E; rewrite (blind_ext B g Bg u u' E), (blind_ext A h Bh u u' E); reflexivity).
  rewrite <- flat_map_app. apply ctot_perm_ext; [exact EX|apply Permutation_flat_map, P|apply variables_NoDup, ND].
Qed.
Lemma levels_weights k i l : Forall2 (fun x n => D x = map (fun v => (1%Qc, v)) (seq 0 n)) (map (Level k i) l) (map (q_levels m k) l).
Proof. induction l as [|p l IH]; cbn [map]; constructor; [reflexivity|exact IH]. Qed.
Lemma Csum_real {A} (f : A -> Qc) l : Csum (map (fun a => (f a, 0%Qc)) l) = (sumQ (map f l), 0%Qc).
Proof. induction l as [|a l IH]; [reflexivity|]. cbn [map]. rewrite Csum_cons, IH, sumQ_cons. unfold Cplus. cbn [fst snd]. f_equal. Qed.
Lemma expectation_one_copy (QM : quantum_model_of sc m) k i : k < nr_sources sc -> expectation sc m [(k, i)] (places_op []) = C1.
Proof.
  intros Hk. unfold expectation. rewrite total_is. cbn [flat_map]. rewrite app_nil_r. unfold copy_variables. cbn [fst snd]. rewrite ctot_cons. cbn [weights].
  transitivity (Csum (map (fun wv => (fst wv * sumQ (map (fun t => Cabs2 (q_state m k (snd wv) t)) (source_basis sc m k)), 0)%Qc) (q_value m k))).
  - apply Csum_ext. intros wv _. rewrite (ctot_levels D _ _ _ _ (levels_weights k i (holders sc k))). fold (source_basis sc m k).
    transitivity (Cmult (fst wv, 0%Qc) (sumQ (map (fun t => Cabs2 (q_state m k (snd wv) t)) (source_basis sc m k)), 0%Qc)); [|unfold Cmult; cbn [fst snd]; f_equal; ring]. f_equal. rewrite <- Csum_real. apply Csum_ext. intros t Ht.
    cbn [places_op fold_right]. unfold joint_state. cbn [map fold_right fst snd].
    set (u := set_levels _ _ t).
    assert (ND : NoDup (map (Level k i) (holders sc k))) by (apply ClassicalProofs.map_NoDup; [congruence|apply NoDup_filter, seq_NoDup]).
    assert (Lt : length t = length (map (Level k i) (holders sc k))) by (unfold source_basis in Ht; apply in_ndindex, ScenarioProofs.Forall2_len in Ht; rewrite map_length in *; exact Ht).
    assert (E1 : map (fun p => u (Level k i p)) (holders sc k) = t) by (rewrite <- (map_map (Level k i) u); apply set_read; assumption).
    assert (E2 : u (Value k i) = snd wv). { unfold u. rewrite set_notin by (intros X; apply in_map_iff in X as (p & X & _); discriminate). unfold assign. destruct (qvar_dec (Value k i) (Value k i)); [reflexivity|congruence]. }
    rewrite E1, E2. destruct (q_state m k (snd wv) t) as [a b]. unfold Cmult, Cconj, C1, Cabs2. cbn [fst snd]. f_equal; ring.
  - rewrite Csum_real. rewrite (qm_state _ _ QM k Hk). reflexivity.
Qed.
Lemma expectation_norm (QM : quantum_model_of sc m) cs : NoDup cs -> (forall ki, In ki cs -> fst ki < nr_sources sc) -> expectation sc m cs (places_op []) = C1.
Proof.
  induction cs as [|[k i] cs IH]; intros ND H.
  - unfold expectation. rewrite total_is. cbn [flat_map]. rewrite ctot_nil. cbn [places_op fold_right]. unfold joint_state. cbn [map fold_right]. unfold Cmult, Cconj, C1. cbn [fst snd]. f_equal; ring.
  - change (expectation sc m ((k, i) :: cs) (places_op ([] ++ [])) = C1). rewrite (expectation_split ((k, i) :: cs) [(k, i)] cs [] [] ND (Permutation_refl _)) by (intros q []). inversion ND as [|? ? _ ND']; subst. rewrite (IH ND') by (intros ki Hki; apply H; right; exact Hki).
    rewrite (expectation_one_copy QM k i (H _ (or_introl eq_refl))). ring.
Qed.
(** ** Renaming copies *)
Variables (tau : nat -> nat -> nat).
Definition rename (x : qvariable) : qvariable := match x with Value k i => Value k (tau k i) | Level k i p => Level k (tau k i) p end.
Definition recopy (ki : nat * nat) : nat * nat := (fst ki, tau (fst ki) (snd ki)).
Definition renames (q q' : place) : Prop :=
  pl_p q = pl_p q' /\ pl_x q = pl_x q' /\ pl_os q = pl_os q' /\ pl_o q = pl_o q' /\ forall k, In k (heard sc (pl_p q)) -> nth k (pl_c q') 0 = tau k (nth k (pl_c q) 0).
Variables (cs : list (nat * nat)) (ND : NoDup cs) (INJ : forall a b, In a cs -> In b cs -> recopy a = recopy b -> a = b).
Definition related (u u' : assignment) : Prop := forall x, In (copy_of x) cs -> u x = u' (rename x).
Lemma copy_rename x : copy_of (rename x) = recopy (copy_of x). Proof. destruct x; reflexivity. Qed.
Lemma rename_inj x y : In (copy_of x) cs -> In (copy_of y) cs -> rename x = rename y -> x = y.
Proof.
  intros Hx Hy E. assert (Q := f_equal copy_of E). rewrite !copy_rename in Q. apply INJ in Q; [|assumption|assumption]. destruct x as [k i|k i p], y as [k' i'|k' i' p']; cbn [rename copy_of] in *; try discriminate; congruence.
Qed.
Lemma pact_related q q' F F' : renames q q' -> uses cs q -> (forall u u', related u u' -> F u = F' u') -> forall u u', related u u' -> pact q F u = pact q' F' u'.
Proof.
  destruct q as [p c x os o], q' as [p' c' x' os' o']. unfold renames, uses, pact. cbn [pl_p pl_c pl_x pl_os pl_o]. intros (<- & <- & <- & <- & HC) U HF u u' R. unfold apply_effect.
  assert (EV : map u (values sc p c) = map u' (values sc p c')).
  { unfold values. rewrite !map_map. apply map_ext_in. intros k Hk. rewrite (R (Value k (nth k c 0)) (U k Hk)). cbn [rename]. rewrite (HC k Hk). reflexivity. }
  assert (SR : systems sc p c' = map rename (systems sc p c)).
  { unfold systems. rewrite map_map. apply map_ext_in. intros k Hk. cbn [rename]. rewrite (HC k (held_heard p k Hk)). reflexivity. }
  assert (SC : forall z, In z (systems sc p c) -> In (copy_of z) cs). { intros z Hz. apply in_systems in Hz as (k & Hk & ->). apply U, held_heard, Hk. }
  assert (ES : map u (systems sc p c) = map u' (systems sc p c')).
  { rewrite SR, map_map. apply map_ext_in. intros z Hz. apply R, SC, Hz. }
  rewrite EV, ES. apply Csum_ext. intros t Ht. f_equal. apply HF. intros z Hz. destruct (in_dec qvar_dec z (systems sc p c)) as [I|I].
  - apply In_nth_error in I as (j & I). rewrite (set_in _ _ _ j z (systems_NoDup sc p c) (systems_length sc m p c t Ht) I). rewrite (set_in _ _ _ j (rename z) (systems_NoDup sc p c') (systems_length sc m p c' t Ht)); [reflexivity|]. rewrite SR. apply map_nth_error, I.
  - rewrite set_notin by exact I. rewrite set_notin; [apply R, Hz|]. rewrite SR. intros I'. apply in_map_iff in I' as (z' & E & I'). apply rename_inj in E; [subst; contradiction|apply SC, I'|exact Hz].
Qed.
Lemma places_related l l' F F' : Forall2 renames l l' -> (forall q, In q l -> uses cs q) -> (forall u u', related u u' -> F u = F' u') -> forall u u', related u u' -> places_op l F u = places_op l' F' u'.
Proof.
  intros FR U HF. induction FR as [|q q' l l' HR FR IH]; [exact HF|]. apply pact_related; [exact HR|apply U; left; reflexivity|]. apply IH. intros q0 H0. apply U. right. exact H0.
Qed.
Lemma state_related u u' : related u u' -> Psi cs u = Psi (map recopy cs) u'.
Proof.
  intros R. unfold joint_state. rewrite map_map. f_equal. apply map_ext_in. intros [k i] H. unfold recopy. cbn [fst snd]. rewrite (R (Value k i) H). cbn [rename]. f_equal. apply map_ext. intros p. apply (R (Level k i p) H).
Qed.
Lemma vars_renamed : vars (map recopy cs) = map rename (vars cs).
Proof.
  clear ND INJ. induction cs as [|[k i] l IH]; [reflexivity|]. cbn [map flat_map]. rewrite map_app, <- IH. f_equal. unfold copy_variables, recopy. cbn [fst snd map rename]. f_equal. rewrite map_map. reflexivity.
Qed.
Lemma expectation_renamed l l' : Forall2 renames l l' -> (forall q, In q l -> uses cs q) -> expectation sc m cs (places_op l) = expectation sc m (map recopy cs) (places_op l').
Proof.
  intros FR U. unfold expectation. rewrite !total_is, vars_renamed. unfold ctot.
  assert (PT : forall u u', related u u' -> Cmult (Cconj (Psi cs u)) (places_op l (Psi cs) u) = Cmult (Cconj (Psi (map recopy cs) u')) (places_op l' (Psi (map recopy cs)) u')).
  { intros u u' R. rewrite (state_related u u' R). f_equal. apply places_related; [exact FR|exact U|apply state_related|exact R]. }
  (* all variables that matter *)
  assert (G : forall proj : C -> Qc, mean qvar_dec D (vars cs) (fun u => proj (Cmult (Cconj (Psi cs u)) (places_op l (Psi cs) u))) (fun _ => 0) =
     mean qvar_dec D (map rename (vars cs)) (fun u => proj (Cmult (Cconj (Psi (map recopy cs) u)) (places_op l' (Psi (map recopy cs)) u))) (fun _ => 0)).
  { intros proj. assert (IN : forall x, In x (vars cs) -> In (copy_of x) cs) by (intros x Hx; apply in_variables in Hx; apply Hx).
    assert (Q : forall L u u', (forall x, In x L -> In (copy_of x) cs) -> related u u' -> mean qvar_dec D L (fun u => proj (Cmult (Cconj (Psi cs u)) (places_op l (Psi cs) u))) u =
       mean qvar_dec D (map rename L) (fun u => proj (Cmult (Cconj (Psi (map recopy cs) u)) (places_op l' (Psi (map recopy cs)) u))) u').
    { induction L as [|x L IH]; intros u u' HL R; cbn [mean map]; [rewrite (PT u u' R); reflexivity|]. assert (ED : D (rename x) = D x) by (destruct x; reflexivity). rewrite ED. apply sumQ_ext. intros wv _. f_equal. apply IH; [intros y Hy; apply HL; right; exact Hy|].
      intros y Hy. unfold assign. destruct (qvar_dec y x) as [->|NE].
      - destruct (qvar_dec (rename x) (rename x)); [reflexivity|congruence].
      - destruct (qvar_dec (rename y) (rename x)) as [E|_]; [|apply R, Hy]. exfalso. apply NE. apply rename_inj; [exact Hy|apply HL; left; reflexivity|exact E]. }
    apply Q; [exact IN|intros x _; reflexivity]. }
  f_equal; apply G.
Qed.
End Split.
