(** Quantum models: products of operators of the inflation. *)
From Coq Require Import Permutation QArith Qcanon List Arith Bool Lia.
From Verif Require Import CanonModel CanonSpec ScenarioModel ScenarioSpec SymSpec MargModel QcSum CausalSpec MeanProofs QuantumSpec QuantumProofs QInflationSpec NormSpec QModelSpec QMomentProofs QModelProofs QModelProofs2.
From Verif Require ScenarioProofs ClassicalProofs SymProofs QMomentProofs7 ClassicalMoments.
Import ListNotations.
Close Scope Q_scope. Close Scope Qc_scope. Open Scope nat_scope.
Add Ring CringQM3 : C_ring.

Section Words.
Variables (sc : scenario) (W : wf_scenario sc) (m : quantum_model) (QM : quantum_model_of sc m).
Notation N := (nr_parties sc).
Notation n := (length (lexorder sc)).
Notation D := (weights m).
Notation act := (apply_effect sc m).
Notation ok := (ok sc m).
Notation agrees := (agrees sc m).
Definition vzero : vector := fun _ => C0.
(** the operator with a given index (0 is the zero operator) *)
Definition op (x : nat) (F : vector) : vector :=
  match x with
  | 0 => vzero
  | S i => match nth_error (lexorder sc) i with
           | None => vzero
           | Some r => match assoc (effective_to_parent sc (row_party r - 1)) (row_setting r) with
                       | Some (y :: os) => act (row_party r - 1) (row_copies r) y os (row_outcome r) F
                       | _ => vzero
                       end
           end
  end.
Definition word_op (w : word) (F : vector) : vector := fold_right op F w.
Lemma op_row i p c s o y os F : nth_error (lexorder sc) i = Some (mkrow (p + 1) c s o) -> assoc (effective_to_parent sc p) s = Some (y :: os) -> op (S i) F = act p c y os o F.
Proof.
  intros E A. cbn [op]. rewrite E, ScenarioProofs.mkrow_party, ScenarioProofs.mkrow_setting, ScenarioProofs.mkrow_copies, ScenarioProofs.mkrow_outcome. replace (p + 1 - 1) with p by lia. rewrite A. reflexivity.
Qed.
Lemma op_cases x : (forall F, op x F = vzero) \/ exists i p c s o y os, x = S i /\ nth_error (lexorder sc) i = Some (mkrow (p + 1) c s o) /\ valid_operator sc p c s o /\
  assoc (effective_to_parent sc p) s = Some (y :: os) /\ forall F, op x F = act p c y os o F.
Proof.
  destruct x as [|i]; [left; reflexivity|]. destruct (nth_error (lexorder sc) i) as [r|] eqn:E; [|left; intros F; cbn [op]; rewrite E; reflexivity]. right.
  assert (Li : i < n) by (apply nth_error_Some; congruence). destruct (SymProofs.lexorder_parts sc i W Li) as (p & c & s & o & E' & V). destruct (ClassicalProofs.setting_parts sc p s ltac:(apply V)) as (y & os & A & _).
  exists i, p, c, s, o, y, os. split; [reflexivity|]. split; [congruence|]. split; [exact V|]. split; [exact A|]. intros F. apply (op_row i p c s o); assumption.
Qed.
Lemma vzero_ext : extensional vzero. Proof. intros u u' _. reflexivity. Qed.
Lemma op_ext x F : extensional F -> extensional (op x F).
Proof. intros EF. destruct (op_cases x) as [H|(i & p & c & s & o & y & os & _ & _ & _ & _ & H)]; rewrite H; [apply vzero_ext|apply act_ext, EF]. Qed.
Lemma op_agrees x F G : agrees F G -> agrees (op x F) (op x G).
Proof. intros A. destruct (op_cases x) as [H|(i & p & c & s & o & y & os & _ & _ & _ & _ & H)]; rewrite !H; [intros u _; reflexivity|apply act_agrees; assumption]. Qed.
Lemma op_zero x F : agrees F vzero -> agrees (op x F) vzero.
Proof. intros A. destruct (op_cases x) as [H|(i & p & c & s & o & y & os & _ & _ & _ & _ & H)]; rewrite !H; [intros u _; reflexivity|apply act_zero; assumption]. Qed.
Lemma valid_same_copies p c s o c' s' o' : valid_operator sc p c s o -> valid_operator sc p c' s' o' ->
  (forall k src, nth_error (sources sc) k = Some src -> reaches src p -> nth k c 0 = nth k c' 0) -> c = c'.
Proof.
  intros (_ & L1 & V1 & _) (_ & L2 & V2 & _) H. apply SymProofs.list_ext; [congruence|]. intros k Hk. rewrite L1 in Hk.
  destruct (nth_error (sources sc) k) as [src|] eqn:E; [|apply nth_error_None in E; unfold nr_sources in Hk; lia]. assert (HR := ScenarioProofs.hypergraph_reaches sc k p src E).
  destruct (hypergraph sc k p) eqn:Q.
  - apply (H k src E). apply HR. reflexivity.
  - assert (NR : ~ reaches src p) by (intros C; apply HR in C; congruence). rewrite (proj2 (V1 k src E) NR), (proj2 (V2 k src E) NR). reflexivity.
Qed.
Lemma held_joins p k : In k (held sc p) -> exists src, nth_error (sources sc) k = Some src /\ joins_quantum src p p.
Proof.
  intros H. apply in_held in H as [_ G]. unfold gives_system in G. destruct (nth_error (sources sc) k) as [src|] eqn:E; [|discriminate]. exists src. split; [reflexivity|].
  apply andb_prop in G as [G1 G2]. apply negb_true_iff in G1. split; [exact G1|]. apply orb_prop in G2 as [G2|G2].
  - left. split; [reflexivity|]. apply ScenarioProofs.memb_in, G2.
  - right. apply existsb_exists in G2 as (l & Hl & G2). apply andb_prop in G2 as [G2 G3]. apply ScenarioProofs.memb_in in G3. exists l. auto.
Qed.
Lemma op_commute a b F u : sdp_notcomm sc a b = false -> extensional F -> ok u -> op a (op b F) u = op b (op a F) u.
Proof.
  intros NC EF O. destruct (op_cases a) as [Ha|(i & p & c & s & o & y & os & -> & Ei & V & A & Ha)].
  { rewrite !Ha. symmetry. rewrite (op_zero b vzero (fun u _ => eq_refl) u O). reflexivity. }
  destruct (op_cases b) as [Hb|(j & p' & c' & s' & o' & y' & os' & -> & Ej & V' & A' & Hb)].
  { rewrite !Hb. rewrite (op_zero (S i) vzero (fun u _ => eq_refl) u O). reflexivity. }
  rewrite !Ha, !Hb. assert (CR : commute_rule sc p c s p' c' s').
  { apply (ScenarioProofs.default_notcomm_spec sc i j p c s o p' c' s' o' W Ei Ej). exact NC. }
  destruct (Nat.eq_dec p p') as [<-|NP].
  2:{ apply act_commute; [|exact EF]. intros z Hz Hz'. apply in_systems in Hz as (k & _ & ->). apply in_systems in Hz' as (k' & _ & E). congruence. }
  destruct CR as [CR|[CR [X|<-]]].
  - apply act_commute; [|exact EF]. intros z Hz Hz'. apply in_systems in Hz as (k & Hk & ->). apply in_systems in Hz' as (k' & _ & E). assert (k' = k) by congruence. subst k'. destruct (held_joins p k Hk) as (src & Es & J). apply (CR k src Es J). congruence.
  - congruence.
  - assert (c' = c).
    { symmetry. apply (valid_same_copies p c s o c' s o' V V'). intros k src Es [R|(l & Hl & R)]; apply (CR k src Es); [left; auto|right; exists l; auto]. }
    subst c'. assert (y' = y) by congruence. assert (os' = os) by congruence. subst y' os'.
    assert (Hp : p < N) by apply V. assert (Ho : o < nth p (outcomes sc) 0) by apply V. assert (Ho' : o' < nth p (outcomes sc) 0) by apply V'.
    rewrite (act_projects sc m QM p c y os o o' F u Hp Ho Ho' EF O), (act_projects sc m QM p c y os o' o F u Hp Ho' Ho EF O). rewrite (Nat.eqb_sym o' o). destruct (Nat.eqb_spec o o') as [->|]; reflexivity.
Qed.
Lemma op_idem a F u : extensional F -> ok u -> op a (op a F) u = op a F u.
Proof.
  intros EF O. destruct (op_cases a) as [Ha|(i & p & c & s & o & y & os & -> & Ei & V & A & Ha)]; rewrite !Ha; [reflexivity|]. rewrite (act_projects sc m QM p c y os o o F u) by (assumption || apply V). rewrite Nat.eqb_refl. reflexivity.
Qed.
Lemma op_ortho a b F u : sdp_orthomat sc a b = true -> extensional F -> ok u -> op a (op b F) u = C0.
Proof.
  intros H EF O. destruct (op_cases a) as [Ha|(i & p & c & s & o & y & os & -> & Ei & V & A & Ha)]; [rewrite Ha; reflexivity|].
  destruct (op_cases b) as [Hb|(j & p' & c' & s' & o' & y' & os' & -> & Ej & V' & A' & Hb)]; [rewrite Hb; apply (op_zero (S i) vzero (fun u _ => eq_refl) u O)|].
  rewrite Ha, Hb. apply ScenarioProofs.sdp_ortho_S in H as (ra & rb & Ea & Eb & _ & NE & RM). assert (ra = mkrow (p + 1) c s o) by congruence. assert (rb = mkrow (p' + 1) c' s' o') by congruence. subst ra rb. rewrite !ScenarioProofs.mkrow_outcome in NE.
  assert (R1 : forall p c s o, removelast (mkrow (p + 1) c s o) = (p + 1) :: c ++ [s]).
  { clear. intros p c s o. unfold mkrow. replace ((p + 1) :: c ++ [s; o]) with (((p + 1) :: c ++ [s]) ++ [o]) by (cbn [app]; rewrite <- app_assoc; reflexivity). apply removelast_last. }
  rewrite !R1 in RM. assert (p' = p) by (injection RM; lia). assert (Q : c ++ [s] = c' ++ [s']) by (injection RM; auto). apply app_inj_tail in Q as [-> ->]. subst p'.
  assert (y' = y) by congruence. assert (os' = os) by congruence. subst y' os'. rewrite (act_projects sc m QM p c' y os o o' F u) by (assumption || apply V || apply V'). apply Nat.eqb_neq in NE. rewrite NE. reflexivity.
Qed.
Lemma word_app v w F : word_op (v ++ w) F = word_op v (word_op w F). Proof. apply fold_right_app. Qed.
Lemma word_ext w F : extensional F -> extensional (word_op w F).
Proof. intros EF. induction w as [|a w IH]; [exact EF|]. apply op_ext, IH. Qed.
Lemma word_agrees w F G : agrees F G -> agrees (word_op w F) (word_op w G).
Proof. intros A. induction w as [|a w IH]; [exact A|]. apply op_agrees, IH. Qed.
Lemma word_zero w F : agrees F vzero -> agrees (word_op w F) vzero.
Proof. intros A. induction w as [|a w IH]; [exact A|]. apply op_zero, IH. Qed.
Lemma word_equal v w : proj_eq (sdp_notcomm sc) (sdp_orthomat sc) v w -> forall F, extensional F -> agrees (word_op v F) (word_op w F).
Proof.
  induction 1 as [w|w w' _ IH|w1 w2 w3 _ IH1 _ IH2|w a b v NC|w a v|w a b v H|w v]; intros F EF.
  - intros u _. reflexivity.
  - intros u O. symmetry. apply IH; assumption.
  - intros u O. rewrite (IH1 F EF u O). apply IH2; assumption.
  - rewrite !word_app. apply word_agrees. intros u O. apply op_commute; [exact NC|apply word_ext, EF|exact O].
  - rewrite !word_app. apply word_agrees. intros u O. apply op_idem; [apply word_ext, EF|exact O].
  - rewrite word_app. apply word_zero. intros u O. apply op_ortho; [exact H|apply word_ext, EF|exact O].
  - rewrite word_app. apply word_zero. intros u O. reflexivity.
Qed.

(** ** All copies *)
Definition all_copies : list (nat * nat) := flat_map (fun k => map (fun i => (k, i)) (seq 1 (nth k (levels sc) 0))) (seq 0 (nr_sources sc)).
Notation vars := (flat_map (copy_variables sc)).
Lemma in_all k i : In (k, i) all_copies <-> k < nr_sources sc /\ 1 <= i <= nth k (levels sc) 0.
Proof.
  unfold all_copies. rewrite in_flat_map. split.
  - intros (k' & Hk & H). apply in_map_iff in H as (i' & E & H). assert (k' = k) by congruence. assert (i' = i) by congruence. subst. apply in_seq in Hk, H. lia.
  - intros [Hk Hi]. exists k. split; [apply in_seq; lia|]. apply in_map_iff. exists i. split; [reflexivity|]. apply in_seq. lia.
Qed.
Lemma all_NoDup : NoDup all_copies.
Proof.
  apply ClassicalProofs.NoDup_flat_map; [apply seq_NoDup|intros k _; apply ClassicalProofs.map_NoDup; [congruence|apply seq_NoDup]|].
  intros k k' b _ _ H H'. apply in_map_iff in H as (i & <- & _). apply in_map_iff in H' as (i' & E & _). congruence.
Qed.
Definition copy_of (x : qvariable) : nat * nat := match x with Value k i => (k, i) | Level k i _ => (k, i) end.
Lemma in_copy x ki : In x (copy_variables sc ki) <-> copy_of x = ki /\ match x with Value _ _ => True | Level k _ p => In p (holders sc k) end.
Proof.
  destruct ki as [k i]. unfold copy_variables. cbn [fst snd]. cbn [In]. rewrite in_map_iff. split.
  - intros [<-|(p & <- & Hp)]; cbn [copy_of]; auto.
  - destruct x as [k' i'|k' i' p]; cbn [copy_of]; intros [E H].
    + left. congruence.
    + right. assert (k' = k) by congruence. assert (i' = i) by congruence. subst. exists p. auto.
Qed.
Lemma in_variables x cs : In x (vars cs) <-> In (copy_of x) cs /\ match x with Value _ _ => True | Level k _ p => In p (holders sc k) end.
Proof.
  rewrite in_flat_map. split.
  - intros (ki & H & Hx). apply in_copy in Hx as [<- Hx]. auto.
  - intros [H Hx]. exists (copy_of x). split; [exact H|]. apply in_copy. auto.
Qed.
Lemma variables_NoDup cs : NoDup cs -> NoDup (vars cs).
Proof.
  intros NC. apply ClassicalProofs.NoDup_flat_map; [exact NC| |].
  - intros [k i] _. constructor; [intros H; apply in_map_iff in H as (p & E & _); discriminate|]. apply ClassicalProofs.map_NoDup; [cbn [fst snd]; congruence|]. apply NoDup_filter, seq_NoDup.
  - intros a b x _ _ Ha Hb. apply in_copy in Ha as [<- _]. apply in_copy in Hb as [<- _]. reflexivity.
Qed.
Lemma state_ext cs : extensional (joint_state sc m cs).
Proof. intros u u' E. unfold joint_state. f_equal. apply map_ext. intros ki. rewrite E. f_equal. apply map_ext. intros p. apply E. Qed.
Lemma integrand_ext (F G : vector) : extensional F -> extensional G -> extensional (fun u => Cmult (Cconj (F u)) (G u)).
Proof. intros EF EG u u' E. rewrite (EF u u' E), (EG u u' E). reflexivity. Qed.
Definition pairing (cs : list (nat * nat)) (F G : vector) : C := total m (vars cs) (fun u => Cmult (Cconj (F u)) (G u)).
Lemma total_is l g : total m l g = ctot D l g (fun _ => 0). Proof. reflexivity. Qed.
Lemma pairing_agrees cs F F' G G' : extensional F -> extensional F' -> extensional G -> extensional G' -> agrees F F' -> agrees G G' -> pairing cs F G = pairing cs F' G'.
Proof.
  intros EF EF' EG EG' AF AG. unfold pairing. rewrite !total_is. apply ctot_ext_in; try (apply integrand_ext; assumption). intros u R. assert (O : ok u) by (eapply ok_ranges; [apply ok_zero, QM|exact R]). rewrite (AF u O), (AG u O). reflexivity.
Qed.
Lemma systems_in cs p c s o : valid_operator sc p c s o -> (forall k, In k (held sc p) -> In (k, nth k c 0) cs) -> forall z, In z (systems sc p c) -> In z (vars cs).
Proof.
  intros V H z Hz. apply in_systems in Hz as (k & Hk & ->). apply in_variables. cbn [copy_of]. split; [apply H, Hk|]. apply in_held in Hk as [_ G]. apply in_holders. split; [apply V|exact G].
Qed.
Lemma held_copy p c s o k : valid_operator sc p c s o -> In k (held sc p) -> In (k, nth k c 0) all_copies.
Proof.
  intros V Hk. assert (Hk' := Hk). apply in_held in Hk' as [Lk _]. destruct (held_joins p k Hk) as (src & Es & (_ & J)). apply in_all. split; [exact Lk|]. apply (proj1 (proj2 (proj2 V)) k src Es). destruct J as [[_ J]|(l & Hl & _ & J & _)]; [left; exact J|right; exists l; auto].
Qed.
(** the copies that an operator acts on are among [cs] *)
Definition within (cs : list (nat * nat)) (x : nat) : Prop := match x with 0 => True | S i => forall r, nth_error (lexorder sc) i = Some r -> forall k, nth k (row_copies r) 0 <> 0 -> In (k, nth k (row_copies r) 0) cs end.
Lemma within_systems cs i p c s o : within cs (S i) -> nth_error (lexorder sc) i = Some (mkrow (p + 1) c s o) -> valid_operator sc p c s o -> forall z, In z (systems sc p c) -> In z (vars cs).
Proof.
  intros Wi E V. apply (systems_in cs p c s o V). intros k Hk. specialize (Wi _ E k). rewrite ScenarioProofs.mkrow_copies in Wi. apply Wi. assert (H := held_copy p c s o k V Hk). apply in_all in H. lia.
Qed.
Lemma within_all x : within all_copies x.
Proof.
  destruct x as [|i]; [exact Logic.I|]. intros r E k Hk. assert (Li : i < n) by (apply nth_error_Some; congruence). destruct (SymProofs.lexorder_parts sc i W Li) as (p & c & s & o & E' & V).
  assert (r = mkrow (p + 1) c s o) by congruence. subst r. rewrite ScenarioProofs.mkrow_copies in *. apply in_all. assert (Lc : length c = nr_sources sc) by apply V.
  assert (Lk : k < nr_sources sc) by (destruct (Nat.lt_ge_cases k (nr_sources sc)); [assumption|rewrite nth_overflow in Hk by lia; congruence]). split; [exact Lk|]. assert (B := SymProofs.valid_copy sc p c s o k W V Lk). lia.
Qed.
Lemma op_adjoint cs x F G : NoDup cs -> within cs x -> extensional F -> extensional G -> pairing cs (op x F) G = pairing cs F (op x G).
Proof.
  intros NC Wx EF EG. unfold pairing. rewrite !total_is. destruct (op_cases x) as [H|(i & p & c & s & o & y & os & -> & Ei & V & A & H)]; rewrite !H.
  - apply ctot_ext. intros u. unfold vzero. rewrite conj_0. ring.
  - apply (act_adjoint sc m QM); [apply V|apply V|exact EF|exact EG|apply variables_NoDup, NC| |apply ok_zero, QM]. apply (within_systems cs i p c s o Wx Ei V).
Qed.
Lemma word_adjoint cs w : NoDup cs -> (forall x, In x w -> within cs x) -> forall F G, extensional F -> extensional G -> pairing cs (word_op w F) G = pairing cs F (word_op (rev w) G).
Proof.
  intros NC. induction w as [|a w IH]; intros Wx F G EF EG; [reflexivity|]. change (word_op (a :: w) F) with (op a (word_op w F)). cbn [rev]. rewrite word_app. change (word_op [a] G) with (op a G).
  rewrite (op_adjoint cs a) by (try assumption; try (apply Wx; left; reflexivity); apply word_ext, EF). rewrite IH; [reflexivity|intros x Hx; apply Wx; right; exact Hx|exact EF|apply op_ext, EG].
Qed.
Lemma pairing_conj cs F G : Cconj (pairing cs F G) = pairing cs G F.
Proof.
  unfold pairing. rewrite !total_is, ctot_conj. apply ctot_ext. intros u. rewrite conj_mult, conj_conj. ring.
Qed.
Definition qmean (w : word) : C := expectation sc m all_copies (word_op w).
Lemma qmean_is w : qmean w = pairing all_copies (joint_state sc m all_copies) (word_op w (joint_state sc m all_copies)). Proof. reflexivity. Qed.
Notation Psi := (joint_state sc m all_copies).
Lemma qmean_equal v w : proj_eq (sdp_notcomm sc) (sdp_orthomat sc) v w -> qmean v = qmean w.
Proof.
  intros E. rewrite !qmean_is. apply pairing_agrees; try apply state_ext; try (apply word_ext, state_ext); [intros u _; reflexivity|]. apply word_equal; [exact E|apply state_ext].
Qed.
Lemma qmean_zero : qmean [0] = C0.
Proof.
  rewrite qmean_is. unfold pairing. rewrite total_is. cbn [word_op fold_right op]. rewrite (ctot_ext D _ _ (fun u => Cmult C0 (Cconj (Psi u)))) by (intros u; unfold vzero; ring). rewrite ctot_scale. ring.
Qed.
Lemma qmean_conjugate w : qmean (rev w) = Cconj (qmean w).
Proof.
  rewrite !qmean_is, pairing_conj. symmetry. rewrite (word_adjoint all_copies w all_NoDup) by (try apply state_ext; intros x _; apply within_all). reflexivity.
Qed.
Lemma qmean_normalised p c s g v w : is_measurement sc p c s g -> Csum (map (fun a => qmean (v ++ a :: w)) g) = qmean (v ++ w).
Proof.
  intros [E NE]. rewrite qmean_is.
  assert (Q : forall u, ok u -> Csum (map (fun a => op a (word_op w Psi) u) g) = word_op w Psi u).
  { intros u O. set (k := nth p (outcomes sc) 0) in *. 
    assert (H0 : exists i p0 s0 o0, nth_error (lexorder sc) i = Some (mkrow (p + 1) c s o0) /\ valid_operator sc p0 c s0 o0 /\ p0 = p /\ s0 = s).
    { destruct g as [|a0 g']; [contradiction|]. destruct k as [|k']; [discriminate|]. cbn [map seq] in E. assert (E0 : nth_error (sdp_lexorder sc) a0 = Some (mkrow (p + 1) c s 0)) by congruence.
      destruct a0 as [|i]; cbn [sdp_lexorder nth_error] in E0.
      - exfalso. assert (X : zero_row sc = mkrow (p + 1) c s 0) by congruence. apply (f_equal row_party) in X. rewrite ScenarioProofs.mkrow_party in X. cbn in X. lia.
      - assert (Li : i < n) by (apply nth_error_Some; congruence). destruct (SymProofs.lexorder_parts sc i W Li) as (p' & c' & s' & o' & E' & V). assert (X : mkrow (p + 1) c s 0 = mkrow (p' + 1) c' s' o') by congruence. apply ScenarioProofs.mkrow_inj in X as (X1 & -> & -> & <-).
        exists i, p', s', 0. split; [exact E0|]. split; [exact V|]. split; [lia|reflexivity]. }
    destruct H0 as (_ & p0 & s0 & o0 & _ & V & -> & ->). destruct (ClassicalProofs.setting_parts sc p s ltac:(apply V)) as (y & os & A & _).
    rewrite <- (act_complete sc m QM p c y os (word_op w Psi) u ltac:(apply V) (word_ext w _ (state_ext _)) O). fold k.
    clear NE. revert E. generalize (seq 0 k). induction g as [|a g IH]; intros l E; destruct l as [|o l]; cbn [map] in *; try discriminate; [reflexivity|]. rewrite !Csum_cons.
    assert (Ea : nth_error (sdp_lexorder sc) a = Some (mkrow (p + 1) c s o)) by congruence. assert (El : map (nth_error (sdp_lexorder sc)) g = map (fun o => Some (mkrow (p + 1) c s o)) l) by congruence. rewrite (IH l El). f_equal.
    destruct a as [|i]; cbn [sdp_lexorder nth_error] in Ea.
    - exfalso. assert (X : zero_row sc = mkrow (p + 1) c s o) by congruence. apply (f_equal row_party) in X. rewrite ScenarioProofs.mkrow_party in X. cbn in X. lia.
    - rewrite (op_row i p c s o y os _ Ea A). reflexivity. }
  rewrite (Csum_ext g _ (fun a => ctot D (vars all_copies) (fun u => Cmult (Cconj (Psi u)) (word_op (v ++ a :: w) Psi u)) (fun _ => 0))) by (intros; rewrite qmean_is; reflexivity).
  rewrite <- ctot_sum. unfold pairing. rewrite total_is. apply ctot_ext_in.
  - intros u u' H. apply Csum_ext. intros a _. rewrite (state_ext _ u u' H), (word_ext (v ++ a :: w) _ (state_ext _) u u' H). reflexivity.
  - apply integrand_ext; [apply state_ext|apply word_ext, state_ext].
  - intros u R. assert (O : ok u) by (eapply ok_ranges; [apply ok_zero, QM|exact R]). rewrite Csum_scale. f_equal. clear R. rewrite word_app. revert u O. induction v as [|b v IH]; intros u O.
    + apply Q, O.
    + cbn [word_op fold_right app]. fold (word_op (v ++ w) Psi). transitivity (op b (fun u => Csum (map (fun a => word_op (v ++ a :: w) Psi u) g)) u).
      * clear IH. destruct (op_cases b) as [H|(i & p' & c' & s' & o & y & os & -> & Ei & V & A & H)].
        { rewrite H. apply Csum_zero. intros a _. change (word_op ((b :: v) ++ a :: w) Psi u) with (op b (word_op (v ++ a :: w) Psi) u). rewrite H. reflexivity. }
        rewrite H. unfold apply_effect. rewrite (Csum_ext g _ (fun a => act p' c' y os o (word_op (v ++ a :: w) Psi) u)) by (intros a _; change (word_op ((S i :: v) ++ a :: w) Psi u) with (op (S i) (word_op (v ++ a :: w) Psi) u); rewrite H; reflexivity).
        unfold apply_effect. rewrite Csum_swap. apply Csum_ext. intros t _. rewrite Csum_scale. reflexivity.
      * apply op_agrees; [|exact O]. intros u' O'. rewrite IH by exact O'. reflexivity.
Qed.
(** ** Positivity *)
Lemma weights_nonneg cs x wv : (forall ki, In ki cs -> fst ki < nr_sources sc) -> In x (vars cs) -> In wv (D x) -> (0 <= fst wv)%Qc.
Proof.
  intros H Hx Hw. apply in_variables in Hx as [Hx _]. specialize (H _ Hx). destruct x as [k i|k i p]; cbn [weights copy_of fst] in *; [eapply qm_weights; eassumption|]. apply in_map_iff in Hw as (v & <- & _). cbn [fst]. discriminate.
Qed.
Lemma mean_nonneg l (g : assignment -> Qc) : (forall x wv, In x l -> In wv (D x) -> (0 <= fst wv)%Qc) -> (forall u, (0 <= g u)%Qc) -> forall u, (0 <= mean qvar_dec D l g u)%Qc.
Proof.
  intros H Hg. induction l as [|x l IH]; intros u; cbn [mean]; [apply Hg|]. apply sumQ_nonneg. intros wv Hw. assert (P := H x wv (or_introl eq_refl) Hw).
  replace 0%Qc with (0 * mean qvar_dec D l g (assign qvar_dec u x (snd wv)))%Qc by ring. apply Qcmult_le_compat_r; [exact P|]. apply IH. intros y z Hy. apply H. right. exact Hy.
Qed.
Lemma regroup (a b c d : C) : Cmult (Cmult a b) (Cmult c d) = Cmult (Cmult a c) (Cmult b d). Proof. ring. Qed.
Lemma qmean_positive (l : list (C * word)) :
  (0 <= fst (Csum (map (fun p => Csum (map (fun q => Cmult (Cmult (Cconj (fst p)) (fst q)) (qmean (rev (snd p) ++ snd q))) l)) l)))%Qc.
Proof.
  set (X := fun u : assignment => Csum (map (fun q => Cmult (fst q) (word_op (snd q) Psi u)) l)).
  assert (E : Csum (map (fun p => Csum (map (fun q => Cmult (Cmult (Cconj (fst p)) (fst q)) (qmean (rev (snd p) ++ snd q))) l)) l) = ctot D (vars all_copies) (fun u => Cmult (Cconj (X u)) (X u)) (fun _ => 0)).
  { transitivity (Csum (map (fun p => Csum (map (fun q => ctot D (vars all_copies) (fun u => Cmult (Cconj (Cmult (fst p) (word_op (snd p) Psi u))) (Cmult (fst q) (word_op (snd q) Psi u))) (fun _ => 0)) l)) l)).
    - apply Csum_ext. intros p _. apply Csum_ext. intros q _. rewrite qmean_is, word_app.
      assert (AD := word_adjoint all_copies (snd p) all_NoDup (fun x _ => within_all x) Psi (word_op (snd q) Psi) (state_ext _) (word_ext _ _ (state_ext _))). rewrite <- AD.
      unfold pairing. rewrite total_is, <- ctot_scale. apply ctot_ext. intros u. rewrite conj_mult. apply regroup.
    - rewrite (Csum_ext l _ (fun p => ctot D (vars all_copies) (fun u => Csum (map (fun q => Cmult (Cconj (Cmult (fst p) (word_op (snd p) Psi u))) (Cmult (fst q) (word_op (snd q) Psi u))) l)) (fun _ => 0))) by (intros p _; rewrite ctot_sum; reflexivity).
      rewrite <- ctot_sum. apply ctot_ext. intros u. unfold X. rewrite Csum_conj, <- Csum_scale_r. apply Csum_ext. intros p _. rewrite Csum_scale. reflexivity. }
  rewrite E. cbn [ctot fst]. unfold ctot. cbn [fst]. apply mean_nonneg.
  - intros x wv. apply weights_nonneg. intros [k i] H. apply in_all in H. apply H.
  - intros u. unfold Cmult, Cconj. cbn [fst snd]. set (a := fst (X u)). set (b := snd (X u)). replace (a * a - - b * b)%Qc with (a * a + b * b)%Qc by ring. replace 0%Qc with (0 + 0)%Qc by ring. apply Qcplus_le_compat; apply ClassicalMoments.square_nonneg.
Qed.
End Words.
