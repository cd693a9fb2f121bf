(** Quantum models: operators. *)
From Coq Require Import Permutation QArith Qcanon List Arith Bool Lia.
From Verif Require Import CanonModel ScenarioModel ScenarioSpec MargModel QcSum CausalSpec MeanProofs QuantumSpec QuantumProofs QInflationSpec QModelSpec QMomentProofs QModelProofs.
From Verif Require ScenarioProofs ClassicalProofs.
Import ListNotations.
Close Scope Q_scope. Close Scope Qc_scope. Open Scope nat_scope.
Add Ring CringQM2 : C_ring.
Notation assignment := (qvariable -> nat).

(** ** Setting levels *)
Lemma set_notin l : forall u t x, ~ In x l -> set_levels u l t x = u x.
Proof.
  induction l as [|y l IH]; intros u t x H; [reflexivity|]. destruct t as [|v t]; [reflexivity|]. cbn [set_levels]. rewrite IH by (intros C; apply H; right; exact C).
  unfold assign. destruct (qvar_dec x y) as [->|]; [exfalso; apply H; left; reflexivity|reflexivity].
Qed.
Lemma set_in l : forall u t j x, NoDup l -> length t = length l -> nth_error l j = Some x -> set_levels u l t x = nth j t 0.
Proof.
  induction l as [|y l IH]; intros u t j x N E H; [destruct j; discriminate|]. destruct t as [|v t]; [discriminate|]. inversion N as [|? ? Ny Nl]; subst. cbn [set_levels]. destruct j as [|j].
  - cbn in H. assert (y = x) by congruence. subst y. rewrite set_notin by exact Ny. unfold assign. destruct (qvar_dec x x); [reflexivity|congruence].
  - cbn [nth_error nth] in *. apply IH; [exact Nl|cbn in E; lia|exact H].
Qed.
Lemma set_read l u t : NoDup l -> length t = length l -> map (set_levels u l t) l = t.
Proof.
  intros N E. apply (nth_ext _ _ 0 0); [rewrite map_length; congruence|]. intros j Hj. rewrite map_length in Hj. destruct (nth_error l j) as [x|] eqn:X; [|apply nth_error_None in X; lia].
  rewrite (nth_error_nth _ j 0 (map_nth_error (set_levels u l t) j _ X)). apply set_in; assumption.
Qed.
Lemma set_same l u u' t : NoDup l -> length t = length l -> (forall x, ~ In x l -> u x = u' x) -> forall x, set_levels u l t x = set_levels u' l t x.
Proof.
  intros N E H x. destruct (in_dec qvar_dec x l) as [I|I].
  - apply In_nth_error in I as (j & I). rewrite !(set_in l _ t j x N E I). reflexivity.
  - rewrite !set_notin by exact I. apply H, I.
Qed.
Lemma set_twice l u t t' : NoDup l -> length t' = length l -> forall x, set_levels (set_levels u l t) l t' x = set_levels u l t' x.
Proof. intros N E. apply set_same; [exact N|exact E|]. intros x H. apply set_notin, H. Qed.
Lemma set_swap l l' u t t' : NoDup l -> NoDup l' -> length t = length l -> length t' = length l' -> (forall x, In x l -> In x l' -> False) ->
  forall x, set_levels (set_levels u l t) l' t' x = set_levels (set_levels u l' t') l t x.
Proof.
  intros N N' E E' DJ x. destruct (in_dec qvar_dec x l) as [I|I], (in_dec qvar_dec x l') as [I'|I'].
  - destruct (DJ x I I').
  - rewrite (set_notin l') by exact I'. apply In_nth_error in I as (j & I). rewrite !(set_in l _ t j x N E I). reflexivity.
  - rewrite (set_notin l _ t) by exact I. apply In_nth_error in I' as (j & I'). rewrite !(set_in l' _ t' j x N' E' I'). reflexivity.
  - rewrite !set_notin by assumption. reflexivity.
Qed.
Lemma set_map (l l' : list qvariable) u t : (forall x, In x l' -> ~ In x l) -> map (set_levels u l t) l' = map u l'.
Proof. intros H. apply map_ext_in. intros x Hx. apply set_notin, H, Hx. Qed.

(** ** Tuples *)
Lemma in_ndindex sh : forall t, In t (ndindex sh) <-> Forall2 lt t sh.
Proof.
  induction sh as [|n sh IH]; intros t; cbn [ndindex].
  - split; [intros [<-|[]]; constructor|intros H; inversion H; left; reflexivity].
  - rewrite in_flat_map. split.
    + intros (i & Hi & Ht). apply in_map_iff in Ht as (t' & <- & Ht). apply in_seq in Hi. constructor; [lia|apply IH, Ht].
    + intros H. inversion H as [|i ? t' ? Hi Ht]; subst. exists i. split; [apply in_seq; lia|]. apply in_map, IH, Ht.
Qed.
Lemma ndindex_nodup sh : NoDup (ndindex sh).
Proof.
  induction sh as [|n sh IH]; cbn [ndindex]; [constructor; [intros []|constructor]|]. apply ClassicalProofs.NoDup_flat_map.
  - apply seq_NoDup.
  - intros i _. apply ClassicalProofs.map_NoDup; [congruence|exact IH].
  - intros i j t _ _ Hi Hj. apply in_map_iff in Hi as (t1 & <- & _). apply in_map_iff in Hj as (t2 & E & _). congruence.
Qed.
Lemma Csum_flat_map {A B} (f : A -> list B) (g : B -> C) l : Csum (map g (flat_map f l)) = Csum (map (fun a => Csum (map g (f a))) l).
Proof. induction l as [|a l IH]; [reflexivity|]. cbn [flat_map map]. rewrite map_app, Csum_app, IH, Csum_cons. reflexivity. Qed.
Lemma ctot_levels D l : forall (sh : list nat) g u, Forall2 (fun x n => D x = map (fun v => (1%Qc, v)) (seq 0 n)) l sh -> ctot D l g u = Csum (map (fun t => g (set_levels u l t)) (ndindex sh)).
Proof.
  induction l as [|x l IH]; intros sh g u H; inversion H as [|? n ? sh' Hx Hl]; subst.
  - rewrite ctot_nil. cbn [ndindex map]. rewrite Csum_cons, Csum_nil. cbn [set_levels]. ring.
  - rewrite ctot_cons, Hx. cbn [ndindex]. rewrite Csum_flat_map, map_map. apply Csum_ext. intros v _. cbn [fst snd]. rewrite (IH sh' g _ Hl), map_map. cbn [set_levels].
    set (Z := Csum _). change (1%Qc, 0%Qc) with C1. ring.
Qed.

Section Ops.
Variables (sc : scenario) (m : quantum_model) (QM : quantum_model_of sc m).
Notation N := (nr_parties sc).
Notation D := (weights m).
Notation basis := (party_basis sc m).
Notation sys := (systems sc).
Notation act := (apply_effect sc m).

Lemma in_held p k : In k (held sc p) <-> k < nr_sources sc /\ gives_system sc k p = true.
Proof. unfold held. rewrite filter_In, in_seq. split; intros [H1 H2]; (split; [lia|exact H2]). Qed.
Lemma in_holders p k : In p (holders sc k) <-> p < N /\ gives_system sc k p = true.
Proof. unfold holders. rewrite filter_In, in_seq. split; intros [H1 H2]; (split; [lia|exact H2]). Qed.
Lemma in_systems p c x : In x (sys p c) <-> exists k, In k (held sc p) /\ x = Level k (nth k c 0) p.
Proof. unfold systems. rewrite in_map_iff. split; intros (k & H1 & H2); exists k; auto. Qed.
Lemma systems_NoDup p c : NoDup (sys p c).
Proof. apply ClassicalProofs.map_NoDup; [congruence|]. apply NoDup_filter, seq_NoDup. Qed.
Lemma systems_length p c t : In t (basis p) -> length t = length (sys p c).
Proof. unfold party_basis. intros H. apply in_ndindex, ScenarioProofs.Forall2_len in H. rewrite map_length in H. unfold systems. rewrite map_length. exact H. Qed.
Lemma values_not_systems p c p' c' x : In x (values sc p c) -> ~ In x (sys p' c').
Proof. intros H I. apply in_map_iff in H as (k & <- & _). apply in_systems in I as (k' & _ & E). discriminate. Qed.
Lemma positive_levels k p : k < nr_sources sc -> In p (holders sc k) -> 1 <= q_levels m k p.
Proof.
  intros Hk Hp. destruct (q_levels m k p) as [|j] eqn:E; [|lia]. exfalso. assert (Q := qm_state _ _ QM k Hk).
  assert (B : source_basis sc m k = []).
  { destruct (source_basis sc m k) as [|t l] eqn:EB; [reflexivity|]. assert (I : In t (source_basis sc m k)) by (rewrite EB; left; reflexivity). unfold source_basis in I. apply in_ndindex in I.
    apply In_nth_error in Hp as (i & Hi). assert (S0 := map_nth_error (q_levels m k) i _ Hi). exfalso. clear - I S0 E. revert i S0. induction I as [|a n t sh La _ IH]; intros [|i] S0; cbn in S0; try discriminate; [|eapply IH; exact S0]. assert (n = 0) by congruence. lia. }
  rewrite B in Q. rewrite sumQ_zero in Q; [discriminate|]. intros wv _. cbn [map]. rewrite sumQ_nil. ring.
Qed.
(** assignments with levels in range *)
Definition ok (u : assignment) : Prop := forall k i p, k < nr_sources sc -> In p (holders sc k) -> u (Level k i p) < q_levels m k p.
Lemma ok_zero : ok (fun _ => 0).
Proof. intros k i p Hk Hp. assert (Q := positive_levels k p Hk Hp). lia. Qed.
Lemma ok_row u p c : ok u -> p < N -> In (map u (sys p c)) (basis p).
Proof.
  intros O Hp. unfold party_basis. apply in_ndindex. unfold systems. rewrite map_map. assert (H : forall k, In k (held sc p) -> u (Level k (nth k c 0) p) < q_levels m k p).
  { intros k Hk. apply in_held in Hk as [Hk G]. apply O; [exact Hk|]. apply in_holders. auto. }
  clear O. induction (held sc p) as [|k l IH]; cbn [map]; constructor; [apply H; left; reflexivity|apply IH; intros k' Hk'; apply H; right; exact Hk'].
Qed.
Lemma ok_set u p c t : ok u -> In t (basis p) -> ok (set_levels u (sys p c) t).
Proof.
  intros O Ht k i q Hk Hq. destruct (in_dec qvar_dec (Level k i q) (sys p c)) as [I|I]; [|rewrite set_notin by exact I; apply O; assumption].
  apply In_nth_error in I as (j & I). rewrite (set_in _ _ _ j _ (systems_NoDup p c) (systems_length p c t Ht) I). unfold systems in I.
  destruct (nth_error (held sc p) j) as [k'|] eqn:E.
  - rewrite (map_nth_error _ j _ E) in I. assert (k' = k) by congruence. assert (q = p) by congruence. subst k' q. unfold party_basis in Ht. apply in_ndindex in Ht.
    assert (S0 := map_nth_error (fun k => q_levels m k p) j _ E). clear - Ht S0. revert j S0. induction Ht as [|a n t sh La _ IH]; intros [|j] S0; cbn in S0; try discriminate; [|apply (IH j S0)]. assert (n = q_levels m k p) by congruence. subst n. exact La.
  - apply nth_error_None in E. assert (X : j < length (map (fun k => Level k (nth k c 0) p) (held sc p))) by (apply nth_error_Some; congruence). rewrite map_length in X. lia.
Qed.
Lemma ok_ranges l u u' : ok u -> ranges D l u u' -> ok u'.
Proof.
  intros O [R1 R2] k i p Hk Hp. destruct (in_dec qvar_dec (Level k i p) l) as [I|I]; [|rewrite R2 by exact I; apply O; assumption].
  specialize (R1 _ I). cbn [weights] in R1. rewrite map_map in R1. apply in_map_iff in R1 as (v & <- & Hv). apply in_seq in Hv. cbn [snd]. lia.
Qed.
Definition agrees (F G : vector) : Prop := forall u, ok u -> F u = G u.

(** ** The laws of the operators *)
Lemma act_ext p c x os o F : extensional F -> extensional (act p c x os o F).
Proof.
  intros EF u u' E. unfold apply_effect. rewrite (map_ext u u' E (values sc p c)), (map_ext u u' E (sys p c)). apply Csum_ext. intros t Ht. f_equal. apply EF. apply set_same; [apply systems_NoDup|apply systems_length, Ht|intros z _; apply E].
Qed.
Lemma act_agrees p c x os o F G : agrees F G -> agrees (act p c x os o F) (act p c x os o G).
Proof. intros H u O. unfold apply_effect. apply Csum_ext. intros t Ht. f_equal. apply H, ok_set; assumption. Qed.
(** one effect after another at the same place *)
Lemma act_twice p c x os o x' os' o' F u : extensional F -> ok u ->
  act p c x os o (act p c x' os' o' F) u = Csum (map (fun t' => Cmult (Csum (map (fun t => Cmult (q_effect m p (map u (values sc p c)) x os o (map u (sys p c)) t) (q_effect m p (map u (values sc p c)) x' os' o' t t')) (basis p))) (F (set_levels u (sys p c) t'))) (basis p)).
Proof.
  intros EF O. unfold apply_effect.
  transitivity (Csum (map (fun t => Csum (map (fun t' => Cmult (Cmult (q_effect m p (map u (values sc p c)) x os o (map u (sys p c)) t) (q_effect m p (map u (values sc p c)) x' os' o' t t')) (F (set_levels u (sys p c) t'))) (basis p))) (basis p))).
  - apply Csum_ext. intros t Ht. rewrite <- Csum_scale. apply Csum_ext. intros t' Ht'. rewrite set_read by (apply systems_NoDup || apply systems_length, Ht). rewrite (set_map (sys p c) (values sc p c)) by (intros z; apply values_not_systems).
    rewrite (EF _ _ (set_twice (sys p c) u t t' (systems_NoDup p c) (systems_length p c t' Ht'))). ring.
  - rewrite Csum_swap. apply Csum_ext. intros t' _. rewrite Csum_scale_r. reflexivity.
Qed.
Lemma act_projects p c x os o o' F u : p < N -> o < nth p (outcomes sc) 0 -> o' < nth p (outcomes sc) 0 -> extensional F -> ok u ->
  act p c x os o (act p c x os o' F) u = if o =? o' then act p c x os o F u else C0.
Proof.
  intros Hp Ho Ho' EF O. rewrite (act_twice p c x os o x os o' F u EF O).
  rewrite (Csum_ext (basis p) _ (fun t' => Cmult (if o =? o' then q_effect m p (map u (values sc p c)) x os o (map u (sys p c)) t' else C0) (F (set_levels u (sys p c) t')))).
  - destruct (o =? o'); [reflexivity|]. apply Csum_zero. intros. ring.
  - intros t' Ht'. rewrite (qm_projectors _ _ QM p _ x os o o' _ t' Hp Ho Ho' (ok_row u p c O Hp) Ht'). reflexivity.
Qed.
Lemma act_complete p c x os F u : p < N -> extensional F -> ok u -> Csum (map (fun o => act p c x os o F u) (seq 0 (nth p (outcomes sc) 0))) = F u.
Proof.
  intros Hp EF O. unfold apply_effect. rewrite Csum_swap.
  rewrite (Csum_ext (basis p) _ (fun t => if list_eq_dec Nat.eq_dec (map u (sys p c)) t then F (set_levels u (sys p c) t) else C0)).
  - rewrite (Csum_single (list_eq_dec Nat.eq_dec)).
    + apply EF. intros z. destruct (in_dec qvar_dec z (sys p c)) as [I|I]; [|apply set_notin, I]. apply In_nth_error in I as (j & I). rewrite (set_in _ _ _ j z (systems_NoDup p c)); [|apply map_length|exact I]. apply (nth_error_nth _ j 0 (map_nth_error u j _ I)).
    + apply ndindex_nodup.
    + apply ok_row; assumption.
  - intros t Ht. rewrite (Csum_scale_r (seq 0 (nth p (outcomes sc) 0)) (F (set_levels u (sys p c) t)) (fun o => q_effect m p (map u (values sc p c)) x os o (map u (sys p c)) t)).
    rewrite (qm_complete _ _ QM p _ x os _ t Hp (ok_row u p c O Hp) Ht). destruct (list_eq_dec Nat.eq_dec _ t); ring.
Qed.
Lemma act_commute p c x os o p' c' x' os' o' F u : (forall z, In z (sys p c) -> In z (sys p' c') -> False) -> extensional F ->
  act p c x os o (act p' c' x' os' o' F) u = act p' c' x' os' o' (act p c x os o F) u.
Proof.
  intros DJ EF. unfold apply_effect.
  transitivity (Csum (map (fun t => Csum (map (fun t' => Cmult (Cmult (q_effect m p (map u (values sc p c)) x os o (map u (sys p c)) t) (q_effect m p' (map u (values sc p' c')) x' os' o' (map u (sys p' c')) t')) (F (set_levels (set_levels u (sys p c) t) (sys p' c') t'))) (basis p'))) (basis p))).
  - apply Csum_ext. intros t Ht. rewrite <- Csum_scale. apply Csum_ext. intros t' Ht'. rewrite (set_map (sys p c) (values sc p' c')) by (intros z; apply values_not_systems). rewrite (set_map (sys p c) (sys p' c')) by (intros z I I'; exact (DJ z I' I)). ring.
  - rewrite Csum_swap. apply Csum_ext. intros t' Ht'. rewrite <- Csum_scale. apply Csum_ext. intros t Ht. rewrite (set_map (sys p' c') (values sc p c)) by (intros z; apply values_not_systems). rewrite (set_map (sys p' c') (sys p c)) by (intros z I I'; exact (DJ z I I')).
    rewrite (EF _ _ (set_swap (sys p c) (sys p' c') u t t' (systems_NoDup p c) (systems_NoDup p' c') (systems_length p c t Ht) (systems_length p' c' t' Ht') DJ)). ring.
Qed.
Lemma act_factor p c x os o (a F : vector) u : (forall t, In t (basis p) -> a (set_levels u (sys p c) t) = a u) -> act p c x os o (fun v => Cmult (a v) (F v)) u = Cmult (a u) (act p c x os o F u).
Proof. intros H. unfold apply_effect. rewrite <- Csum_scale. apply Csum_ext. intros t Ht. rewrite (H t Ht). ring. Qed.
Lemma act_zero p c x os o F : agrees F (fun _ => C0) -> agrees (act p c x os o F) (fun _ => C0).
Proof. intros H u O. unfold apply_effect. apply Csum_zero. intros t Ht. rewrite (H _ (ok_set u p c t O Ht)). ring. Qed.
Lemma systems_weights p c : Forall2 (fun x n => D x = map (fun v => (1%Qc, v)) (seq 0 n)) (sys p c) (map (fun k => q_levels m k p) (held sc p)).
Proof. unfold systems. induction (held sc p) as [|k l IH]; cbn [map]; constructor; [reflexivity|exact IH]. Qed.
Lemma act_adjoint p c x os o F G l u0 : p < N -> o < nth p (outcomes sc) 0 -> extensional F -> extensional G -> NoDup l -> (forall z, In z (sys p c) -> In z l) -> ok u0 ->
  ctot D l (fun u => Cmult (Cconj (act p c x os o F u)) (G u)) u0 = ctot D l (fun u => Cmult (Cconj (F u)) (act p c x os o G u)) u0.
Proof.
  intros Hp Ho EF EG NL IN O0. set (l' := filter (fun z => if in_dec qvar_dec z (sys p c) then false else true) l).
  assert (Pm : Permutation l (l' ++ sys p c)).
  { apply NoDup_Permutation; [exact NL| |].
    - apply ClassicalProofs.NoDup_app; [apply NoDup_filter, NL|apply systems_NoDup|]. intros z H1 H2. unfold l' in H1. apply filter_In in H1 as [_ H1]. destruct (in_dec qvar_dec z (sys p c)); [discriminate|contradiction].
    - intros z. rewrite in_app_iff. unfold l'. rewrite filter_In. destruct (in_dec qvar_dec z (sys p c)) as [I|I]; split; intros H; auto; intuition. }
  assert (X : forall A B : vector, extensional A -> extensional B -> extensional (fun u => Cmult (Cconj (A u)) (B u))) by (intros A B EA EB u1 u2 E; rewrite (EA u1 u2 E), (EB u1 u2 E); reflexivity).
  rewrite (ctot_perm_ext D l _ _ (X _ _ (act_ext p c x os o F EF) EG) Pm NL), (ctot_perm_ext D l _ _ (X _ _ EF (act_ext p c x os o G EG)) Pm NL). rewrite !ctot_app.
  apply ctot_ext_in; [apply ctot_extensional, X; [apply act_ext, EF|exact EG]|apply ctot_extensional, X; [exact EF|apply act_ext, EG]|]. intros u R.
  assert (O : ok u) by (eapply ok_ranges; eassumption). rewrite !(ctot_levels D (sys p c) _ _ u (systems_weights p c)). fold (basis p).
  set (F' := fun t => F (set_levels u (sys p c) t)). set (G' := fun t => G (set_levels u (sys p c) t)). set (E := q_effect m p (map u (values sc p c)) x os o).
  assert (AF : forall H : vector, extensional H -> forall t, In t (basis p) -> act p c x os o H (set_levels u (sys p c) t) = Csum (map (fun t' => Cmult (E t t') (H (set_levels u (sys p c) t'))) (basis p))).
  { intros H EH t Ht. unfold apply_effect. apply Csum_ext. intros t' Ht'. rewrite set_read by (apply systems_NoDup || apply systems_length, Ht). rewrite (set_map (sys p c) (values sc p c)) by (intros z; apply values_not_systems).
    rewrite (EH _ _ (set_twice (sys p c) u t t' (systems_NoDup p c) (systems_length p c t' Ht'))). reflexivity. }
  transitivity (Csum (map (fun t => Csum (map (fun t' => Cmult (Cmult (E t' t) (Cconj (F' t'))) (G' t)) (basis p))) (basis p))).
  - apply Csum_ext. intros t Ht. rewrite (AF F EF t Ht). rewrite Csum_conj, <- Csum_scale_r. apply Csum_ext. intros t' Ht'. rewrite conj_mult. unfold E. rewrite (qm_hermitian _ _ QM p _ x os o t t' Hp Ho Ht Ht'). unfold F', G'. ring.
  - rewrite Csum_swap. apply Csum_ext. intros t' Ht'. rewrite (AF G EG t' Ht'). rewrite <- Csum_scale. apply Csum_ext. intros t Ht. unfold F', G'. ring.
Qed.
End Ops.
