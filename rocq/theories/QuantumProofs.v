From Coq Require Import QArith Qcanon List Arith Lia.
From Verif Require Import CanonModel CanonSpec ScenarioModel ScenarioSpec ScenarioProofs SymModel ColumnModel ColumnSpec PhysSpec QuantumSpec.
Import ListNotations.
Open Scope nat_scope.

Lemma C_ring : ring_theory C0 C1 Cplus Cmult Cminus Copp (@eq C).
Proof.
  split; intros; (apply injective_projections; unfold C0, C1, Cminus, Cplus, Cmult, Copp; cbn [fst snd]; ring).
Qed.
Add Ring Cring : C_ring.
Lemma conj_plus a b : Cconj (Cplus a b) = Cplus (Cconj a) (Cconj b).
Proof. destruct a, b. unfold Cconj, Cplus. apply injective_projections; cbn [fst snd]; ring. Qed.
Lemma conj_mult a b : Cconj (Cmult a b) = Cmult (Cconj a) (Cconj b).
Proof. destruct a, b. unfold Cconj, Cmult. apply injective_projections; cbn [fst snd]; ring. Qed.
Lemma conj_minus a b : Cconj (Cminus a b) = Cminus (Cconj a) (Cconj b).
Proof. destruct a, b. unfold Cminus, Cconj, Cplus, Copp. apply injective_projections; cbn [fst snd]; ring. Qed.
Lemma conj_conj a : Cconj (Cconj a) = a.
Proof. destruct a. unfold Cconj. apply injective_projections; cbn [fst snd]; ring. Qed.
Lemma conj_0 : Cconj C0 = C0. Proof. unfold Cconj, C0. apply injective_projections; cbn [fst snd]; ring. Qed.
Lemma conj_1 : Cconj C1 = C1. Proof. unfold Cconj, C1. apply injective_projections; cbn [fst snd]; ring. Qed.
Lemma ctwo_ext f g : (forall a, a < 2 -> f a = g a) -> ctwo f = ctwo g.
Proof. intros H. unfold ctwo. rewrite !H by lia. reflexivity. Qed.
Lemma lt2 a (Q : nat -> Prop) : Q 0 -> Q 1 -> a < 2 -> Q a.
Proof. intros. destruct a as [|[|a]]; [assumption..|lia]. Qed.

Definition veq (v v' : vec) : Prop := forall x1 x2 y1 y2, x1 < 2 -> x2 < 2 -> y1 < 2 -> y2 < 2 -> v x1 x2 y1 y2 = v' x1 x2 y1 y2.
Lemma veq_refl v : veq v v. Proof. repeat intro. reflexivity. Qed.
Lemma veq_sym v v' : veq v v' -> veq v' v. Proof. intros H x1 x2 y1 y2 ? ? ? ?. symmetry. apply H; assumption. Qed.
Lemma veq_trans u v w : veq u v -> veq v w -> veq u w.
Proof. intros H H' x1 x2 y1 y2 ? ? ? ?. rewrite H by assumption. apply H'; assumption. Qed.
Definition vzero : vec := fun _ _ _ _ => C0.

Lemma act_ext i j M M' v v' : (forall x y a b, x < 2 -> y < 2 -> a < 2 -> b < 2 -> M x y a b = M' x y a b) -> veq v v' -> veq (act i j M v) (act i j M' v').
Proof.
  intros HM H x1 x2 y1 y2 L1 L2 L3 L4. unfold act. apply ctwo_ext; intros a Ha. apply ctwo_ext; intros b Hb.
  rewrite HM by (destruct (i =? 1), (j =? 1); assumption). rewrite H by (destruct (i =? 1), (j =? 1); assumption). reflexivity.
Qed.
Lemma act_zero i j M v : veq v vzero -> veq (act i j M v) vzero.
Proof.
  intros H x1 x2 y1 y2 L1 L2 L3 L4. unfold act, ctwo. rewrite !H by (destruct (i =? 1), (j =? 1); first [assumption|lia]). unfold vzero. ring.
Qed.
(** matrix product *)
Definition mmul (M N : mat) : mat := fun x y a b => ctwo (fun c => ctwo (fun d => Cmult (M x y c d) (N c d a b))).
Lemma act_mul i j M N v : veq (act i j M (act i j N v)) (act i j (mmul M N) v).
Proof.
  intros x1 x2 y1 y2 L1 L2 L3 L4. unfold act, mmul, ctwo. destruct (i =? 1), (j =? 1); ring.
Qed.
Lemma act_comm i j i' j' M N v : (i =? 1) <> (i' =? 1) -> (j =? 1) <> (j' =? 1) -> veq (act i j M (act i' j' N v)) (act i' j' N (act i j M v)).
Proof.
  intros Hi Hj x1 x2 y1 y2 L1 L2 L3 L4. unfold act, ctwo. destruct (i =? 1), (i' =? 1), (j =? 1), (j' =? 1); try congruence; ring.
Qed.

Section P.
Variable P : mat.
Hypothesis HP : is_projector P.
Lemma meas_herm o x y a b : x < 2 -> y < 2 -> a < 2 -> b < 2 -> measurement P o a b x y = Cconj (measurement P o x y a b).
Proof.
  intros L1 L2 L3 L4. unfold measurement. destruct (o =? 0); [apply HP; assumption|]. rewrite conj_minus, (proj1 HP x y a b) by assumption.
  rewrite (Nat.eqb_sym a), (Nat.eqb_sym b). destruct ((x =? a) && (y =? b)); [rewrite conj_1|rewrite conj_0]; reflexivity.
Qed.
Lemma meas_mul o o' x y a b : x < 2 -> y < 2 -> a < 2 -> b < 2 ->
  mmul (measurement P o) (measurement P o') x y a b = if Bool.eqb (o =? 0) (o' =? 0) then measurement P o x y a b else C0.
Proof.
  intros L1 L2 L3 L4. pose proof (proj2 HP x y a b L1 L2 L3 L4) as I. unfold mmul, measurement.
  destruct (o =? 0), (o' =? 0); cbn [Bool.eqb]; [exact I| | |].
  - transitivity (Cminus (ctwo (fun c => ctwo (fun d => Cmult (P x y c d) (if (c =? a) && (d =? b) then C1 else C0)))) (P x y a b)).
    + rewrite <- I. unfold ctwo. ring.
    + unfold ctwo. revert L3 L4. intros L3. pattern a. revert L3. apply lt2; intros L4; pattern b; revert L4; apply lt2; cbn [Nat.eqb andb]; ring.
  - transitivity (Cminus (ctwo (fun c => ctwo (fun d => Cmult (if (x =? c) && (y =? d) then C1 else C0) (P c d a b)))) (P x y a b)).
    + rewrite <- I. unfold ctwo. ring.
    + clear I. unfold ctwo. revert L1 L2. intros L1. pattern x. revert L1. apply lt2; intros L2; pattern y; revert L2; apply lt2; cbn [Nat.eqb andb]; ring.
  - transitivity (Cplus (ctwo (fun c => ctwo (fun d => Cmult (if (x =? c) && (y =? d) then C1 else C0) (if (c =? a) && (d =? b) then C1 else C0))))
      (Cminus (P x y a b) (Cplus (ctwo (fun c => ctwo (fun d => Cmult (P x y c d) (if (c =? a) && (d =? b) then C1 else C0)))) (ctwo (fun c => ctwo (fun d => Cmult (if (x =? c) && (y =? d) then C1 else C0) (P c d a b))))))).
    + rewrite <- I. unfold ctwo. ring.
    + clear I. unfold ctwo. revert L1 L2 L3 L4. intros L1. pattern x. revert L1. apply lt2; intros L2; pattern y; revert L2; apply lt2;
      intros L3; pattern a; revert L3; apply lt2; intros L4; pattern b; revert L4; apply lt2; cbn [Nat.eqb andb]; ring.
Qed.

(** ** the operators *)
Definition oi (k : nat) : nat := 1 + k / 4.
Definition oj (k : nat) : nat := 1 + (k / 2) mod 2.
Definition oo (k : nat) : nat := k mod 2.
Lemma op_out k v : 8 <= k -> operator P (S k) v = vzero.
Proof.
  intros H. unfold operator. assert (E : nth_error (lexorder q_sc) k = None) by (apply nth_error_None; vm_compute; lia). rewrite E. reflexivity.
Qed.
Lemma below8 (Q : nat -> Prop) k : Q 0 -> Q 1 -> Q 2 -> Q 3 -> Q 4 -> Q 5 -> Q 6 -> Q 7 -> k < 8 -> Q k.
Proof. intros. do 8 (destruct k as [|k]; [assumption|]). lia. Qed.
Lemma op_in k v : k < 8 -> operator P (S k) v = act (oi k) (oj k) (measurement P (oo k)) v.
Proof. intros H. pattern k. revert H. apply below8; reflexivity. Qed.
Lemma operator_ext k v v' : veq v v' -> veq (operator P k v) (operator P k v').
Proof.
  intros H. destruct k as [|k]; [apply veq_refl|]. destruct (Nat.lt_ge_cases k 8) as [Hk|Hk].
  - rewrite !op_in by exact Hk. apply act_ext; [reflexivity|exact H].
  - rewrite !op_out by exact Hk. apply veq_refl.
Qed.
Lemma operator_zero k v : veq v vzero -> veq (operator P k v) vzero.
Proof.
  intros H. destruct k as [|k]; [apply veq_refl|]. destruct (Nat.lt_ge_cases k 8) as [Hk|Hk].
  - rewrite op_in by exact Hk. apply act_zero, H.
  - rewrite op_out by exact Hk. apply veq_refl.
Qed.
Definition same_site k k' := (oi k =? oi k') && (oj k =? oj k').
Definition other_sites k k' := negb (oi k =? oi k') && negb (oj k =? oj k').
Lemma nc_check : forallb (fun k => forallb (fun k' => sdp_notcomm q_sc (S k) (S k') || same_site k k' || (negb (Bool.eqb (oi k =? 1) (oi k' =? 1)) && negb (Bool.eqb (oj k =? 1) (oj k' =? 1)))) (seq 0 8)) (seq 0 8) = true.
Proof. vm_compute. reflexivity. Qed.
Lemma ortho_check : forallb (fun k => forallb (fun k' => negb (sdp_orthomat q_sc (S k) (S k')) || (same_site k k' && negb (Bool.eqb (oo k =? 0) (oo k' =? 0)))) (seq 0 8)) (seq 0 8) = true.
Proof. vm_compute. reflexivity. Qed.
Lemma same_site_eq k k' : same_site k k' = true -> oi k = oi k' /\ oj k = oj k'.
Proof. unfold same_site. rewrite andb_true_iff, !Nat.eqb_eq. auto. Qed.
Lemma meas_swap o o' v i j : veq (act i j (measurement P o) (act i j (measurement P o') v)) (act i j (measurement P o') (act i j (measurement P o) v)).
Proof.
  eapply veq_trans; [apply act_mul|]. eapply veq_trans; [|apply veq_sym, act_mul]. apply act_ext; [|apply veq_refl].
  intros x y a b L1 L2 L3 L4. rewrite !meas_mul by assumption. destruct (o =? 0) eqn:E, (o' =? 0) eqn:E'; cbn [Bool.eqb]; try reflexivity; unfold measurement; rewrite E, E'; reflexivity.
Qed.
Lemma operator_comm a b v : sdp_notcomm q_sc a b = false -> veq (operator P a (operator P b v)) (operator P b (operator P a v)).
Proof.
  intros H. destruct a as [|a]; [apply veq_sym, operator_zero, veq_refl|]. destruct b as [|b]; [apply operator_zero, veq_refl|].
  destruct (Nat.lt_ge_cases a 8) as [Ha|Ha]; [|rewrite !(op_out a) by exact Ha; apply veq_sym, operator_zero, veq_refl].
  destruct (Nat.lt_ge_cases b 8) as [Hb|Hb]; [|rewrite !(op_out b) by exact Hb; apply operator_zero, veq_refl].
  rewrite !op_in by assumption. pose proof nc_check as K. rewrite forallb_forall in K. specialize (K a ltac:(apply in_seq; lia)).
  rewrite forallb_forall in K. specialize (K b ltac:(apply in_seq; lia)). rewrite H in K. cbn [orb] in K. apply orb_true_iff in K as [K|K].
  - apply same_site_eq in K as [-> ->]. apply meas_swap.
  - apply andb_true_iff in K as [K1 K2]. apply negb_true_iff, Bool.eqb_false_iff in K1, K2. apply act_comm; assumption.
Qed.
Lemma operator_idem a v : veq (operator P a (operator P a v)) (operator P a v).
Proof.
  destruct a as [|a]; [apply veq_refl|]. destruct (Nat.lt_ge_cases a 8) as [Ha|Ha]; [|rewrite !(op_out a) by exact Ha; apply veq_refl].
  rewrite !op_in by exact Ha. eapply veq_trans; [apply act_mul|]. apply act_ext; [|apply veq_refl].
  intros x y c d L1 L2 L3 L4. rewrite meas_mul by assumption. rewrite Bool.eqb_reflx. reflexivity.
Qed.
Lemma ortho_out k k' : 8 <= k -> sdp_orthomat q_sc (S k) (S k') = false.
Proof.
  intros H. unfold sdp_orthomat. cbn [Nat.eqb orb]. assert (E : nth_error (sdp_lexorder q_sc) (S k) = None) by (apply nth_error_None; vm_compute; lia).
  rewrite E. reflexivity.
Qed.
Lemma operator_ortho a b v : sdp_orthomat q_sc a b = true -> veq (operator P a (operator P b v)) vzero.
Proof.
  intros H. destruct a as [|a]; [apply veq_refl|]. destruct b as [|b]; [apply operator_zero, veq_refl|].
  destruct (Nat.lt_ge_cases a 8) as [Ha|Ha]; [|rewrite ortho_out in H by exact Ha; discriminate].
  destruct (Nat.lt_ge_cases b 8) as [Hb|Hb]; [|rewrite (op_out b) by exact Hb; apply operator_zero, veq_refl].
  pose proof ortho_check as K. rewrite forallb_forall in K. specialize (K a ltac:(apply in_seq; lia)).
  rewrite forallb_forall in K. specialize (K b ltac:(apply in_seq; lia)). rewrite H in K. cbn [negb orb] in K. apply andb_true_iff in K as [K1 K2].
  rewrite !op_in by assumption. apply same_site_eq in K1 as [-> ->]. apply negb_true_iff in K2.
  eapply veq_trans; [apply act_mul|]. intros x1 x2 y1 y2 L1 L2 L3 L4. unfold act, ctwo.
  rewrite !meas_mul by (destruct (oi b =? 1), (oj b =? 1); first [assumption|lia]). rewrite K2. unfold vzero. ring.
Qed.
Lemma product_app u w v : product P (u ++ w) v = product P u (product P w v).
Proof. apply fold_right_app. Qed.
Lemma product_ext w v v' : veq v v' -> veq (product P w v) (product P w v').
Proof. intros H. induction w as [|a w IH]; [exact H|]. apply operator_ext, IH. Qed.
Lemma product_zero w v : veq v vzero -> veq (product P w v) vzero.
Proof. intros H. induction w as [|a w IH]; [exact H|]. apply operator_zero, IH. Qed.
Lemma product_respects u w : proj_eq (sdp_notcomm q_sc) (sdp_orthomat q_sc) u w -> forall v, veq (product P u v) (product P w v).
Proof.
  induction 1 as [w|u w _ IH|u w z _ IH1 _ IH2|u a b w H|u a w|u a b w H|u w]; intros v.
  - apply veq_refl.
  - apply veq_sym, IH.
  - eapply veq_trans; [apply IH1|apply IH2].
  - rewrite !product_app. apply product_ext. apply (operator_comm a b (product P w v) H).
  - rewrite !product_app. apply product_ext. apply (operator_idem a (product P w v)).
  - rewrite product_app. eapply veq_trans; [apply product_zero, (operator_ortho a b (product P w v) H)|]. apply veq_refl.
  - rewrite product_app. eapply veq_trans; [apply product_zero, veq_refl|]. apply veq_refl.
Qed.
(** ** inner product *)
Definition inner (u v : vec) : C := ctwo (fun x1 => ctwo (fun x2 => ctwo (fun y1 => ctwo (fun y2 => Cmult (Cconj (u x1 x2 y1 y2)) (v x1 x2 y1 y2))))).
Lemma inner_ext u u' v v' : veq u u' -> veq v v' -> inner u v = inner u' v'.
Proof. intros H H'. unfold inner. do 4 (apply ctwo_ext; intros ? ?). rewrite H, H' by assumption. reflexivity. Qed.
Lemma conj_ctwo f : Cconj (ctwo f) = ctwo (fun a => Cconj (f a)).
Proof. apply conj_plus. Qed.
Lemma act_adjoint i j M u v : (forall x y a b, x < 2 -> y < 2 -> a < 2 -> b < 2 -> M a b x y = Cconj (M x y a b)) -> inner (act i j M u) v = inner u (act i j M v).
Proof.
  intros H. unfold inner, act.
  transitivity (ctwo (fun x1 => ctwo (fun x2 => ctwo (fun y1 => ctwo (fun y2 => Cmult (ctwo (fun a => ctwo (fun b =>
    Cmult (M a b (if i =? 1 then x1 else x2) (if j =? 1 then y1 else y2))
      (Cconj (u (if i =? 1 then a else x1) (if i =? 1 then x2 else a) (if j =? 1 then b else y1) (if j =? 1 then y2 else b)))))) (v x1 x2 y1 y2)))))).
  { do 4 (apply ctwo_ext; intros ? ?). f_equal. rewrite conj_ctwo. apply ctwo_ext; intros ? ?. rewrite conj_ctwo. apply ctwo_ext; intros ? ?. rewrite conj_mult.
    f_equal. symmetry. apply H; destruct (i =? 1), (j =? 1); assumption. }
  unfold ctwo. destruct (i =? 1), (j =? 1); ring.
Qed.
Lemma operator_adjoint k u v : inner (operator P k u) v = inner u (operator P k v).
Proof.
  assert (Z : inner vzero v = inner u vzero).
  { unfold inner, ctwo, vzero. rewrite !conj_0. ring. }
  destruct k as [|k]; [exact Z|]. destruct (Nat.lt_ge_cases k 8) as [Hk|Hk]; [|rewrite !op_out by exact Hk; exact Z].
  rewrite !op_in by exact Hk. apply act_adjoint. intros. apply meas_herm; assumption.
Qed.
Lemma product_adjoint w : forall u v, inner (product P w u) v = inner u (product P (rev w) v).
Proof.
  induction w as [|a w IH]; intros u v; [reflexivity|]. change (product P (a :: w) u) with (operator P a (product P w u)).
  rewrite operator_adjoint, IH. cbn [rev]. rewrite product_app. reflexivity.
Qed.
Lemma inner_ground v : inner ground v = v 0 0 0 0.
Proof. unfold inner, ctwo, ground. cbn [Nat.add Nat.eqb]. rewrite conj_1, conj_0. ring. Qed.
Lemma inner_nonneg v : (0 <= fst (inner v v))%Qc.
Proof.
  assert (Q2 : forall q : Qc, (0 <= q * q)%Qc).
  { intros q. destruct (Qclt_le_dec q 0) as [Hq|Hq].
    - replace (q * q)%Qc with ((- q) * (- q))%Qc by ring. assert (Hn : (0 <= - q)%Qc) by (apply Qcopp_le_compat in Hq || (apply Qclt_le_weak, Qcopp_le_compat in Hq); replace (-0)%Qc with 0%Qc in Hq by ring; exact Hq).
      replace 0%Qc with (0 * - q)%Qc by ring. apply Qcmult_le_compat_r; exact Hn.
    - replace 0%Qc with (0 * q)%Qc at 1 by ring. apply Qcmult_le_compat_r; exact Hq. }
  assert (N : forall c : C, (0 <= fst (Cmult (Cconj c) c))%Qc).
  { intros [a b]. unfold Cmult, Cconj. cbn [fst snd]. replace (a * a - - b * b)%Qc with (a * a + b * b)%Qc by ring.
    replace 0%Qc with (0 + 0)%Qc by ring. apply Qcplus_le_compat; apply Q2. }
  assert (T : forall f, (forall a, 0 <= fst (f a))%Qc -> (0 <= fst (ctwo f))%Qc).
  { intros f Hf. unfold ctwo, Cplus. cbn [fst]. replace 0%Qc with (0 + 0)%Qc by ring. apply Qcplus_le_compat; apply Hf. }
  unfold inner. do 4 (apply T; intros ?). apply N.
Qed.
Theorem value_state : state (sdp_notcomm q_sc) (sdp_orthomat q_sc) (value P).
Proof.
  split.
  - intros u v H. unfold value. f_equal. apply product_respects; [exact H|lia..].
  - reflexivity.
  - intros u. unfold value. rewrite product_app, <- inner_ground, <- product_adjoint. apply inner_nonneg.
Qed.
End P.

(** ** a projector that makes the value of a Hermitian moment negative *)
Definition vs (x y : nat) : C := match x, y with 0, 1 => C1 | 1, 0 => Copp C1 | _, _ => C0 end.
Definition qz (z : Z) : Qc := Q2Qc (inject_Z z).
Definition vt (x y : nat) : C :=
  match x, y with 0, 0 => (qz (-2), 0%Qc) | 0, 1 | 1, 0 => (qz 2, qz (-3)) | 1, 1 => (qz 2, qz 4) | _, _ => C0 end.
Definition scale (q : Qc) (c : C) : C := (q * fst c, q * snd c)%Qc.
(** the projector on the span of (0,1,-1,0) and (-2, 2-3i, 2-3i, 2+4i) *)
Definition qP : mat := fun x y a b =>
  Cplus (scale (Q2Qc (1 # 2)) (Cmult (vs x y) (Cconj (vs a b)))) (scale (Q2Qc (1 # 50)) (Cmult (vt x y) (Cconj (vt a b)))).
Definition Ceqb (a b : C) : bool := Qc_eq_bool (fst a) (fst b) && Qc_eq_bool (snd a) (snd b).
Lemma Ceqb_true a b : Ceqb a b = true -> a = b.
Proof. unfold Ceqb. rewrite andb_true_iff. intros [H1 H2]. apply injective_projections; apply Qc_eq_bool_correct; assumption. Qed.
Definition all4 (f : nat -> nat -> nat -> nat -> bool) : bool :=
  forallb (fun x => forallb (fun y => forallb (fun a => forallb (f x y a) [0; 1]) [0; 1]) [0; 1]) [0; 1].
Lemma all4_true f : all4 f = true -> forall x y a b, x < 2 -> y < 2 -> a < 2 -> b < 2 -> f x y a b = true.
Proof.
  unfold all4. intros H x y a b H1 H2 H3 H4. assert (I : forall k, k < 2 -> In k [0; 1]) by (intros [|[|k]] Hk; cbn; auto; lia).
  rewrite forallb_forall in H. specialize (H x (I x H1)). rewrite forallb_forall in H. specialize (H y (I y H2)).
  rewrite forallb_forall in H. specialize (H a (I a H3)). rewrite forallb_forall in H. apply (H b (I b H4)).
Qed.
Lemma qP_projector : is_projector qP.
Proof.
  split; intros x y a b H1 H2 H3 H4; apply Ceqb_true.
  - revert x y a b H1 H2 H3 H4. apply all4_true. vm_compute. reflexivity.
  - revert x y a b H1 H2 H3 H4. apply all4_true. vm_compute. reflexivity.
Qed.
Definition qw : word := [1; 3; 5; 7].
Lemma qw_value : value qP qw = Q2Qc (- 304 # 625000).
Proof. apply Qc_eq_bool_correct. vm_compute. reflexivity. Qed.
Lemma q_wf : wf_scenario q_sc.
Proof.
  split; [reflexivity|reflexivity| |reflexivity| |]; cbn.
  - intros; intuition subst; cbn in *; intuition lia.
  - intros; intuition lia.
  - intros [|p] H; [|lia]. eexists. split; [left; reflexivity|]. left. cbn. auto.
Qed.

(** ** the value does not change when copies of a source are exchanged *)
Definition swapv (s1 s2 : bool) (v : vec) : vec := fun x1 x2 y1 y2 =>
  v (if s1 then x2 else x1) (if s1 then x1 else x2) (if s2 then y2 else y1) (if s2 then y1 else y2).
Definition sw (s : bool) (i : nat) : nat := if s then 3 - i else i.
Lemma act_swap s1 s2 i j M v x1 x2 y1 y2 : 1 <= i <= 2 -> 1 <= j <= 2 ->
  act (sw s1 i) (sw s2 j) M (swapv s1 s2 v) x1 x2 y1 y2 = swapv s1 s2 (act i j M v) x1 x2 y1 y2.
Proof.
  intros Hi Hj. assert (i = 1 \/ i = 2) as [-> | ->] by lia; assert (j = 1 \/ j = 2) as [-> | ->] by lia; destruct s1, s2; reflexivity.
Qed.
Definition swk (s1 s2 : bool) (k : nat) : nat := (sw s1 (oi k) - 1) * 4 + (sw s2 (oj k) - 1) * 2 + oo k.
Lemma syms_check : forallb (fun g => existsb (fun s => forallb (fun k => nth k g 0 =? match k with 0 => 0 | S k' => S (swk (fst s) (snd s) k') end) (seq 0 9))
   [(false, false); (false, true); (true, false); (true, true)]) (sdp_lexorder_symmetries q_sc) = true.
Proof. vm_compute. reflexivity. Qed.
Lemma sw_check : forallb (fun s => forallb (fun k => (swk (fst s) (snd s) k <? 8) && (oi (swk (fst s) (snd s) k) =? sw (fst s) (oi k)) && (oj (swk (fst s) (snd s) k) =? sw (snd s) (oj k)) && (oo (swk (fst s) (snd s) k) =? oo k)) (seq 0 8))
   [(false, false); (false, true); (true, false); (true, true)] = true.
Proof. vm_compute. reflexivity. Qed.
Theorem value_symmetric P g w : In g (sdp_lexorder_symmetries q_sc) -> (forall x, In x w -> x < 9) -> value P (apply_lexsym g w) = value P w.
Proof.
  intros Hg Hw. pose proof syms_check as K. rewrite forallb_forall in K. specialize (K g Hg). apply existsb_exists in K as ((s1, s2) & Hs & K).
  cbn [fst snd] in K. rewrite forallb_forall in K.
  pose proof sw_check as K2. rewrite forallb_forall in K2. specialize (K2 (s1, s2) Hs). cbn [fst snd] in K2. rewrite forallb_forall in K2.
  assert (E : veq (product P (apply_lexsym g w) ground) (swapv s1 s2 (product P w ground))).
  { induction w as [|k w IH].
    - intros x1 x2 y1 y2 _ _ _ _. cbn. unfold swapv, ground. destruct s1, s2; replace (x2 + x1 + y1 + y2) with (x1 + x2 + y1 + y2) by lia;
      try replace (x2 + x1 + y2 + y1) with (x1 + x2 + y1 + y2) by lia; try replace (x1 + x2 + y2 + y1) with (x1 + x2 + y1 + y2) by lia; reflexivity.
    - specialize (IH ltac:(intros; apply Hw; right; assumption)). specialize (Hw k (or_introl eq_refl)). specialize (K k ltac:(apply in_seq; lia)).
      apply Nat.eqb_eq in K. change (apply_lexsym g (k :: w)) with (nth k g 0 :: apply_lexsym g w). rewrite K.
      change (product P (k :: w) ground) with (operator P k (product P w ground)).
      change (product P ((match k with 0 => 0 | S k' => S (swk s1 s2 k') end) :: apply_lexsym g w) ground) with (operator P (match k with 0 => 0 | S k' => S (swk s1 s2 k') end) (product P (apply_lexsym g w) ground)).
      eapply veq_trans; [apply operator_ext, IH|]. destruct k as [|k]; [intros x1 x2 y1 y2 _ _ _ _; reflexivity|].
      specialize (K2 k ltac:(apply in_seq; lia)). rewrite !andb_true_iff, Nat.ltb_lt, !Nat.eqb_eq in K2. destruct K2 as (((L8 & Ei) & Ej) & Eo).
      rewrite !op_in by lia. rewrite Ei, Ej, Eo. intros x1 x2 y1 y2 _ _ _ _. apply act_swap.
      + clear -Hw. unfold oi. pattern k. assert (H : k < 8) by lia. clear Hw. revert H. apply below8; cbn; lia.
      + clear -Hw. unfold oj. pattern k. assert (H : k < 8) by lia. clear Hw. revert H. apply below8; cbn; lia. }
  unfold value. f_equal. rewrite E by lia. unfold swapv. destruct s1, s2; reflexivity.
Qed.
