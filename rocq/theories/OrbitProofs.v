From Coq Require Import Permutation Sorted.
From Verif Require Import OrbitModel OrbitSpec ScenarioProofs UniqueProofs.

Lemma neqb_spec x y : Nat.eqb x y = true <-> x = y.
Proof. apply Nat.eqb_eq. Qed.

(** ** np.unique with index and inverse *)
Section Uniq.
Variable l : list nat.
Let u := unique_values l.
Lemma uv_in x : In x u <-> In x l.
Proof. apply np_unique_in, nat_good_cmp. Qed.
Lemma uv_NoDup : NoDup u.
Proof. apply np_unique_NoDup, nat_good_cmp. Qed.
Lemma uv_SS : StronglySorted lt u.
Proof.
  pose proof (np_unique_sorted Nat.compare nat_good_cmp l) as H. fold (unique_values l) in H. fold u in H. revert H. generalize u. intros v H. clear u. induction H as [|x v H IH F]; constructor; [exact IH|].
  rewrite Forall_forall in *. intros y Hy. apply Nat.compare_lt_iff, F, Hy.
Qed.
Lemma uv_mono i j : i < length u -> j < length u -> (nth i u 0 <= nth j u 0 <-> i <= j).
Proof.
  intros Hi Hj. destruct (Nat.lt_trichotomy i j) as [H|[->|H]].
  - pose proof (SS_nth lt _ uv_SS i j (nth i u 0) (nth j u 0) H ltac:(apply nth_error_nth'; exact Hi) ltac:(apply nth_error_nth'; exact Hj)). lia.
  - lia.
  - pose proof (SS_nth lt _ uv_SS j i (nth j u 0) (nth i u 0) H ltac:(apply nth_error_nth'; exact Hj) ltac:(apply nth_error_nth'; exact Hi)). lia.
Qed.
Lemma up_length : length (unique_pos l) = length u.
Proof. unfold unique_pos. apply map_length. Qed.
Lemma up_spec j : j < length u -> nth j (unique_pos l) 0 < length l /\ nth (nth j (unique_pos l) 0) l 0 = nth j u 0 /\
  nth j (unique_pos l) 0 = index_of Nat.eqb (nth j u 0) l.
Proof.
  intros Hj. unfold unique_pos. fold u. rewrite (nth_indep _ 0 (index_of Nat.eqb 0 l)) by (rewrite map_length; exact Hj).
  rewrite (map_nth (fun v => index_of Nat.eqb v l)). 
  destruct (index_of_in Nat.eqb neqb_spec (nth j u 0) l 0) as [H1 H2]; [apply uv_in, nth_In, Hj|]. auto.
Qed.
Lemma ui_spec i : i < length l -> nth i (unique_inv l) 0 < length u /\ nth (nth i (unique_inv l) 0) u 0 = nth i l 0.
Proof.
  intros Hi. unfold unique_inv. fold u. rewrite (nth_indep _ 0 (index_of Nat.eqb 0 u)) by (rewrite map_length; exact Hi).
  rewrite (map_nth (fun v => index_of Nat.eqb v u)). apply (index_of_in Nat.eqb neqb_spec). apply uv_in, nth_In, Hi.
Qed.
Lemma ui_up j : j < length u -> nth (nth j (unique_pos l) 0) (unique_inv l) 0 = j.
Proof.
  intros Hj. destruct (up_spec j Hj) as (H1 & H2 & _). destruct (ui_spec _ H1) as [H3 H4]. rewrite H2 in H4.
  apply (proj1 (NoDup_nth u 0) uv_NoDup); assumption.
Qed.
Lemma index_first x k : nth k l 0 = x -> k < length l -> index_of Nat.eqb x l <= k.
Proof.
  clear u. revert k. induction l as [|y l' IH]; intros k H Hk; [cbn in Hk; lia|]. cbn. destruct (Nat.eqb_spec x y); [lia|].
  destruct k as [|k]; cbn in H; [congruence|]. cbn in Hk. specialize (IH k H ltac:(lia)). lia.
Qed.
End Uniq.

(** ** the abstract merging loop *)
Section Abs.
Variables (K : nat) (acts : list (nat -> nat)).
Definition E (k x : nat) : Prop := x = k \/ exists a, In a acts /\ x = a k.
Hypothesis a_range : forall a k, In a acts -> k < K -> a k < K.
Hypothesis E_sym : forall k x, k < K -> x < K -> E k x -> E x k.
Hypothesis E_trans : forall k x y, k < K -> x < K -> y < K -> E k x -> E x y -> E k y.
Definition omin (m : nat) : Prop := m < K /\ forall x, x < K -> E m x -> m <= x.

Definition anew (a : nat -> nat) (R T : list nat) : list nat :=
  map (fun c => Nat.min c (nth (a (nth c R 0)) T 0)) (seq 0 (length R)).
Record AI (done : list (nat -> nat)) (R T : list nat) : Prop := {
  ai_len : length T = K;
  ai_T : forall k, k < K -> nth k T 0 < length R;
  ai_R : forall c, c < length R -> nth c R 0 < K /\ nth (nth c R 0) T 0 = c;
  ai_E : forall k, k < K -> E k (nth (nth k T 0) R 0);
  ai_min : forall k m, k < K -> omin m -> E k m -> nth m T 0 <= nth k T 0 /\ nth (nth m T 0) R 0 = m;
  ai_done : forall a c, In a done -> c < length R -> omin (a (nth c R 0)) -> nth c R 0 = a (nth c R 0)
}.
Lemma AI_init : AI [] (seq 0 K) (seq 0 K).
Proof.
  split.
  - apply seq_length.
  - intros k Hk. rewrite seq_length, seq_nth by exact Hk. exact Hk.
  - intros c Hc. rewrite seq_length in Hc. rewrite seq_nth by exact Hc. split; [exact Hc|]. rewrite seq_nth; auto.
  - intros k Hk. rewrite !seq_nth; rewrite ?seq_nth; auto. left. reflexivity.
  - intros k m Hk [Hm M] He. assert (SN : forall j, j < K -> nth j (seq 0 K) 0 = j) by (intros j Hj; rewrite seq_nth; auto).
    rewrite !(SN m Hm), (SN k Hk).
    split; [|reflexivity]. apply M; [exact Hk|]. apply E_sym; assumption.
  - intros a c [].
Qed.
Lemma anew_length a R T : length (anew a R T) = length R.
Proof. unfold anew. rewrite map_length, seq_length. reflexivity. Qed.
Lemma anew_nth a R T c : c < length R -> nth c (anew a R T) 0 = Nat.min c (nth (a (nth c R 0)) T 0).
Proof.
  intros H. unfold anew. set (f := fun c => _). rewrite (nth_indep _ 0 (f 0)) by (rewrite map_length, seq_length; exact H).
  rewrite map_nth, seq_nth by exact H. reflexivity.
Qed.
Lemma descending_injective_id : forall l, NoDup l -> (forall c, c < length l -> nth c l 0 <= c) -> l = seq 0 (length l).
Proof.
  intros l N H. apply (nth_ext _ _ 0 0); [rewrite seq_length; reflexivity|]. intros c.
  induction c as [c IH] using (well_founded_induction lt_wf). intros Hc. rewrite seq_nth by exact Hc. cbn [Nat.add].
  pose proof (H c Hc) as L. destruct (Nat.eq_dec (nth c l 0) c) as [Q|Q]; [exact Q|]. exfalso. set (d := nth c l 0) in *.
  assert (Hd : d < c) by lia. assert (Hdl : d < length l) by lia. pose proof (IH d Hd Hdl) as Q2. rewrite seq_nth in Q2 by exact Hdl. cbn in Q2.
  assert (d = c); [|lia]. apply (proj1 (NoDup_nth l 0) N); [exact Hdl|exact Hc|]. rewrite Q2. reflexivity.
Qed.

Section Step.
Variables (done : list (nat -> nat)) (R T : list nat) (a : nat -> nat).
Hypothesis I : AI done R T.
Hypothesis Ha : In a acts.
Let new := anew a R T.
Lemma new_le c : c < length R -> nth c new 0 <= c.
Proof. intros H. unfold new. rewrite anew_nth by exact H. lia. Qed.
Lemma new_E c : c < length R -> nth c new 0 < length R /\ E (nth c R 0) (nth (nth c new 0) R 0).
Proof.
  intros H. pose proof (new_le c H). split; [lia|]. destruct (ai_R _ _ _ I c H) as [H1 H2].
  unfold new. rewrite anew_nth by exact H. destruct (Nat.min_spec c (nth (a (nth c R 0)) T 0)) as [[_ ->]|[_ ->]].
  - left. reflexivity.
  - assert (H3 : a (nth c R 0) < K) by (apply a_range; assumption).
    eapply E_trans; [exact H1|exact H3| | |apply (ai_E _ _ _ I), H3].
    + apply (ai_R _ _ _ I). apply (ai_T _ _ _ I), H3.
    + right. exists a. auto.
Qed.
Lemma new_min m c : omin m -> c < length R -> E (nth c R 0) m -> nth m T 0 <= nth c new 0.
Proof.
  intros Hm Hc He. destruct (ai_R _ _ _ I c Hc) as [H1 H2]. unfold new. rewrite anew_nth by exact Hc.
  assert (H3 : a (nth c R 0) < K) by (apply a_range; assumption).
  apply Nat.min_glb.
  - destruct (ai_min _ _ _ I (nth c R 0) m H1 Hm He) as [H _]. lia.
  - apply (ai_min _ _ _ I); [exact H3|exact Hm|]. eapply E_trans; [exact H3|exact H1|apply Hm| |exact He].
    apply E_sym; [exact H1|exact H3|]. right. exists a. auto.
Qed.
Lemma omin_E m : omin m -> E m m. Proof. left. reflexivity. Qed.
Lemma new_at_min m : omin m -> nth (nth m T 0) new 0 = nth m T 0.
Proof.
  intros Hm. destruct Hm as [Hk Hm'] eqn:EQ. clear EQ.
  assert (Hc : nth m T 0 < length R) by (apply (ai_T _ _ _ I), Hk).
  destruct (ai_min _ _ _ I m m Hk (conj Hk Hm') (or_introl eq_refl)) as [_ HR].
  apply Nat.le_antisymm; [apply new_le, Hc|]. apply new_min; [split; assumption|exact Hc|]. rewrite HR. left. reflexivity.
Qed.

Lemma AI_same : length R <= length (unique_values new) -> new = seq 0 (length R) /\ AI (a :: done) R T.
Proof.
  intros L. assert (Ln : length new = length R) by apply anew_length.
  assert (N : NoDup new).
  { eapply NoDup_incl_NoDup; [apply (uv_NoDup new)| |].
    - rewrite Ln. exact L.
    - intros x Hx. exact (proj1 (uv_in new x) Hx). }
  assert (Q : new = seq 0 (length R)).
  { rewrite <- Ln. apply descending_injective_id; [exact N|]. intros c Hc. apply new_le. lia. }
  split; [exact Q|]. destruct I as [I1 I2 I3 I4 I5 I6]. split; auto.
  intros b c [<-|Hb] Hc Hm; [|apply I6; auto].
  destruct (I3 c Hc) as [H1 H2]. destruct (I5 (nth c R 0) _ H1 Hm) as [M1 M2]; [right; exists a; auto|].
  assert (Hle : c <= nth (a (nth c R 0)) T 0).
  { assert (X : nth c new 0 = c) by (rewrite Q, seq_nth by exact Hc; reflexivity). unfold new in X. rewrite anew_nth in X by exact Hc. lia. }
  rewrite H2 in M1. assert (X : nth (a (nth c R 0)) T 0 = c) by lia. rewrite X in M2. exact M2.
Qed.

Lemma AI_merge : AI (a :: done) (map (fun k => nth k R 0) (unique_pos new)) (map (fun t => nth t (unique_inv new) 0) T).
Proof.
  assert (Ln : length new = length R) by apply anew_length.
  set (u := unique_values new).
  assert (RL : length (map (fun k => nth k R 0) (unique_pos new)) = length u) by (rewrite map_length; apply up_length).
  assert (RN : forall j, j < length u -> nth j (map (fun k => nth k R 0) (unique_pos new)) 0 = nth (nth j (unique_pos new) 0) R 0).
  { intros j Hj. rewrite (nth_indep _ 0 ((fun k => nth k R 0) 0)) by (rewrite RL; exact Hj). rewrite (map_nth (fun k => nth k R 0)). reflexivity. }
  assert (TN : forall k, k < K -> nth k (map (fun t => nth t (unique_inv new) 0) T) 0 = nth (nth k T 0) (unique_inv new) 0).
  { intros k Hk. rewrite (nth_indep _ 0 ((fun t => nth t (unique_inv new) 0) 0)) by (rewrite map_length, (ai_len _ _ _ I); exact Hk).
    rewrite (map_nth (fun t => nth t (unique_inv new) 0)). reflexivity. }
  assert (UI : forall k, k < K -> nth (nth k T 0) (unique_inv new) 0 < length u /\ nth (nth (nth k T 0) (unique_inv new) 0) u 0 = nth (nth k T 0) new 0).
  { intros k Hk. apply ui_spec. rewrite Ln. apply (ai_T _ _ _ I), Hk. }
  (* first position of the label of an orbit minimum *)
  assert (FP : forall m j, omin m -> j < length u -> nth j u 0 = nth m T 0 -> nth j (unique_pos new) 0 = nth m T 0).
  { intros m j Hm Hj Q. destruct (up_spec new j Hj) as (U1 & U2 & U3). fold u in U2, U3. rewrite Q in U2, U3.
    assert (Hc : nth m T 0 < length R) by (apply (ai_T _ _ _ I), Hm).
    apply Nat.le_antisymm.
    - rewrite U3. apply index_first; [apply new_at_min, Hm|lia].
    - rewrite <- U2 at 1. apply new_le. lia. }
  split.
  - rewrite map_length. apply (ai_len _ _ _ I).
  - intros k Hk. rewrite RL, TN by exact Hk. apply UI, Hk.
  - intros j Hj. rewrite RL in Hj. rewrite RN by exact Hj. destruct (up_spec new j Hj) as (U1 & U2 & U3). rewrite Ln in U1.
    destruct (ai_R _ _ _ I _ U1) as [H1 H2]. split; [exact H1|]. rewrite TN by exact H1. rewrite H2. apply ui_up, Hj.
  - intros k Hk. rewrite TN by exact Hk. destruct (UI k Hk) as [H1 H2]. rewrite RN by exact H1.
    destruct (up_spec new _ H1) as (U1 & U2 & _). fold u in U2. rewrite Ln in U1. rewrite H2 in U2.
    assert (Hc : nth k T 0 < length R) by (apply (ai_T _ _ _ I), Hk).
    destruct (ai_R _ _ _ I _ Hc) as [A1 A2]. destruct (ai_R _ _ _ I _ U1) as [B1 B2].
    destruct (new_E _ Hc) as [N1 N2]. destruct (new_E _ U1) as [N3 N4]. rewrite U2 in N4.
    destruct (ai_R _ _ _ I _ N1) as [C1 C2].
    eapply E_trans; [exact Hk|exact A1|exact B1|apply (ai_E _ _ _ I), Hk|].
    eapply E_trans; [exact A1|exact C1|exact B1|exact N2|]. apply E_sym; assumption.
  - intros k m Hk Hm He. rewrite !TN by (exact Hk || apply Hm). destruct (UI k Hk) as [H1 H2]. destruct (UI m ltac:(apply Hm)) as [H3 H4].
    rewrite (new_at_min m Hm) in H4. split.
    + apply (uv_mono new); [exact H3|exact H1|]. fold u. rewrite H2, H4. apply new_min; [exact Hm|apply (ai_T _ _ _ I), Hk|].
      eapply E_trans; [|exact Hk|apply Hm| |exact He].
      * apply (ai_R _ _ _ I), (ai_T _ _ _ I), Hk.
      * apply E_sym; [exact Hk|apply (ai_R _ _ _ I), (ai_T _ _ _ I), Hk|apply (ai_E _ _ _ I), Hk].
    + rewrite RN by exact H3. rewrite (FP m _ Hm H3 H4). apply (ai_min _ _ _ I m m); [apply Hm|exact Hm|left; reflexivity].
  - intros b j Hb Hj Hm. rewrite RL in Hj. rewrite RN in * by exact Hj. destruct (up_spec new j Hj) as (U1 & U2 & U3). rewrite Ln in U1. fold u in U2.
    destruct Hb as [<-|Hb]; [|apply (ai_done _ _ _ I); auto].
    set (i := nth j (unique_pos new) 0) in *. destruct (ai_R _ _ _ I _ U1) as [A1 A2].
    destruct (ai_min _ _ _ I (nth i R 0) _ A1 Hm) as [M1 M2]; [right; exists a; auto|].
    assert (X : nth i new 0 = nth (a (nth i R 0)) T 0).
    { unfold new. rewrite anew_nth by exact U1. rewrite A2 in M1. lia. }
    rewrite U2 in X. pose proof (FP _ j Hm Hj X) as Y. fold i in Y. rewrite <- Y in M2. exact M2.
Qed.
End Step.

Lemma orbit_min_exists k : k < K -> exists m, omin m /\ E k m.
Proof.
  intros Hk. set (l := k :: map (fun a => a k) acts).
  assert (HL : forall x, In x l <-> E k x).
  { intros x. unfold l, E. cbn [In]. rewrite in_map_iff. split; [intros [<-|(a & <- & H)]; [auto|right; eauto]|intros [->|(a & H & ->)]; [auto|right; eauto]]. }
  assert (G : forall l : list nat, l <> [] -> exists m, In m l /\ forall x, In x l -> m <= x).
  { clear. induction l as [|x l IH]; [congruence|]. intros _. destruct l as [|y l].
    - exists x. split; [left; reflexivity|]. intros z [<-|[]]. lia.
    - destruct IH as (m & H1 & H2); [discriminate|]. destruct (Nat.le_gt_cases x m) as [Hx|Hx].
      + exists x. split; [left; reflexivity|]. intros z [<-|Hz]; [lia|]. specialize (H2 z Hz). lia.
      + exists m. split; [right; exact H1|]. intros z [<-|Hz]; [lia|]. apply H2, Hz. }
  destruct (G l) as (m & H1 & H2); [discriminate|]. apply HL in H1.
  assert (Hm : m < K) by (destruct H1 as [->|(a & H & ->)]; [exact Hk|apply a_range; assumption]).
  exists m. split; [|exact H1]. split; [exact Hm|]. intros x Hx He. apply H2, HL. eapply E_trans; [exact Hk|exact Hm|exact Hx|exact H1|exact He].
Qed.

Theorem AI_final done R T : AI done R T -> incl acts done ->
  (forall k x, k < K -> x < K -> (nth k T 0 = nth x T 0 <-> E k x)) /\
  (forall k, k < K -> omin (nth (nth k T 0) R 0) /\ E k (nth (nth k T 0) R 0)).
Proof.
  intros I Inc.
  assert (RM : forall k m, k < K -> omin m -> E k m -> nth (nth k T 0) R 0 = m).
  { intros k m Hk Hm He. assert (Hc : nth k T 0 < length R) by (apply (ai_T _ _ _ I), Hk).
    destruct (ai_R _ _ _ I _ Hc) as [A1 A2]. set (r := nth (nth k T 0) R 0) in *.
    assert (Er : E r m).
    { eapply E_trans; [exact A1|exact Hk|apply Hm| |exact He]. apply E_sym; [exact Hk|exact A1|]. apply (ai_E _ _ _ I), Hk. }
    destruct Er as [->|(a & Ha & ->)]; [reflexivity|]. apply (ai_done _ _ _ I); [apply Inc, Ha|exact Hc|exact Hm]. }
  split.
  - intros k x Hk Hx. split.
    + intros Q. eapply E_trans; [exact Hk| |exact Hx|apply (ai_E _ _ _ I), Hk|].
      * apply (ai_R _ _ _ I), (ai_T _ _ _ I), Hk.
      * rewrite Q. apply E_sym; [exact Hx|apply (ai_R _ _ _ I), (ai_T _ _ _ I), Hx|apply (ai_E _ _ _ I), Hx].
    + intros He. destruct (orbit_min_exists k Hk) as (m & Hm & Hkm).
      assert (Hxm : E x m). { eapply E_trans; [exact Hx|exact Hk|apply Hm|apply E_sym; assumption|exact Hkm]. }
      pose proof (RM k m Hk Hm Hkm) as R1. pose proof (RM x m Hx Hm Hxm) as R2.
      destruct (ai_R _ _ _ I _ (ai_T _ _ _ I k Hk)) as [_ Q1]. destruct (ai_R _ _ _ I _ (ai_T _ _ _ I x Hx)) as [_ Q2]. congruence.
  - intros k Hk. destruct (orbit_min_exists k Hk) as (m & Hm & Hkm). rewrite (RM k m Hk Hm Hkm). auto.
Qed.
End Abs.
