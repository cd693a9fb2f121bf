(** Weak and strong duality of linear programmes in the form
      maximise c.x  subject to  A_i.x >= b_i | = b_i | <= b_i  and (optionally) x >= 0.
    Pure mathematics: nothing here models the code. *)
From Coq Require Import List Arith Bool QArith Qcanon Lia Lqa.
From Verif Require Import MargModel QcSum QcArith Farkas.
Import ListNotations.
Open Scope Qc_scope.
Close Scope Q_scope.
Set Default Proof Using "All".

Definition sumn (n : nat) (f : nat -> Qc) : Qc := sumQ (map f (seq 0 n)).
Lemma sumn_ext n f g : (forall i, (i < n)%nat -> f i = g i) -> sumn n f = sumn n g.
Proof. intros E. apply sumQ_ext. intros i I. apply in_seq in I. apply E. lia. Qed.
Lemma sumn_add n f g : sumn n (fun i => f i + g i) = sumn n f + sumn n g.
Proof. apply sumQ_add. Qed.
Lemma sumn_scale n k f : sumn n (fun i => k * f i) = k * sumn n f.
Proof. apply sumQ_scale. Qed.
Lemma sumn_opp n f : sumn n (fun i => - f i) = - sumn n f.
Proof. transitivity (- (1) * sumn n f); [|ring]. rewrite <- sumn_scale. apply sumn_ext. intros. ring. Qed.
Lemma sumn_0 n : sumn n (fun _ => 0) = 0.
Proof. apply sumQ_zero. reflexivity. Qed.
Lemma sumn_S n f : sumn (S n) f = sumn n f + f n.
Proof. unfold sumn. rewrite seq_S, map_app, sumQ_app. cbn. ring. Qed.
Lemma sumn_swap m n f : sumn m (fun i => sumn n (f i)) = sumn n (fun j => sumn m (fun i => f i j)).
Proof. apply sumQ_swap. Qed.
Lemma sumn_le n f g : (forall i, (i < n)%nat -> f i <= g i) -> sumn n f <= sumn n g.
Proof. induction n; intros E; [apply Qcle_refl|]. rewrite !sumn_S. apply Qcplus_le_compat; auto. Qed.
Lemma sumn_app m n f : sumn (m + n) f = sumn m f + sumn n (fun i => f (m + i)%nat).
Proof. induction n; [rewrite Nat.add_0_r; unfold sumn at 3; cbn; ring|]. rewrite Nat.add_succ_r, !sumn_S, IHn. ring. Qed.
Lemma sumn_single n k f : (k < n)%nat -> (forall i, (i < n)%nat -> i <> k -> f i = 0) -> sumn n f = f k.
Proof. induction n; intros L Z; [lia|]. rewrite sumn_S. destruct (Nat.eq_dec k n) as [->|N].
  - assert (sumn n f = 0) as ->; [|ring]. rewrite <- (sumn_0 n). apply sumn_ext. intros. apply Z; lia.
  - rewrite IHn by (auto; lia). rewrite (Z n) by lia. ring. Qed.

Inductive kind := AtLeast | Equal | AtMost.
Definition holds (k : kind) (v b : Qc) : Prop := match k with AtLeast => b <= v | Equal => v = b | AtMost => v <= b end.
Definition multiplier (k : kind) (y : Qc) : Prop := match k with AtLeast => y <= 0 | Equal => True | AtMost => 0 <= y end.

Section Programme.
Variables (m n : nat) (A : nat -> nat -> Qc) (b : nat -> Qc) (kd : nat -> kind) (c : nat -> Qc) (nonneg : bool).

Definition primal_feasible (x : nat -> Qc) : Prop :=
  (forall i, (i < m)%nat -> holds (kd i) (sumn n (fun j => A i j * x j)) (b i)) /\
  (nonneg = true -> forall j, (j < n)%nat -> 0 <= x j).
Definition dual_feasible (y : nat -> Qc) : Prop :=
  (forall i, (i < m)%nat -> multiplier (kd i) (y i)) /\
  (forall j, (j < n)%nat -> if nonneg then c j <= sumn m (fun i => A i j * y i) else sumn m (fun i => A i j * y i) = c j).
Definition primal_value (x : nat -> Qc) := sumn n (fun j => c j * x j).
Definition dual_value (y : nat -> Qc) := sumn m (fun i => b i * y i).

Theorem weak_duality x y : primal_feasible x -> dual_feasible y -> primal_value x <= dual_value y.
Proof.
  intros (P1 & P2) (D1 & D2).
  apply Qcle_trans with (sumn n (fun j => sumn m (fun i => A i j * y i) * x j)).
  - apply sumn_le. intros j J. specialize (D2 j J). destruct nonneg; [|rewrite D2; apply Qcle_refl].
    specialize (P2 eq_refl j J). set (s := sumn m _) in *. qcnra.
  - apply Qcle_trans with (sumn m (fun i => sumn n (fun j => A i j * x j) * y i)).
    + apply Qceq_le || idtac.
      assert (sumn n (fun j => sumn m (fun i => A i j * y i) * x j) = sumn m (fun i => sumn n (fun j => A i j * x j) * y i)) as ->; [|apply Qcle_refl].
      transitivity (sumn n (fun j => sumn m (fun i => A i j * y i * x j))).
      * apply sumn_ext. intros j J. rewrite Qcmult_comm, <- sumn_scale. apply sumn_ext. intros. ring.
      * rewrite sumn_swap with (f := fun j i => A i j * y i * x j). apply sumn_ext. intros i I. rewrite Qcmult_comm, <- sumn_scale. apply sumn_ext. intros. ring.
    + apply sumn_le. intros i I. specialize (P1 i I). specialize (D1 i I). set (s := sumn n _) in *. destruct (kd i); cbn in *; [qcnra|subst s; rewrite P1; apply Qcle_refl|qcnra]. Qed.

(** the half-spaces of the programme *)
Definition row (i : nat) : vec := map (A i) (seq 0 n).
Definition unit (j : nat) : vec := map (fun k => if Nat.eqb k j then 1 else 0) (seq 0 n).
Definition halfspaces_of (i : nat) : list halfspace :=
  match kd i with
  | AtLeast => [(row i, b i)]
  | Equal => [(row i, b i); (vscale (- (1)) (row i), - b i)]
  | AtMost => [(vscale (- (1)) (row i), - b i)]
  end.
Definition halfspaces : list halfspace :=
  flat_map halfspaces_of (seq 0 m) ++ (if nonneg then map (fun j => (unit j, 0)) (seq 0 n) else []).

Lemma dot_sumn f x : length x = n -> dot (map f (seq 0 n)) x = sumn n (fun j => f j * nth j x 0).
Proof.
  clear. unfold sumn. intros <-.
  assert (G : forall s, dot (map f (seq s (length x))) x = sumQ (map (fun j => f j * nth (j - s) x 0) (seq s (length x)))).
  { induction x as [|u x IH]; intros s; [reflexivity|]. cbn [length seq map dot]. rewrite sumQ_cons, IH. rewrite Nat.sub_diag. cbn [nth].
    f_equal. apply sumQ_ext. intros j J. apply in_seq in J. replace (j - s)%nat with (S (j - S s)) by lia. reflexivity. }
  rewrite G. apply sumQ_ext. intros j _. rewrite Nat.sub_0_r. reflexivity. Qed.
Lemma row_length i : length (row i) = n.
Proof. unfold row. rewrite map_length, seq_length. reflexivity. Qed.
Lemma unit_length i : length (unit i) = n.
Proof. unfold unit. rewrite map_length, seq_length. reflexivity. Qed.
Lemma halfspaces_length a r : In (a, r) halfspaces -> length a = n.
Proof.
  unfold halfspaces. intros I. apply in_app_or in I as [I|I].
  - apply in_flat_map in I as (i & _ & I). unfold halfspaces_of in I. destruct (kd i).
    + destruct I as [E|[]]. inversion E. apply row_length.
    + destruct I as [E|[E|[]]]; inversion E; rewrite ?vscale_length; apply row_length.
    + destruct I as [E|[]]. inversion E. rewrite vscale_length. apply row_length.
  - destruct nonneg; [|destruct I]. apply in_map_iff in I as (j & E & _). inversion E. apply unit_length. Qed.
Lemma halfspaces_feasible x : length x = n -> (forall a r, In (a, r) halfspaces -> r <= dot a x) <-> primal_feasible (fun j => nth j x 0).
Proof.
  intros L. unfold halfspaces. split.
  - intros SAT. split.
    + intros i I. assert (S1 : forall a r, In (a, r) (halfspaces_of i) -> r <= dot a x).
      { intros a r K. apply SAT. apply in_or_app. left. apply in_flat_map. exists i. split; [apply in_seq; lia|assumption]. }
      unfold halfspaces_of in S1. rewrite <- (dot_sumn (A i) x L). fold (row i). destruct (kd i); cbn [holds].
      * apply S1. left. reflexivity.
      * assert (K1 := S1 _ _ (or_introl eq_refl)). assert (K2 := S1 _ _ (or_intror (or_introl eq_refl))). rewrite dot_vscale in K2. qclra.
      * assert (K2 := S1 _ _ (or_introl eq_refl)). rewrite dot_vscale in K2. qclra.
    + intros NN j J. assert (K : 0 <= dot (unit j) x).
      { apply SAT. apply in_or_app. right. rewrite NN. apply in_map_iff. exists j. split; [reflexivity|apply in_seq; lia]. }
      unfold unit in K. rewrite dot_sumn in K by assumption. rewrite (sumn_single n j) in K; [|assumption|intros i _ N; rewrite (proj2 (Nat.eqb_neq i j)) by assumption; ring].
      rewrite Nat.eqb_refl in K. qclra.
  - intros (P1 & P2) a r I. apply in_app_or in I as [I|I].
    + apply in_flat_map in I as (i & Ii & I). apply in_seq in Ii. specialize (P1 i (proj2 Ii)).
      rewrite <- (dot_sumn (A i) x L) in P1. fold (row i) in P1. unfold halfspaces_of in I. destruct (kd i); cbn [holds] in P1.
      * destruct I as [E|[]]. inversion E; subst. assumption.
      * destruct I as [E|[E|[]]]; inversion E; subst; [rewrite P1; apply Qcle_refl|]. rewrite dot_vscale, P1. qclra.
      * destruct I as [E|[]]. inversion E; subst. rewrite dot_vscale. qclra.
    + destruct nonneg; [|destruct I]. apply in_map_iff in I as (j & E & J). apply in_seq in J. inversion E; subst.
      unfold unit. rewrite dot_sumn by assumption. rewrite (sumn_single n j); [|lia|intros i _ N; rewrite (proj2 (Nat.eqb_neq i j)) by assumption; ring].
      rewrite Nat.eqb_refl. specialize (P2 eq_refl j (proj2 J)). cbn in P2. qclra. Qed.

(** a combination of the half-spaces gives multipliers *)
Lemma cone_multipliers v w : cone n halfspaces v w ->
  exists y s, (forall i, (i < m)%nat -> multiplier (kd i) (y i)) /\ (forall j, (j < n)%nat -> 0 <= s j) /\ (nonneg = false -> forall j, s j = 0) /\
    (forall j, (j < n)%nat -> nth j v 0 = s j - sumn m (fun i => A i j * y i)) /\ w = - sumn m (fun i => b i * y i).
Proof.
  induction 1 as [|a r k v w I K C IH].
  - exists (fun _ => 0), (fun _ => 0).
    assert (Z : forall f, sumn m (fun i => f i * 0) = 0) by (intros f; transitivity (sumn m (fun _ => 0)); [apply sumn_ext; intros; ring|apply sumn_0]).
    split; [intros i _; destruct (kd i); cbn; auto; apply Qcle_refl|]. split; [intros; apply Qcle_refl|]. split; [reflexivity|]. split.
    + intros j J. rewrite Z. unfold vzero. rewrite nth_repeat. ring.
    + rewrite Z. ring.
  - destruct IH as (y & s & Y & S1 & S2 & V & W).
    assert (LV : length v = n) by (apply cone_length in C; [assumption|apply halfspaces_length]).
    assert (LA : length a = n) by (eapply halfspaces_length; eauto).
    assert (NTH : forall j, (j < n)%nat -> nth j (vadd (vscale k a) v) 0 = k * nth j a 0 + nth j v 0).
    { intros j J. assert (J' : (j < length a)%nat) by lia. assert (J'' : (j < length v)%nat) by lia. clear - J' J''. revert a v J' J''. induction j; intros a v; destruct a, v; cbn; try lia; intros; rewrite ?vscale_cons; cbn [vadd nth]; [reflexivity|]. apply IHj; lia. }
    (* adding q to the multiplier of row i *)
    assert (STEP : forall i q, (i < m)%nat -> multiplier (kd i) q ->
        (forall j, (j < n)%nat -> k * nth j a 0 = - q * A i j) -> k * r = - q * b i ->
        exists y s, (forall i, (i < m)%nat -> multiplier (kd i) (y i)) /\ (forall j, (j < n)%nat -> 0 <= s j) /\ (nonneg = false -> forall j, s j = 0) /\
        (forall j, (j < n)%nat -> nth j (vadd (vscale k a) v) 0 = s j - sumn m (fun i => A i j * y i)) /\ k * r + w = - sumn m (fun i => b i * y i)).
    { intros i q Ii Q E1 E2. exists (fun i' => y i' + (if Nat.eqb i' i then q else 0)), s.
      assert (SUM : forall f, sumn m (fun i' => f i' * (y i' + (if Nat.eqb i' i then q else 0))) = sumn m (fun i' => f i' * y i') + f i * q).
      { intros f. transitivity (sumn m (fun i' => f i' * y i' + f i' * (if Nat.eqb i' i then q else 0))); [apply sumn_ext; intros; ring|].
        rewrite sumn_add. f_equal. rewrite (sumn_single m i); [rewrite Nat.eqb_refl; reflexivity|assumption|].
        intros i' _ N. rewrite (proj2 (Nat.eqb_neq i' i)) by assumption. ring. }
      split; [|split; [assumption|split; [assumption|split]]].
      - intros i' I'. specialize (Y i' I'). destruct (Nat.eqb_spec i' i) as [->|N].
        + destruct (kd i); cbn in *; auto; qclra.
        + destruct (kd i'); cbn in *; auto; qclra.
      - intros j J. rewrite (SUM (fun i' => A i' j)), NTH, V, E1 by assumption. ring.
      - rewrite SUM, W, E2. ring. }
    unfold halfspaces in I. apply in_app_or in I as [I|I].
    + apply in_flat_map in I as (i & Ii & I). apply in_seq in Ii.
      assert (NR : forall j, (j < n)%nat -> nth j (row i) 0 = A i j).
      { intros j J. unfold row. rewrite nth_indep with (d' := A i 0%nat) by (rewrite map_length, seq_length; lia). rewrite map_nth, seq_nth by lia. reflexivity. }
      assert (NS : forall j, (j < n)%nat -> nth j (vscale (- (1)) (row i)) 0 = - A i j).
      { intros j J. unfold vscale. rewrite nth_indep with (d' := (- (1)) * 0) by (rewrite map_length, row_length; lia). rewrite map_nth, NR by assumption. ring. }
      unfold halfspaces_of in I. destruct (kd i) eqn:KD.
      * destruct I as [E|[]]. inversion E; subst a r. apply (STEP i (- k)); [lia|rewrite KD; cbn; qclra| |ring]. intros j J. rewrite NR by assumption. ring.
      * destruct I as [E|[E|[]]]; inversion E; subst a r; [apply (STEP i (- k))|apply (STEP i k)]; try lia; try (rewrite KD; exact Logic.I); try ring.
        -- intros j J. rewrite NR by assumption. ring.
        -- intros j J. rewrite NS by assumption. ring.
      * destruct I as [E|[]]. inversion E; subst a r. apply (STEP i k); [lia|rewrite KD; cbn; qclra| |ring]. intros j J. rewrite NS by assumption. ring.
    + destruct nonneg eqn:NN; [|destruct I]. apply in_map_iff in I as (j0 & E & J0). apply in_seq in J0. inversion E; subst a r.
      exists y, (fun j => s j + (if Nat.eqb j j0 then k else 0)). split; [assumption|]. split; [|split; [discriminate|split]].
      * intros j J. specialize (S1 j J). destruct (Nat.eqb j j0); qclra.
      * intros j J. rewrite NTH, V by assumption. unfold unit. rewrite nth_indep with (d' := if Nat.eqb 0 j0 then 1 else 0) by (rewrite map_length, seq_length; lia).
        rewrite (map_nth (fun k0 => if Nat.eqb k0 j0 then 1 else 0)), seq_nth by lia. cbn [Nat.add]. destruct (Nat.eqb j j0); ring.
      * rewrite W. ring. Qed.

Lemma values_of_list x : length x = n -> primal_value (fun j => nth j x 0) = dot (map c (seq 0 n)) x.
Proof. intros L. rewrite dot_sumn by assumption. reflexivity. Qed.
Lemma primal_ext x x' : (forall j, (j < n)%nat -> x j = x' j) -> primal_feasible x -> primal_feasible x'.
Proof. intros E (P1 & P2). split.
  - intros i I. rewrite <- (sumn_ext n (fun j => A i j * x j)); [auto|]. intros j J. rewrite E by assumption. reflexivity.
  - intros N j J. rewrite <- E by assumption. auto. Qed.
Lemma nth_map_seq (f : nat -> Qc) j : (j < n)%nat -> nth j (map f (seq 0 n)) 0 = f j.
Proof. intros J. rewrite nth_indep with (d' := f 0%nat) by (rewrite map_length, seq_length; lia). rewrite map_nth, seq_nth by lia. reflexivity. Qed.

Theorem strong_duality t : (exists x, primal_feasible x) -> (forall x, primal_feasible x -> primal_value x <= t) ->
  exists y, dual_feasible y /\ dual_value y <= t.
Proof.
  intros (x0 & F0) BD.
  destruct (scale_halfspaces n halfspaces t (map c (seq 0 n)) halfspaces_length) as (w & W & C).
  - rewrite map_length, seq_length. reflexivity.
  - exists (map x0 (seq 0 n)). split; [rewrite map_length, seq_length; reflexivity|]. apply halfspaces_feasible; [rewrite map_length, seq_length; reflexivity|].
    apply primal_ext with x0; [|assumption]. intros j J. rewrite nth_map_seq by assumption. reflexivity.
  - intros x L SAT. rewrite <- values_of_list by assumption. apply BD. apply halfspaces_feasible; assumption.
  - apply cone_multipliers in C as (y & s & Y & S1 & S2 & V & E). exists y. split; [split; [assumption|]|].
    + intros j J. specialize (V j J). unfold vscale in V. rewrite nth_indep with (d' := (- (1)) * 0) in V by (rewrite !map_length, seq_length; lia).
      rewrite map_nth, nth_map_seq in V by assumption. destruct nonneg.
      * specialize (S1 j J). qclra.
      * rewrite (S2 eq_refl j) in V. qclra.
    + unfold dual_value. qclra. Qed.

Theorem infeasible_primal : ~ (exists x, primal_feasible x) ->
  forall y t, dual_feasible y -> exists y', dual_feasible y' /\ dual_value y' <= t.
Proof.
  intros NF y t (D1 & D2). destruct (farkas n halfspaces halfspaces_length) as [(x & L & SAT)|(w & W & C)].
  - exfalso. apply NF. exists (fun j => nth j x 0). apply halfspaces_feasible; assumption.
  - apply cone_multipliers in C as (y0 & s & Y & S1 & S2 & V & E).
    assert (RAY : forall j, (j < n)%nat -> if nonneg then 0 <= sumn m (fun i => A i j * y0 i) else sumn m (fun i => A i j * y0 i) = 0).
    { intros j J. specialize (V j J). unfold vzero in V. rewrite nth_repeat in V. specialize (S1 j J). destruct nonneg; [qclra|]. rewrite (S2 eq_refl j) in V. qclra. }
    set (D := dual_value y - t). set (k := if Qclt_le_dec 0 D then D / w else 0).
    assert (WI : w * / w = 1) by (apply Qcmult_inv_r; intros Z; rewrite Z in W; discriminate).
    assert (IP : 0 < / w). { destruct (Qclt_le_dec 0 (/ w)); [assumption|]. exfalso. assert (w * / w <= 0) by qcnra. qclra. }
    assert (K0 : 0 <= k). { unfold k. destruct (Qclt_le_dec 0 D); [|apply Qcle_refl]. unfold Qcdiv. set (i := / w) in *. qcnra. }
    assert (K1 : D <= k * w). { unfold k. destruct (Qclt_le_dec 0 D); [|qclra]. unfold Qcdiv. replace (D * / w * w) with (D * (w * / w)) by ring. rewrite WI. qclra. }
    exists (fun i => y i + k * y0 i).
    assert (SUM : forall f, sumn m (fun i => f i * (y i + k * y0 i)) = sumn m (fun i => f i * y i) + k * sumn m (fun i => f i * y0 i)).
    { intros f. rewrite <- sumn_scale, <- sumn_add. apply sumn_ext. intros. ring. }
    split; [split|].
    + intros i I. specialize (D1 i I). specialize (Y i I). destruct (kd i); cbn in *; auto; qcnra.
    + intros j J. specialize (D2 j J). specialize (RAY j J). rewrite (SUM (fun i => A i j)). destruct nonneg; [|rewrite RAY, D2; ring].
      set (u := sumn m (fun i => A i j * y0 i)) in *. assert (0 <= k * u) by qcnra. qclra.
    + unfold dual_value. rewrite SUM. fold (dual_value y). unfold D in K1.
      assert (sumn m (fun i => b i * y0 i) = - w) as -> by qclra. qclra. Qed.
End Programme.
