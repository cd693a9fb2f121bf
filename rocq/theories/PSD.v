(** Positive semidefinite rational matrices: the trace of a product of two is not negative. *)
From Coq Require Import List Arith Bool Lia ZArith QArith Qcanon Setoid.
From Verif Require Import MargModel QcSum QcArith Duality SDPSolveModel SDPSolveSpec.
Import ListNotations.
Open Scope Qc_scope.

Definition qf (n : nat) (M : matrix) (v : nat -> Qc) : Qc := sumn n (fun i => sumn n (fun j => v i * M i j * v j)).

Lemma qf_S n M v : qf (S n) M v = qf n M v + v n * sumn n (fun j => M n j * v j) + v n * sumn n (fun i => M i n * v i) + M n n * v n * v n.
Proof.
  unfold qf. rewrite sumn_S.
  rewrite (sumn_ext n (fun i => sumn (S n) (fun j => v i * M i j * v j)) (fun i => sumn n (fun j => v i * M i j * v j) + v i * M i n * v n)) by (intros; apply sumn_S).
  rewrite sumn_add, sumn_S.
  rewrite (sumn_ext n (fun i => v i * M i n * v n) (fun i => v n * (M i n * v i))) by (intros; ring).
  rewrite (sumn_ext n (fun j => v n * M n j * v j) (fun j => v n * (M n j * v j))) by (intros; ring).
  rewrite !sumn_scale. ring.
Qed.
Lemma mdot_S n A B : mdot (S n) A B = mdot n A B + sumn n (fun j => A n j * B n j) + sumn n (fun i => A i n * B i n) + A n n * B n n.
Proof.
  unfold mdot. rewrite sumn_S.
  rewrite (sumn_ext n (fun i => sumn (S n) (fun j => A i j * B i j)) (fun i => sumn n (fun j => A i j * B i j) + A i n * B i n)) by (intros; apply sumn_S).
  rewrite sumn_add, sumn_S. ring.
Qed.
Lemma qf_ext n M v w : (forall i, (i < n)%nat -> v i = w i) -> qf n M v = qf n M w.
Proof. intros h. unfold qf. apply sumn_ext. intros i hi. apply sumn_ext. intros j hj. now rewrite (h i hi), (h j hj). Qed.
Lemma qf_ext_m n M M' v : (forall i j, (i < n)%nat -> (j < n)%nat -> M i j = M' i j) -> qf n M v = qf n M' v.
Proof. intros h. unfold qf. apply sumn_ext. intros i hi. apply sumn_ext. intros j hj. now rewrite h. Qed.
Lemma mdot_ext n A A' B B' : (forall i j, (i < n)%nat -> (j < n)%nat -> A i j = A' i j /\ B i j = B' i j) -> mdot n A B = mdot n A' B'.
Proof. intros h. unfold mdot. apply sumn_ext. intros i hi. apply sumn_ext. intros j hj. destruct (h i j hi hj) as [-> ->]. reflexivity. Qed.
Lemma psd_ext n M M' : (forall i j, (i < n)%nat -> (j < n)%nat -> M i j = M' i j) -> psd n M -> psd n M'.
Proof.
  intros h [hs hq]. split.
  - intros i j hi hj. rewrite <- !h by assumption. now apply hs.
  - intros v. fold (qf n M' v). rewrite <- (qf_ext_m n M M' v h). apply hq.
Qed.

Definition up (n : nat) (v : nat -> Qc) (t : Qc) : nat -> Qc := fun i => if Nat.eqb i n then t else v i.
Lemma up_last n v t : up n v t n = t. Proof. unfold up. now rewrite Nat.eqb_refl. Qed.
Lemma up_old n v t i : (i < n)%nat -> up n v t i = v i.
Proof. intros h. unfold up. destruct (Nat.eqb_spec i n); [lia|reflexivity]. Qed.
Lemma qf_up n M v t : symmetric (S n) M -> qf (S n) M (up n v t) = qf n M v + (1 + 1) * t * sumn n (fun j => M n j * v j) + M n n * t * t.
Proof.
  intros hs. rewrite qf_S, up_last.
  rewrite (qf_ext n M (up n v t) v) by (intros; now apply up_old).
  rewrite (sumn_ext n (fun j => M n j * up n v t j) (fun j => M n j * v j)) by (intros; now rewrite up_old).
  rewrite (sumn_ext n (fun i => M i n * up n v t i) (fun j => M n j * v j)).
  - ring.
  - intros i hi. rewrite up_old by assumption. rewrite (hs i n) by lia. reflexivity.
Qed.
Lemma psd_restrict n M : psd (S n) M -> psd n M.
Proof.
  intros [hs hq]. split.
  - intros i j hi hj. apply hs; lia.
  - intros v. fold (qf n M v). pose proof (hq (up n v 0)) as h. fold (qf (S n) M (up n v 0)) in h. rewrite qf_up in h by assumption.
    replace (qf n M v) with (qf n M v + (1 + 1) * 0 * sumn n (fun j => M n j * v j) + M n n * 0 * 0) by ring. exact h.
Qed.
Lemma psd_diag n M : psd (S n) M -> 0 <= M n n.
Proof.
  intros [hs hq]. pose proof (hq (up n (fun _ => 0) 1)) as h. fold (qf (S n) M (up n (fun _ => 0) 1)) in h. rewrite qf_up in h by assumption.
  replace (qf n M (fun _ => 0)) with 0 in h.
  2:{ unfold qf. symmetry. transitivity (sumn n (fun _ => 0)); [|apply sumn_0]. apply sumn_ext. intros i hi. transitivity (sumn n (fun _ => 0)); [|apply sumn_0]. apply sumn_ext. intros j hj. ring. }
  rewrite (sumn_ext n (fun j => M n j * 0) (fun _ => 0)) in h by (intros; ring). rewrite sumn_0 in h.
  replace (M n n) with (0 + (1 + 1) * 1 * 0 + M n n * 1 * 1) by ring. exact h.
Qed.
Definition unit_at (k : nat) : nat -> Qc := fun i => if Nat.eqb i k then 1 else 0.
Lemma sumn_unit n k f : (k < n)%nat -> sumn n (fun j => f j * unit_at k j) = f k.
Proof.
  intros h. rewrite (sumn_single n k); [unfold unit_at; rewrite Nat.eqb_refl; ring|assumption|].
  intros i hi hn. unfold unit_at. destruct (Nat.eqb_spec i k); [contradiction|ring].
Qed.
Lemma qf_unit n M k : (k < n)%nat -> qf n M (unit_at k) = M k k.
Proof.
  intros h. unfold qf. rewrite (sumn_single n k); [|assumption|].
  - rewrite (sumn_ext n _ (fun j => M k j * unit_at k j)).
    + now apply sumn_unit.
    + intros j hj. unfold unit_at at 1. rewrite Nat.eqb_refl. ring.
  - intros i hi hn. transitivity (sumn n (fun _ => 0)); [|apply sumn_0]. apply sumn_ext. intros j hj. unfold unit_at at 1. destruct (Nat.eqb_spec i k); [contradiction|ring].
Qed.
(** a zero on the diagonal makes its row vanish *)
Lemma psd_zero_row n M : psd (S n) M -> M n n = 0 -> forall j, (j < n)%nat -> M n j = 0.
Proof.
  intros [hs hq] hz j hj.
  assert (forall t, 0 <= M j j + (1 + 1) * t * M n j) as h.
  { intros t. pose proof (hq (up n (unit_at j) t)) as h. fold (qf (S n) M (up n (unit_at j) t)) in h. rewrite qf_up in h by assumption.
    rewrite qf_unit, sumn_unit, hz in h by assumption.
    replace (M j j + (1 + 1) * t * M n j) with (M j j + (1 + 1) * t * M n j + 0 * t * t) by ring. exact h. }
  destruct (Qc_eq_dec (M n j) 0) as [e|ne]; [assumption|exfalso].
  pose proof (h (- (M j j + 1) / ((1 + 1) * M n j))) as h1.
  replace (M j j + (1 + 1) * (- (M j j + 1) / ((1 + 1) * M n j)) * M n j) with (- (1)) in h1.
  - apply (Qcle_not_lt _ _ h1). reflexivity.
  - field. split; [assumption|intros e; discriminate e].
Qed.

Theorem psd_mdot n : forall A B, psd n A -> psd n B -> 0 <= mdot n A B.
Proof.
  induction n as [|n IH]; intros A B hA hB.
  { apply Qcle_refl. }
  pose proof (psd_diag n A hA) as hd.
  destruct (Qc_eq_dec (A n n) 0) as [e|ne].
  - rewrite mdot_S, e.
    assert (forall j, (j < n)%nat -> A n j = 0) as hz by (now apply psd_zero_row).
    rewrite (sumn_ext n (fun j => A n j * B n j) (fun _ => 0)) by (intros j hj; rewrite hz by assumption; ring).
    rewrite (sumn_ext n (fun i => A i n * B i n) (fun _ => 0)).
    2:{ intros j hj. rewrite (proj1 hA j n) by lia. rewrite hz by assumption. ring. }
    rewrite sumn_0. pose proof (IH A B (psd_restrict n A hA) (psd_restrict n B hB)) as h.
    replace (mdot n A B + 0 + 0 + 0 * B n n) with (mdot n A B) by ring. exact h.
  - set (a := A n n) in *. set (A' := fun i j => A i j - A i n * A n j / a).
    assert (psd n A') as hA'.
    { split.
      - intros i j hi hj. unfold A'. rewrite (proj1 hA i j), (proj1 hA i n), (proj1 hA n j) by lia. unfold Qcdiv. ring.
      - intros v. fold (qf n A' v). set (s := sumn n (fun j => A n j * v j)).
        replace (qf n A' v) with (qf (S n) A (up n v (- s / a))).
        + apply (proj2 hA).
        + rewrite qf_up by (apply (proj1 hA)). fold s. fold a.
          assert (qf n A' v = qf n A v - s * s / a) as ->.
          { unfold qf, A'.
            rewrite (sumn_ext n _ (fun i => sumn n (fun j => v i * A i j * v j) + (- s / a) * (A n i * v i))).
            - rewrite sumn_add, sumn_scale. fold s. field. assumption.
            - intros i hi. rewrite (sumn_ext n _ (fun j => v i * A i j * v j + (- (v i * A i n) / a) * (A n j * v j))).
              + rewrite sumn_add, sumn_scale. fold s. rewrite (proj1 hA i n) by lia. field. assumption.
              + intros j hj. field. assumption. }
          field. assumption. }
    assert (mdot (S n) A B = mdot n A' B + a * qf (S n) B (fun i => A n i / a)) as ->.
    { rewrite mdot_S, qf_S. fold a.
      assert (mdot n A B = mdot n A' B + a * qf n B (fun i => A n i / a)) as ->.
      { unfold mdot, qf. rewrite <- sumn_scale, <- sumn_add. apply sumn_ext. intros i hi.
        rewrite <- sumn_scale, <- sumn_add. apply sumn_ext. intros j hj. unfold A'. rewrite (proj1 hA i n) by lia. field. assumption. }
      rewrite (sumn_ext n (fun j => B n j * (A n j / a)) (fun j => (/ a) * (A n j * B n j))) by (intros; field; assumption).
      rewrite (sumn_ext n (fun i => B i n * (A n i / a)) (fun i => (/ a) * (A i n * B i n))).
      2:{ intros i hi. rewrite (proj1 hA i n) by lia. field. assumption. }
      rewrite !sumn_scale. field. assumption. }
    assert (0 <= mdot n A' B) as h1 by (apply IH; [assumption|now apply psd_restrict]).
    assert (0 <= qf (S n) B (fun i => A n i / a)) as h2 by (apply (proj2 hB)).
    assert (0 <= a * qf (S n) B (fun i => A n i / a)) as h3.
    { generalize dependent (qf (S n) B (fun i => A n i / a)). intros q h2. clear - hd h2. qcnra. }
    replace 0 with (0 + 0) by ring. now apply Qcplus_le_compat.
Qed.
Lemma mdot_comm n A B : mdot n A B = mdot n B A.
Proof. unfold mdot. apply sumn_ext. intros; apply sumn_ext; intros; ring. Qed.
Lemma mdot_add n A B C : mdot n A (fun i j => B i j + C i j) = mdot n A B + mdot n A C.
Proof. unfold mdot. rewrite <- sumn_add. apply sumn_ext. intros. rewrite <- sumn_add. apply sumn_ext. intros; ring. Qed.
Lemma mdot_scale n A c B : mdot n A (fun i j => c * B i j) = c * mdot n A B.
Proof. unfold mdot. rewrite <- sumn_scale. apply sumn_ext. intros. rewrite <- sumn_scale. apply sumn_ext. intros; ring. Qed.
Lemma mdot_0 n A : mdot n A (fun _ _ => 0) = 0.
Proof. unfold mdot. transitivity (sumn n (fun _ => 0)); [|apply sumn_0]. apply sumn_ext. intros. transitivity (sumn n (fun _ => 0)); [|apply sumn_0]. apply sumn_ext. intros; ring. Qed.
Lemma mdot_sum {X} n A (l : list X) (f : X -> matrix) : mdot n A (fun i j => sumQ (map (fun x => f x i j) l)) = sumQ (map (fun x => mdot n A (f x)) l).
Proof.
  induction l as [|x l IH]; [apply mdot_0|]. cbn [map]. rewrite sumQ_cons, <- IH, <- mdot_add. apply mdot_ext. intros; split; [reflexivity|apply sumQ_cons].
Qed.
