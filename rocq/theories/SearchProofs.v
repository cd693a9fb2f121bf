From Coq Require Import List Arith Bool ZArith QArith Qcanon Qround Lia Lqa.
From Verif Require Import QcArith SearchModel.
Import ListNotations.
Open Scope Qc_scope.

Lemma qltb_true x y : qltb x y = true <-> x < y.
Proof. unfold qltb. destruct (Qclt_le_dec x y); split; intros; auto; try discriminate. exfalso. qclra. Qed.
Lemma qltb_false x y : qltb x y = false <-> y <= x.
Proof. unfold qltb. destruct (Qclt_le_dec x y); split; intros; auto; try discriminate. exfalso. qclra. Qed.
Lemma qleb_true x y : qleb x y = true <-> x <= y.
Proof. unfold qleb. rewrite negb_true_iff. apply qltb_false. Qed.
Lemma qleb_false x y : qleb x y = false <-> y < x.
Proof. unfold qleb. rewrite negb_false_iff. apply qltb_true. Qed.
Lemma qabs_case x : (0 <= x /\ qabs x = x) \/ (x < 0 /\ qabs x = - x).
Proof. unfold qabs. destruct (qltb x 0) eqn:E; [right|left]; split; auto; [apply qltb_true|apply qltb_false]; assumption. Qed.
Lemma qabs_nonneg x : 0 <= qabs x.
Proof. destruct (qabs_case x) as [(A & ->)|(A & ->)]; qclra. Qed.
Lemma qmin_spec x y : (x <= y /\ qmin x y = x) \/ (y < x /\ qmin x y = y).
Proof. unfold qmin. destruct (qltb y x) eqn:E; [right|left]; split; auto; [apply qltb_true|apply qltb_false]; assumption. Qed.
Lemma qmax_spec x y : (y <= x /\ qmax x y = x) \/ (x < y /\ qmax x y = y).
Proof. unfold qmax. destruct (qltb x y) eqn:E; [right|left]; split; auto; [apply qltb_true|apply qltb_false]; assumption. Qed.

Lemma this_z2q z : (this (z2q z) == inject_Z z)%Q.
Proof. apply (Qred_correct (inject_Z z)). Qed.
Lemma this_half : (this half == 1 # 2)%Q. Proof. reflexivity. Qed.
Lemma half_plus : half + half = 1. Proof. apply Qc_is_canon. reflexivity. Qed.

(** ** rounding *)
Lemma floor_bounds (x : Qc) : z2q (Qfloor (this x)) <= x /\ x < z2q (Qfloor (this x)) + 1.
Proof.
  pose proof (Qfloor_le (this x)) as A. pose proof (Qlt_floor (this x)) as B. rewrite inject_Z_plus in B.
  unfold Qcle, Qclt. rewrite this_add, this_z2q, this_1. change (inject_Z 1) with 1%Q in B. split; lra. Qed.
Lemma z2q_succ z : z2q (z + 1) = z2q z + 1.
Proof. apply Qc_is_canon. rewrite this_add, !this_z2q, inject_Z_plus, this_1. reflexivity. Qed.
Lemma rint_close x : qabs (z2q (rint x) - x) <= half.
Proof.
  unfold rint. destruct (floor_bounds x) as (A & B). set (f := Qfloor (this x)) in *. pose proof half_plus as HP.
  assert (K : forall v, - half <= v -> v <= half -> qabs v <= half) by (intros v V1 V2; destruct (qabs_case v) as [(C & ->)|(C & ->)]; qclra).
  apply K; destruct (qltb (x - z2q f) half) eqn:E1.
  - apply qltb_true in E1. qclra.
  - apply qltb_false in E1. destruct (qltb half (x - z2q f)) eqn:E2; [apply qltb_true in E2; rewrite z2q_succ; qclra|].
    apply qltb_false in E2. destruct (Z.even f); rewrite ?z2q_succ; qclra.
  - apply qltb_true in E1. assert (0 < half) by reflexivity. qclra.
  - apply qltb_false in E1. destruct (qltb half (x - z2q f)) eqn:E2; [apply qltb_true in E2; rewrite z2q_succ; qclra|].
    apply qltb_false in E2. destruct (Z.even f); rewrite ?z2q_succ; qclra. Qed.
Lemma z2q_le a b : (a <= b)%Z <-> z2q a <= z2q b.
Proof. unfold Qcle. rewrite !this_z2q. rewrite <- Zle_Qle. tauto. Qed.
Lemma z2q_0 : z2q 0 = 0. Proof. apply Qc_is_canon. reflexivity. Qed.
Lemma rint_nonneg x : 0 <= x -> 0 <= z2q (rint x).
Proof.
  intros X. rewrite <- z2q_0. apply (proj1 (z2q_le _ _)). pose proof (rint_close x) as R. assert (half < 1) by reflexivity.
  destruct (Z.le_gt_cases 0 (rint x)) as [L|L]; [assumption|exfalso].
  assert (z2q (rint x) <= z2q (-1)) as Q by (apply -> z2q_le; lia). assert (z2q (-1) = - (1)) as M by (apply Qc_is_canon; reflexivity). rewrite M in Q.
  destruct (qabs_case (z2q (rint x) - x)) as [(C & D)|(C & D)]; rewrite D in R; qclra. Qed.
Lemma rint_nonpos x : x <= 0 -> z2q (rint x) <= 0.
Proof.
  intros X. rewrite <- z2q_0. apply (proj1 (z2q_le _ _)). pose proof (rint_close x) as R. assert (half < 1) by reflexivity.
  destruct (Z.le_gt_cases (rint x) 0) as [L|L]; [assumption|exfalso].
  assert (z2q 1 <= z2q (rint x)) as Q by (apply -> z2q_le; lia). assert (z2q 1 = 1) as M by (apply Qc_is_canon; reflexivity). rewrite M in Q.
  destruct (qabs_case (z2q (rint x) - x)) as [(C & D)|(C & D)]; rewrite D in R; qclra. Qed.
Lemma rint_integer z : rint (z2q z) = z.
Proof.
  unfold rint. assert (F : Qfloor (this (z2q z)) = z) by (rewrite (Qfloor_comp _ _ (this_z2q z)); apply Qfloor_Z). rewrite F.
  replace (z2q z - z2q z) with 0 by ring. reflexivity. Qed.
Lemma ten_to_pos d : 0 < ten_to d.
Proof. unfold ten_to, Qclt. rewrite this_z2q, this_0. change 0%Q with (inject_Z 0). rewrite <- Zlt_Qlt. apply Z.pow_pos_nonneg; lia. Qed.
Lemma ten_to_nz d : ten_to d <> 0.
Proof. pose proof (ten_to_pos d) as P. intros E. rewrite E in P. exact (Qclt_not_eq _ _ P eq_refl). Qed.
Lemma inv_pos c : 0 < c -> 0 < / c.
Proof. unfold Qclt. intros H. rewrite this_0 in *. cbn [Qcinv this Q2Qc]. rewrite Qred_correct. apply Qinv_lt_0_compat. assumption. Qed.
Lemma pos_nz c : 0 < c -> c <> 0.
Proof. intros P E. rewrite E in P. exact (Qclt_not_eq _ _ P eq_refl). Qed.
Lemma div_mul a c : 0 < c -> a / c * c = a.
Proof. intros P. field. apply pos_nz. assumption. Qed.
Lemma qabs_div a c : 0 < c -> qabs (a / c) = qabs a / c.
Proof.
  intros P. pose proof (div_mul a c P) as E. destruct (qabs_case a) as [(A & ->)|(A & ->)], (qabs_case (a / c)) as [(B & ->)|(B & ->)].
  - reflexivity.
  - exfalso. assert (0 < c * - (a / c)) by qcnra. qclra.
  - exfalso. assert (0 <= c * (a / c)) by qcnra. qclra.
  - field. apply pos_nz. assumption. Qed.
Lemma mul_pos_le a b c : 0 < c -> a * c <= b * c -> a <= b.
Proof. intros P L. destruct (Qclt_le_dec b a) as [G|G]; [exfalso; qcnra|assumption]. Qed.
Lemma div_nonneg a c : 0 < c -> 0 <= a -> 0 <= a / c.
Proof. intros P A. apply (mul_pos_le _ _ c P). rewrite div_mul by assumption. qclra. Qed.
Lemma div_nonpos a c : 0 < c -> a <= 0 -> a / c <= 0.
Proof. intros P A. apply (mul_pos_le _ _ c P). rewrite div_mul by assumption. qclra. Qed.
Lemma div_le a b c : 0 < c -> a <= b -> a / c <= b / c.
Proof. intros P A. apply (mul_pos_le _ _ c P). rewrite !div_mul by assumption. assumption. Qed.

Lemma np_round_close x d : qabs (np_round x d - x) <= half / ten_to d.
Proof.
  unfold np_round. pose proof (ten_to_pos d) as P.
  replace (z2q (rint (x * ten_to d)) / ten_to d - x) with ((z2q (rint (x * ten_to d)) - x * ten_to d) / ten_to d) by (field; apply ten_to_nz).
  rewrite qabs_div by assumption. apply div_le; [assumption|apply rint_close]. Qed.
Lemma np_round_0 d : np_round 0 d = 0.
Proof. unfold np_round. replace (0 * ten_to d) with (z2q 0) by (rewrite z2q_0; ring). rewrite rint_integer, z2q_0. field. apply ten_to_nz. Qed.
Lemma np_round_nonneg x d : 0 <= x -> 0 <= np_round x d.
Proof. intros X. unfold np_round. pose proof (ten_to_pos d) as P. apply div_nonneg; [assumption|]. apply rint_nonneg. qcnra. Qed.
Lemma np_round_nonpos x d : x <= 0 -> np_round x d <= 0.
Proof. intros X. unfold np_round. pose proof (ten_to_pos d) as P. apply div_nonpos; [assumption|]. apply rint_nonpos. qcnra. Qed.

(** ** extrema *)
Lemma fold_min l : forall a, In (fold_left qmin l a) (a :: l) /\ forall x, In x (a :: l) -> fold_left qmin l a <= x.
Proof.
  induction l as [|b l IH]; intros a; cbn [fold_left].
  - split; [left; reflexivity|]. intros x [<-|[]]. apply Qcle_refl.
  - destruct (IH (qmin a b)) as (I & M). destruct (qmin_spec a b) as [(L & E)|(L & E)]; rewrite E in *.
    + split; [destruct I as [I|I]; [left|right; right]; assumption|]. intros x [<-|[<-|X]]; [apply M; left; reflexivity| |apply M; right; assumption].
      apply Qcle_trans with a; [apply M; left; reflexivity|assumption].
    + split; [right; assumption|]. intros x [<-|[<-|X]]; [|apply M; left; reflexivity|apply M; right; assumption].
      apply Qcle_trans with b; [apply M; left; reflexivity|apply Qclt_le_weak; assumption]. Qed.
Lemma fold_max l : forall a, In (fold_left qmax l a) (a :: l) /\ forall x, In x (a :: l) -> x <= fold_left qmax l a.
Proof.
  induction l as [|b l IH]; intros a; cbn [fold_left].
  - split; [left; reflexivity|]. intros x [<-|[]]. apply Qcle_refl.
  - destruct (IH (qmax a b)) as (I & M). destruct (qmax_spec a b) as [(L & E)|(L & E)]; rewrite E in *.
    + split; [destruct I as [I|I]; [left|right; right]; assumption|]. intros x [<-|[<-|X]]; [apply M; left; reflexivity| |apply M; right; assumption].
      apply Qcle_trans with a; [assumption|apply M; left; reflexivity].
    + split; [right; assumption|]. intros x [<-|[<-|X]]; [|apply M; left; reflexivity|apply M; right; assumption].
      apply Qcle_trans with b; [apply Qclt_le_weak; assumption|apply M; left; reflexivity]. Qed.
Lemma min_of_spec l m : min_of l = Some m -> In m l /\ forall x, In x l -> m <= x.
Proof. destruct l; [discriminate|]. intros E. injection E as <-. apply fold_min. Qed.
Lemma max_of_spec l m : max_of l = Some m -> In m l /\ forall x, In x l -> x <= m.
Proof. destruct l; [discriminate|]. intros E. injection E as <-. apply fold_max. Qed.
Lemma min_of_none l : min_of l = None <-> l = []. Proof. destruct l; cbn; split; intros; (reflexivity || discriminate). Qed.
Lemma max_of_none l : max_of l = None <-> l = []. Proof. destruct l; cbn; split; intros; (reflexivity || discriminate). Qed.
