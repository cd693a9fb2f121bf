(** C31: cleaning certificates; C32: searching for a critical parameter. *)
From Coq Require Import List Arith Bool ZArith QArith Qcanon Qround Lia Lqa.
From Verif Require Import QcArith SearchModel SearchProofs.
Import ListNotations.
Open Scope Qc_scope.

(** ** C31 *)
Lemma clean_inv {key} (cert : list (key * Qc)) tol d out : cert <> [] -> clean_coefficients cert tol d = Some out ->
  exists f, In f (map qabs (filter (fun c => qltb (qabs tol) (qabs c)) (map snd cert))) /\
    (0 < qabs tol -> forall x, In x (map qabs (filter (fun c => qltb (qabs tol) (qabs c)) (map snd cert))) -> f <= x) /\
    (qabs tol = 0 -> forall x, In x (map qabs (filter (fun c => qltb (qabs tol) (qabs c)) (map snd cert))) -> x <= f) /\
    out = map (fun kc => (fst kc, np_round (if qleb (qabs (snd kc / f)) (qabs tol) then 0 else snd kc / f) d)) cert.
Proof.
  intros NE E. destruct cert as [|p cert']; [congruence|]. unfold clean_coefficients in E. set (cert := p :: cert') in *. cbn zeta in E.
  set (large := map qabs _) in *.
  destruct (if qltb 0 (qabs tol) then min_of large else max_of large) as [f|] eqn:F; [|discriminate]. exists f.
  assert (O : combine (map fst cert) (map (fun c => np_round c d) (map (fun c => if qleb (qabs c) (qabs tol) then 0 else c) (map (fun c => c / f) (map snd cert))))
            = map (fun kc => (fst kc, np_round (if qleb (qabs (snd kc / f)) (qabs tol) then 0 else snd kc / f) d)) cert).
  { clear. induction cert as [|a l IH]; [reflexivity|]. cbn [map combine]. f_equal. exact IH. }
  rewrite <- O. assert (E' : out = combine (map fst cert) (map (fun c => np_round c d) (map (fun c => if qleb (qabs c) (qabs tol) then 0 else c) (map (fun c => c / f) (map snd cert))))) by congruence. destruct (qltb 0 (qabs tol)) eqn:T.
  - apply min_of_spec in F. destruct F as (I & M). split; [assumption|split; [intros _; assumption|split; [|exact E']]]. intros Z. apply qltb_true in T. rewrite Z in T. discriminate.
  - apply max_of_spec in F. destruct F as (I & M). split; [assumption|split; [|split; [intros _; assumption|exact E']]]. intros Z. apply qltb_true in Z. congruence. Qed.

(** One coefficient of the result: same key, and one common positive factor [f]; it vanishes
    if the rescaled coefficient does not exceed the threshold, and otherwise it is that
    rounded to [d] decimals. *)
Definition cleaned {key} (tol f : Qc) (d : nat) (before after : key * Qc) : Prop :=
  fst after = fst before /\
  (qabs (snd before / f) <= qabs tol /\ snd after = 0 \/
   qabs tol < qabs (snd before / f) /\ qabs (snd after - snd before / f) <= half / ten_to d /\ exists z, snd after = z2q z / ten_to d) /\
  (0 <= snd before -> 0 <= snd after) /\ (snd before <= 0 -> snd after <= 0).
(** The factor is the absolute value of a coefficient above the threshold: the smallest such
    one, or for threshold 0 the largest. *)
Theorem C31_cleaning {key} (cert : list (key * Qc)) tol d out : cert <> [] -> clean_coefficients cert tol d = Some out ->
  exists f, 0 < f /\ (exists kc, In kc cert /\ qabs (snd kc) = f /\ qabs tol < f) /\
    (tol <> 0 -> forall kc, In kc cert -> qabs tol < qabs (snd kc) -> f <= qabs (snd kc)) /\
    (tol = 0 -> forall kc, In kc cert -> qabs (snd kc) <= f) /\
    Forall2 (cleaned tol f d) cert out.
Proof.
  intros NE E. destruct (clean_inv cert tol d out NE E) as (f & I & MI & MA & ->). exists f.
  assert (IN : forall kc, In kc cert -> qabs tol < qabs (snd kc) -> In (qabs (snd kc)) (map qabs (filter (fun c => qltb (qabs tol) (qabs c)) (map snd cert)))).
  { intros kc K L. apply in_map, filter_In. split; [apply in_map; assumption|apply qltb_true; assumption]. }
  apply in_map_iff in I. destruct I as (c & <- & I). apply filter_In in I. destruct I as (I & L). apply qltb_true in L. apply in_map_iff in I. destruct I as (kc & <- & I).
  pose proof (qabs_nonneg tol) as TN. assert (P : 0 < qabs (snd kc)) by qclra.
  split; [assumption|]. split; [exists kc; auto|]. split; [|split].
  - intros T kc' K L'. apply MI; [|apply IN; assumption]. destruct (qabs_case tol) as [(A & ->)|(A & ->)]; [|qclra].
    destruct (Qclt_le_dec 0 tol) as [H|H]; [assumption|]. exfalso. apply T. qclra.
  - intros -> kc' K. assert (Z : qabs 0 = 0) by reflexivity. destruct (Qclt_le_dec (qabs 0) (qabs (snd kc'))) as [H|H]; [apply MA; [assumption|]; apply IN; assumption|]. rewrite Z in H. qclra.
  - clear - P. induction cert as [|a l IH]; [constructor|]. constructor; [|exact IH]. unfold cleaned. cbn [fst snd].
    split; [reflexivity|]. destruct (qleb _ _) eqn:E; [apply qleb_true in E|apply qleb_false in E].
    + rewrite np_round_0. split; [left; split; [assumption|reflexivity]|]. split; intros; qclra.
    + split; [right; split; [assumption|split; [apply np_round_close|eexists; reflexivity]]|].
      split; intros S; [apply np_round_nonneg, div_nonneg; assumption|apply np_round_nonpos, div_nonpos; assumption]. Qed.

(** It fails exactly when there are coefficients but none exceeds the threshold. *)
Theorem C31_fails_exactly {key} (cert : list (key * Qc)) tol d :
  clean_coefficients cert tol d = None <-> cert <> [] /\ forall kc, In kc cert -> qabs (snd kc) <= qabs tol.
Proof.
  destruct cert as [|p cert']; [cbn; split; [discriminate|intros (N & _); congruence]|]. set (cert := p :: cert').
  set (large := map qabs (filter (fun c => qltb (qabs tol) (qabs c)) (map snd cert))).
  assert (N : clean_coefficients cert tol d = None <-> large = []).
  { unfold clean_coefficients. cbn [cert]. cbn zeta. fold cert. fold large. destruct (qltb 0 (qabs tol)); [rewrite <- min_of_none; destruct (min_of large)|rewrite <- max_of_none; destruct (max_of large)]; split; intros; (reflexivity || discriminate). }
  rewrite N. split.
  - intros Z. split; [discriminate|]. intros kc K. destruct (Qclt_le_dec (qabs tol) (qabs (snd kc))) as [L|L]; [exfalso|assumption].
    assert (IN : In (qabs (snd kc)) large) by (apply in_map, filter_In; split; [apply in_map; assumption|apply qltb_true; assumption]). rewrite Z in IN. destruct IN.
  - intros (_ & A). unfold large. destruct (filter _ _) as [|c l] eqn:F; [reflexivity|exfalso]. assert (I : In c (c :: l)) by (left; reflexivity). rewrite <- F in I.
    apply filter_In in I. destruct I as (I & L). apply qltb_true in L. apply in_map_iff in I. destruct I as (kc & <- & I). specialize (A kc I). qclra. Qed.

(** With threshold 0 the result does not depend on the scale of the certificate. *)
Lemma qabs_scale s c : 0 < s -> qabs (s * c) = s * qabs c.
Proof. intros P. destruct (qabs_case c) as [(A & ->)|(A & ->)], (qabs_case (s * c)) as [(B & ->)|(B & ->)]; try ring; exfalso; qcnra. Qed.
Lemma max_of_scale s l : 0 < s -> max_of (map (fun c => s * c) l) = option_map (fun c => s * c) (max_of l).
Proof.
  intros P. destruct l as [|a l]; [reflexivity|]. cbn [map max_of option_map]. f_equal. revert a. induction l as [|b l IH]; intros a; [reflexivity|]. cbn [map fold_left]. rewrite <- IH. f_equal.
  destruct (qmax_spec a b) as [(A & ->)|(A & ->)], (qmax_spec (s * a) (s * b)) as [(B & ->)|(B & ->)]; try reflexivity; exfalso; qcnra. Qed.
Lemma clean_nonempty {key} (cert : list (key * Qc)) tol d : cert <> [] -> clean_coefficients cert tol d =
  match (if qltb 0 (qabs tol) then min_of (map qabs (filter (fun c => qltb (qabs tol) (qabs c)) (map snd cert)))
         else max_of (map qabs (filter (fun c => qltb (qabs tol) (qabs c)) (map snd cert)))) with
  | None => None
  | Some f => Some (combine (map fst cert) (map (fun c => np_round c d) (map (fun c => if qleb (qabs c) (qabs tol) then 0 else c) (map (fun c => c / f) (map snd cert)))))
  end.
Proof. destruct cert; [congruence|reflexivity]. Qed.
Theorem C31_scale_invariant {key} (cert : list (key * Qc)) s d : 0 < s ->
  clean_coefficients (map (fun kc => (fst kc, s * snd kc)) cert) 0 d = clean_coefficients cert 0 d.
Proof.
  intros P. destruct cert as [|p cert']; [reflexivity|]. set (cert := p :: cert').
  rewrite (clean_nonempty cert) by discriminate. rewrite clean_nonempty by discriminate.
  assert (M : map snd (map (fun kc : key * Qc => (fst kc, s * snd kc)) cert) = map (fun c => s * c) (map snd cert)) by (rewrite !map_map; reflexivity).
  assert (K : map fst (map (fun kc : key * Qc => (fst kc, s * snd kc)) cert) = map fst cert) by (rewrite map_map; reflexivity). rewrite M, K.
  change (qltb 0 (qabs 0)) with false. cbn match.
  assert (L : map qabs (filter (fun c => qltb (qabs 0) (qabs c)) (map (fun c => s * c) (map snd cert))) = map (fun c => s * c) (map qabs (filter (fun c => qltb (qabs 0) (qabs c)) (map snd cert)))).
  { generalize (map snd cert). intros l. induction l as [|c l IH]; [reflexivity|]. cbn [map filter].
    assert (B : qltb (qabs 0) (qabs (s * c)) = qltb (qabs 0) (qabs c)).
    { change (qabs 0) with 0. rewrite qabs_scale by assumption. destruct (qltb 0 (qabs c)) eqn:E; [apply qltb_true in E; apply qltb_true|apply qltb_false in E; apply qltb_false]; qcnra. }
    rewrite B. destruct (qltb (qabs 0) (qabs c)); [|exact IH]. cbn [map]. rewrite qabs_scale by assumption. f_equal. exact IH. }
  rewrite L, max_of_scale by assumption. destruct (max_of _) as [f|] eqn:F; [|reflexivity]. cbn [option_map].
  apply max_of_spec in F. destruct F as (I & _). apply in_map_iff in I. destruct I as (c & <- & I). apply filter_In in I. destruct I as (_ & I). apply qltb_true in I. change (qabs 0) with 0 in I.
  do 2 f_equal. rewrite !map_map. apply map_ext. intros x. replace (s * snd x / (s * qabs c)) with (snd x / qabs c); [reflexivity|]. field. split; apply pos_nz; assumption. Qed.

Definition q (n : Z) (p : positive) : Qc := Q2Qc (n # p).
Definition values (o : option (list (nat * Qc))) : option (list (nat * Q)) := option_map (map (fun kv => (fst kv, this (snd kv)))) o.
Example C31_example : values (clean_coefficients [(1%nat, q 1 5); (2%nat, q (-1) 2); (3%nat, q 1 100)] (q 1 10) 3) = Some [(1%nat, 1 # 1); (2%nat, -5 # 2); (3%nat, 0 # 1)]%Q.
Proof. vm_compute. reflexivity. Qed.
(** The threshold applies after rescaling, not to the certificate's own coefficients as
    documented: a coefficient below it can be kept, and coefficients above it dropped. *)
Theorem C31_documented_threshold_refuted :
  values (clean_coefficients [(1%nat, q 1 5); (2%nat, q 1 20)] (q 1 10) 3) = Some [(1%nat, 1 # 1); (2%nat, 1 # 4)]%Q /\
  values (clean_coefficients [(1%nat, q 3 1); (2%nat, q 5 1)] (q 2 1) 3) = Some [(1%nat, 0 # 1); (2%nat, 0 # 1)]%Q.
Proof. split; vm_compute; reflexivity. Qed.

(** ** C32: bisection *)
Section Bisect.
Variable f : Qc -> Qc.
Variables (xtol rtol : Qc).
Hypothesis (XT : 0 < xtol) (RT : 0 <= rtol).

Lemma half_bounds : 0 < half /\ half < 1 /\ half + half = 1.
Proof. repeat split; try reflexivity. apply half_plus. Qed.
Lemma nonzero_sign x : x <> 0 -> signbit x = false -> 0 < x.
Proof. intros N S0. unfold signbit in S0. apply qltb_false in S0. destruct (Qclt_le_dec 0 x) as [H|H]; [assumption|exfalso]. apply N. qclra. Qed.

(** the bracket: f positive at its lower end and negative at its upper end *)
Lemma loop_bracket iter : forall xa dm m r m', bisect_loop f false xtol rtol iter xa dm m = (Returned r, m') -> 0 < dm -> 0 < f xa -> f (xa + dm) < 0 ->
  xa < r /\ r < xa + dm /\
  (f r = 0 \/ exists lo hi, xa <= lo /\ hi <= xa + dm /\ 0 < f lo /\ f hi < 0 /\ lo < r /\ r < hi /\ r - lo = hi - r /\ r - lo < xtol + rtol * qabs r).
Proof.
  induction iter as [|iter IH]; intros xa dm m r m' E D FA FB; [discriminate|]. cbn [bisect_loop] in E. cbn zeta in E.
  destruct half_bounds as (H0 & H1 & H2). set (dm' := dm * half) in *. assert (D' : dm' + dm' = dm) by (unfold dm'; replace dm with (dm * (half + half)) at 3 by (rewrite H2; ring); ring).
  assert (DP : 0 < dm') by qclra. set (xm := xa + dm') in *.
  destruct ((if Qc_eq_dec (f xm) 0 then true else false) || qltb (qabs dm') (xtol + rtol * qabs xm)) eqn:X.
  - injection E as <- <-. split; [unfold xm; qclra|]. split; [unfold xm; qclra|]. apply orb_true_iff in X. destruct X as [X|X]; [left; destruct (Qc_eq_dec (f xm) 0); [assumption|discriminate]|].
    right. apply qltb_true in X. exists xa, (xa + dm). destruct (qabs_case dm') as [(C & CE)|(C & CE)]; [|qclra]. rewrite CE in X.
    split; [qclra|]. split; [qclra|]. split; [assumption|]. split; [assumption|]. split; [unfold xm; qclra|]. split; [unfold xm; qclra|]. split; [unfold xm; qclra|].
    replace (xm - xa) with dm' by (unfold xm; ring). assumption.
  - apply orb_false_iff in X. destruct X as (X & _). assert (NZ : f xm <> 0) by (destruct (Qc_eq_dec (f xm) 0); [discriminate|assumption]).
    destruct (Bool.eqb (signbit (f xm)) false) eqn:S0.
    + apply eqb_prop in S0. assert (XM : xm + dm' = xa + dm) by (unfold xm; qclra).
      apply IH in E; [|assumption|apply nonzero_sign; assumption|rewrite XM; assumption]. rewrite XM in E. destruct E as (A & B & C). unfold xm in A. split; [qclra|]. split; [assumption|].
      destruct C as [C|(lo & hi & C1 & C)]; [left; assumption|right]. exists lo, hi. split; [unfold xm in C1; qclra|assumption].
    + assert (SX : signbit (f xm) = true) by (destruct (signbit (f xm)); [reflexivity|discriminate]). apply qltb_true in SX.
      apply IH in E; [|assumption|assumption|assumption]. destruct E as (A & B & C). fold xm in B. unfold xm in B. split; [assumption|]. split; [qclra|].
      destruct C as [C|(lo & hi & C1 & C2 & C)]; [left; assumption|right]. exists lo, hi. split; [assumption|]. split; [fold xm in C2; unfold xm in C2; qclra|assumption]. Qed.

Lemma loop_terminates iter : forall sa xa dm m, 0 < dm -> dm < xtol * z2q (2 ^ Z.of_nat (S iter)) -> exists r m', bisect_loop f sa xtol rtol (S iter) xa dm m = (Returned r, m').
Proof.
  induction iter as [|iter IH]; intros sa xa dm m D L; cbn [bisect_loop]; cbn zeta;
    destruct half_bounds as (H0 & H1 & H2); set (dm' := dm * half); assert (D' : dm' + dm' = dm) by (unfold dm'; replace dm with (dm * (half + half)) at 3 by (rewrite H2; ring); ring);
    assert (DP : 0 < dm') by qclra; set (xm := xa + dm').
  - assert (Z : z2q (2 ^ Z.of_nat 1) = 1 + 1) by (apply Qc_is_canon; reflexivity). rewrite Z in L.
    assert (Q : qltb (qabs dm') (xtol + rtol * qabs xm) = true).
    { apply qltb_true. pose proof (qabs_nonneg xm) as A. destruct (qabs_case dm') as [(C & CE)|(C & CE)]; [|qclra]. rewrite CE. assert (0 <= rtol * qabs xm) by qcnra. qclra. }
    rewrite Q, orb_true_r. eauto.
  - destruct (_ || _); [eauto|]. apply IH; [assumption|].
    assert (Z : z2q (2 ^ Z.of_nat (S (S iter))) = (1 + 1) * z2q (2 ^ Z.of_nat (S iter))).
    { apply Qc_is_canon. rewrite this_mul, !this_z2q, this_add, this_1. rewrite (Nat2Z.inj_succ (S iter)), Z.pow_succ_r by lia. rewrite inject_Z_mult. reflexivity. }
    rewrite Z in L. set (w := z2q (2 ^ Z.of_nat (S iter))) in *. replace (xtol * ((1 + 1) * w)) with (xtol * w + xtol * w) in L by ring. qclra. Qed.

(** every cached value lies on the grid of the current bracket, so a midpoint never does *)
Lemma lru_cached x m y : In y (cached (lru_call x m)) -> y = x \/ In y (cached m).
Proof.
  unfold lru_call. destruct (memq x (cached m)); cbn [cached].
  - intros [<-|I]; [left; reflexivity|right]. apply filter_In in I. apply I.
  - cbn [firstn]. intros [<-|I]; [left; reflexivity|right]. destruct (cached m) as [|c l]; cbn in I; [destruct I|]. destruct I as [<-|[]]. left. reflexivity. Qed.
Lemma memq_In x l : memq x l = true <-> In x l.
Proof. unfold memq. rewrite existsb_exists. split; [intros (y & I & E); destruct (Qc_eq_dec x y); [subst; assumption|discriminate]|intros I; exists x; split; [assumption|]]. destruct (Qc_eq_dec x x); congruence. Qed.
Definition on_grid (xa dm : Qc) (l : list Qc) : Prop := forall y, In y l -> exists z, y = xa + z2q z * dm.
Lemma z2q_add a b : z2q (a + b) = z2q a + z2q b.
Proof. apply Qc_is_canon. rewrite this_add, !this_z2q, inject_Z_plus. reflexivity. Qed.
Lemma z2q_1 : z2q 1 = 1. Proof. apply Qc_is_canon. reflexivity. Qed.
Lemma z2q_opp a : z2q (- a) = - z2q a.
Proof. apply Qc_is_canon. rewrite this_opp, !this_z2q. reflexivity. Qed.
Lemma z2q_inj a b : z2q a = z2q b -> a = b.
Proof. intros E. apply Z.le_antisymm; apply (proj2 (z2q_le _ _)); rewrite E; apply Qcle_refl. Qed.
Lemma loop_last iter : forall sa xa dm m r m', bisect_loop f sa xtol rtol iter xa dm m = (Returned r, m') -> 0 < dm -> on_grid xa dm (cached m) ->
  exists l, evaluated m' = r :: l.
Proof.
  induction iter as [|iter IH]; intros sa xa dm m r m' E D G; [discriminate|]. cbn [bisect_loop] in E. cbn zeta in E.
  destruct half_bounds as (H0 & H1 & H2). set (dm' := dm * half) in *. assert (D' : dm' + dm' = dm) by (unfold dm'; replace dm with (dm * (half + half)) at 3 by (rewrite H2; ring); ring).
  assert (DP : 0 < dm') by qclra. set (xm := xa + dm') in *.
  destruct (_ || _) eqn:X.
  - injection E as <- <-. unfold lru_call. destruct (memq xm (cached m)) eqn:M; [|cbn [evaluated]; eauto]. exfalso. apply memq_In in M. destruct (G xm M) as (z & Z).
    assert (DZ : dm' = z2q (z + z) * dm') by (rewrite z2q_add; replace ((z2q z + z2q z) * dm') with (z2q z * (dm' + dm')) by ring; rewrite D'; unfold xm in Z; qclra).
    assert (O : z2q (z + z) - 1 = 0) by (apply (Qcmult_integral_l dm'); [apply pos_nz; assumption|]; replace (dm' * (z2q (z + z) - 1)) with (z2q (z + z) * dm' - dm') by ring; rewrite <- DZ; ring).
    assert (O' : (z + z)%Z = 1%Z) by (apply z2q_inj; rewrite z2q_1; qclra). lia.
  - assert (DM : forall z, z2q z * dm = z2q (z + z) * dm') by (intros z; rewrite z2q_add, <- D'; ring).
    eapply IH; [exact E|assumption|]. intros y Y. apply lru_cached in Y. destruct (Bool.eqb _ _).
    + destruct Y as [->|Y]; [exists 0%Z; rewrite z2q_0; ring|]. destruct (G y Y) as (z & ->). exists (z + z + - (1))%Z. rewrite DM, (z2q_add (z + z)), z2q_opp, z2q_1. unfold xm. ring.
    + destruct Y as [->|Y]; [exists 1%Z; rewrite z2q_1; unfold xm; ring|]. destruct (G y Y) as (z & ->). exists (z + z)%Z. rewrite DM. reflexivity. Qed.
End Bisect.

Lemma shift_pos precision : 0 < precision -> 0 < precision / z2q 2048.
Proof.
  intros P. assert (C : 0 < z2q 2048) by reflexivity. destruct (Qclt_le_dec 0 (precision / z2q 2048)) as [H|H]; [assumption|exfalso].
  pose proof (div_mul precision (z2q 2048) C) as D. qcnra. Qed.
Lemma bisect_run objective lower upper precision xtol rtol maxiter r m : lower < upper -> 0 < precision -> 0 < xtol -> 0 <= rtol ->
  maximize_via_bisect objective lower upper precision xtol rtol maxiter = (Returned r, m) ->
  let f := fun v => objective v + precision / z2q 2048 in
  f upper < 0 /\ ((r = lower /\ f lower = 0 /\ evaluated m = [lower; upper]) \/
    0 < f lower /\ exists m0, bisect_loop f false xtol rtol maxiter lower (upper - lower) m0 = (Returned r, m) /\ on_grid lower (upper - lower) (cached m0)).
Proof.
  intros LU P XT RT E f. unfold maximize_via_bisect in E. cbn zeta in E. unfold shift in E. pose proof (shift_pos precision P) as SP. set (s := precision / z2q 2048) in *. fold f in E.
  destruct (qltb (objective upper + s + s) 0) eqn:AU; [|discriminate]. destruct (qltb 0 (objective lower + s + s)) eqn:AL; [|discriminate].
  apply qltb_true in AU, AL. assert (FU : f upper < 0) by (unfold f; qclra). split; [assumption|]. unfold bisect in E. cbn zeta in E.
  assert (NE : lower <> upper) by (intros Q; rewrite Q in LU; exact (Qclt_not_eq _ _ LU eq_refl)).
  assert (M1 : lru_call lower (lru_call upper {| cached := []; evaluated := [] |}) = {| cached := [lower; upper]; evaluated := [lower; upper] |}).
  { unfold lru_call at 2. cbn. unfold lru_call. cbn. destruct (Qc_eq_dec lower upper); [contradiction|]. reflexivity. }
  rewrite M1 in E. set (m0 := lru_call upper (lru_call lower {| cached := [lower; upper]; evaluated := [lower; upper] |})) in *.
  assert (G : on_grid lower (upper - lower) (cached m0)).
  { intros y Y. unfold m0 in Y. assert (Y' : y = lower \/ y = upper) by (apply lru_cached in Y; destruct Y as [Y|Y]; [right; assumption|]; apply lru_cached in Y; destruct Y as [Y|[<-|[<-|[]]]]; auto).
    destruct Y' as [->| ->]; [exists 0%Z; rewrite z2q_0; ring|exists 1%Z; rewrite z2q_1; ring]. }
  assert (EV : evaluated m0 = [lower; upper]).
  { unfold m0, lru_call. cbn [cached evaluated]. replace (memq lower [lower; upper]) with true by (symmetry; apply memq_In; left; reflexivity). cbn [cached evaluated].
    match goal with |- context [memq upper ?l] => replace (memq upper l) with true end; [reflexivity|]. symmetry. apply memq_In. right. apply filter_In. split; [right; left; reflexivity|]. destruct (Qc_eq_dec lower upper); [contradiction|reflexivity]. }
  destruct (Qc_eq_dec (f lower) 0) as [Z|Z]; cbn match in E.
  - left. injection E as <- <-. auto.
  - destruct (Qc_eq_dec (f upper) 0) as [Z'|Z']; cbn match in E; [exfalso; rewrite Z' in FU; discriminate|].
    assert (SU : signbit (f upper) = true) by (apply qltb_true; assumption). rewrite SU in E. destruct (signbit (f lower)) eqn:SL; [discriminate|]. cbn [Bool.eqb] in E.
    right. split; [apply nonzero_sign; assumption|]. exists m0. split; assumption. Qed.

(** How the result of the search relates to the values reported by the solver: either the
    shifted value vanishes at the result, or the result is the middle of a bracket, not
    wider than twice the tolerance, whose ends are on the two sides. *)
Theorem C32_bisect_bracket objective lower upper precision xtol rtol maxiter r m : lower < upper -> 0 < precision -> 0 < xtol -> 0 <= rtol ->
  maximize_via_bisect objective lower upper precision xtol rtol maxiter = (Returned r, m) ->
  lower <= r <= upper /\
  (objective r = - (precision / z2q 2048) \/
   exists lo hi, lower <= lo /\ hi <= upper /\ - (precision / z2q 2048) < objective lo /\ objective hi < - (precision / z2q 2048) /\
     lo < r /\ r < hi /\ r - lo = hi - r /\ r - lo < xtol + rtol * qabs r).
Proof.
  intros LU P XT RT E. destruct (bisect_run _ _ _ _ _ _ _ _ _ LU P XT RT E) as (FU & H). cbn beta in *. set (s := precision / z2q 2048) in *.
  destruct H as [(-> & F & _)|(FL & m0 & L & _)].
  - split; [split; qclra|]. left. qclra.
  - apply loop_bracket in L; [|qclra|assumption|replace (lower + (upper - lower)) with upper by ring; assumption].
    replace (lower + (upper - lower)) with upper in L by ring. destruct L as (A & B & C). split; [split; qclra|].
    destruct C as [C|(lo & hi & C1 & C2 & C3 & C4 & C5)]; [left; qclra|right; exists lo, hi]. split; [assumption|]. split; [assumption|]. split; [qclra|]. split; [qclra|]. exact C5. Qed.
(** If the reported value is above the shift below a critical parameter and below it above,
    the search finds that parameter up to the tolerance. *)
Theorem C32_bisect_finds objective lower upper precision xtol rtol maxiter r m v : lower < upper -> 0 < precision -> 0 < xtol -> 0 <= rtol ->
  maximize_via_bisect objective lower upper precision xtol rtol maxiter = (Returned r, m) ->
  (forall x, lower <= x <= upper -> x < v -> - (precision / z2q 2048) < objective x) ->
  (forall x, lower <= x <= upper -> v < x -> objective x < - (precision / z2q 2048)) ->
  qabs (r - v) < xtol + rtol * qabs r.
Proof.
  intros LU P XT RT E B A. destruct (C32_bisect_bracket _ _ _ _ _ _ _ _ _ LU P XT RT E) as ((R1 & R2) & H). set (s := precision / z2q 2048) in *.
  pose proof (qabs_nonneg r) as NR. assert (T : 0 < xtol + rtol * qabs r) by (assert (0 <= rtol * qabs r) by qcnra; qclra). set (tol := xtol + rtol * qabs r) in *.
  assert (K : forall d, - tol < d -> d < tol -> qabs d < tol) by (intros d D1 D2; destruct (qabs_case d) as [(C & ->)|(C & ->)]; qclra).
  destruct H as [H|(lo & hi & H1 & H2 & H3 & H4 & H5 & H6 & H7 & H8)].
  - assert (V1 : ~ r < v) by (intros L; specialize (B r (conj R1 R2) L); qclra). assert (V2 : ~ v < r) by (intros L; specialize (A r (conj R1 R2) L); qclra). apply K; qclra.
  - assert (V1 : ~ v < lo) by (intros L; specialize (A lo ltac:(split; qclra) L); qclra). assert (V2 : ~ hi < v) by (intros L; specialize (B hi ltac:(split; qclra) L); qclra). apply K; qclra. Qed.
(** The result plus the tolerance bounds every feasible parameter, when feasibility (a
    non-negative value) of one parameter implies that of smaller ones. *)
Theorem C32_bisect_upper_bound objective lower upper precision xtol rtol maxiter r m : lower < upper -> 0 < precision -> 0 < xtol -> 0 <= rtol ->
  maximize_via_bisect objective lower upper precision xtol rtol maxiter = (Returned r, m) ->
  (forall x y, lower <= x -> x <= y -> y <= upper -> 0 <= objective y -> 0 <= objective x) ->
  forall v, lower <= v <= upper -> 0 <= objective v -> v < r + (xtol + rtol * qabs r).
Proof.
  intros LU P XT RT E MO v (V1 & V2) V. destruct (C32_bisect_bracket _ _ _ _ _ _ _ _ _ LU P XT RT E) as ((R1 & R2) & H). pose proof (shift_pos precision P) as SP. set (s := precision / z2q 2048) in *.
  pose proof (qabs_nonneg r) as NR. assert (T : 0 < xtol + rtol * qabs r) by (assert (0 <= rtol * qabs r) by qcnra; qclra). set (tol := xtol + rtol * qabs r) in *.
  destruct H as [H|(lo & hi & H1 & H2 & H3 & H4 & H5 & H6 & H7 & H8)].
  - destruct (Qclt_le_dec v r) as [L|L]; [qclra|exfalso]. specialize (MO r v R1 L V2 V). qclra.
  - destruct (Qclt_le_dec v hi) as [L|L]; [qclra|exfalso]. specialize (MO hi v ltac:(qclra) L V2 V). qclra. Qed.
(** It returns when the ends are clearly on the two sides and the iterations suffice. *)
Theorem C32_bisect_returns objective lower upper precision xtol rtol maxiter : lower < upper -> 0 < precision -> 0 < xtol -> 0 <= rtol ->
  - (precision / z2q 2048) <= objective lower -> objective upper < - (precision / z2q 2048 + precision / z2q 2048) ->
  (0 < maxiter)%nat -> upper - lower < xtol * z2q (2 ^ Z.of_nat maxiter) ->
  exists r m, maximize_via_bisect objective lower upper precision xtol rtol maxiter = (Returned r, m).
Proof.
  intros LU P XT RT OL OU MI W. pose proof (shift_pos precision P) as SP. unfold maximize_via_bisect. cbn zeta. unfold shift. set (s := precision / z2q 2048) in *.
  replace (qltb (objective upper + s + s) 0) with true by (symmetry; apply qltb_true; qclra). replace (qltb 0 (objective lower + s + s)) with true by (symmetry; apply qltb_true; qclra).
  unfold bisect. cbn zeta. destruct (Qc_eq_dec (objective lower + s) 0) as [Z|Z]; cbn match; [eauto|]. destruct (Qc_eq_dec (objective upper + s) 0) as [Z'|Z']; cbn match; [eauto|].
  replace (signbit (objective lower + s)) with false by (symmetry; apply qltb_false; qclra). replace (signbit (objective upper + s)) with true by (symmetry; apply qltb_true; qclra). cbn [Bool.eqb].
  destruct maxiter as [|maxiter]; [lia|]. apply loop_terminates; try assumption. qclra. Qed.
(** The certificate returned is the one obtained at the reported parameter, unless that one
    is empty. *)
Theorem C32_bisect_certificate objective lower upper precision xtol rtol maxiter r m nonempty : lower < upper -> 0 < precision -> 0 < xtol -> 0 <= rtol ->
  maximize_via_bisect objective lower upper precision xtol rtol maxiter = (Returned r, m) -> nonempty r = true -> last_certificate nonempty m = Some r.
Proof.
  intros LU P XT RT E N. destruct (bisect_run _ _ _ _ _ _ _ _ _ LU P XT RT E) as (FU & H). cbn beta in *. unfold last_certificate.
  assert (EV : exists l, evaluated m = r :: l).
  { destruct H as [(-> & F & EV)|(FL & m0 & L & G)]; [eauto|]. eapply loop_last; [exact L|qclra|exact G]. }
  destruct EV as (l & ->). cbn [find]. rewrite N. reflexivity. Qed.
(** The checks made beforehand do not suffice: a value at the lower bound slightly below
    minus the shift passes them, and the bisection then raises an error. *)
Theorem C32_bisect_checks_insufficient_refuted objective lower upper precision xtol rtol maxiter : let s := precision / z2q 2048 in 0 < precision ->
  objective lower + s < 0 -> 0 < objective lower + s + s -> objective upper + s + s < 0 ->
  fst (maximize_via_bisect objective lower upper precision xtol rtol maxiter) = Failed.
Proof.
  intros s P OL OL' OU. pose proof (shift_pos precision P) as SP. fold s in SP. unfold maximize_via_bisect. cbn zeta. unfold shift. fold s.
  replace (qltb (objective upper + s + s) 0) with true by (symmetry; apply qltb_true; qclra). replace (qltb 0 (objective lower + s + s)) with true by (symmetry; apply qltb_true; qclra).
  unfold bisect. cbn zeta. destruct (Qc_eq_dec (objective lower + s) 0) as [Z|Z]; [exfalso; rewrite Z in OL; discriminate|]. destruct (Qc_eq_dec (objective upper + s) 0) as [Z'|Z']; [exfalso; qclra|].
  replace (signbit (objective lower + s)) with true by (symmetry; apply qltb_true; qclra). replace (signbit (objective upper + s)) with true by (symmetry; apply qltb_true; qclra). reflexivity. Qed.
Example C32_bisect_example : match fst (maximize_via_bisect (fun v => q 1 3 - v) 0 1 (q 1 100) (q 1 100) 0 100) with Returned r => this r | Failed => 0%Q end = (43 # 128)%Q.
Proof. vm_compute. reflexivity. Qed.
Example C32_bisect_checks_example : let s := 1 / z2q 2048 in let objective := fun v => if Qc_eq_dec v 0 then - (s + s * half) else - (1) in
  objective 0 + s < 0 /\ 0 < objective 0 + s + s /\ objective 1 + s + s < 0 /\ fst (maximize_via_bisect objective 0 1 1 1 0 100) = Failed.
Proof. vm_compute. repeat split; reflexivity. Qed.

(** ** C32: search with dual certificates *)
(** the log: latest first; each seed is the previous critical value plus the precision (the
    first one is the upper bound), and all but the latest value are smaller than the one
    before by more than the precision *)
Inductive decreasing (upper precision : Qc) : list (Qc * Qc) -> Prop :=
| dec_one v : decreasing upper precision [(v, upper)]
| dec_more v w t l : decreasing upper precision ((w, t) :: l) ->
    (match l with [] => w + precision < upper - precision | (u, _) :: _ => w + precision < u end) ->
    decreasing upper precision ((v, w + precision) :: (w, t) :: l).
Definition loop_state (upper precision new : Qc) (old : option Qc) (log : list (Qc * Qc)) : Prop :=
  match old with
  | None => log = [] /\ new = upper - precision
  | Some o => decreasing upper precision log /\ (exists s l, log = (new, s) :: l /\ match l with [] => o = upper - precision | (w, _) :: _ => o = w end)
  end.
Section Dual.
Variable critical : Qc -> Qc.
Variables (upper precision : Qc).
Hypothesis PP : 0 < precision.

Lemma dual_loop_state fuel : forall new old log n o l, dual_loop critical precision fuel new old log = Some (n, o, l) -> loop_state upper precision new old log ->
  (forall p, In p log -> fst p = critical (snd p)) ->
  loop_state upper precision n o l /\ (exists x, o = Some x /\ x <= n + precision) /\ (forall p, In p l -> fst p = critical (snd p)).
Proof.
  induction fuel as [|fuel IH]; intros new old log n o l E LS CR; cbn [dual_loop] in E.
  - destruct old as [x|]; [|discriminate]. destruct (qltb (new + precision) x) eqn:Q; [discriminate|]. injection E as <- <- <-. apply qltb_false in Q. eauto.
  - destruct old as [x|].
    + destruct (qltb (new + precision) x) eqn:Q; [|injection E as <- <- <-; apply qltb_false in Q; eauto]. apply qltb_true in Q.
      apply IH in E; [exact E| |intros p [<-|I]; [reflexivity|apply CR; assumption]]. cbn [loop_state]. destruct LS as (D & s & l0 & EL & O). split.
      * rewrite EL in *. apply dec_more; [assumption|]. destruct l0 as [|(w & t) l0]; rewrite <- O; assumption.
      * eexists _, log. split; [reflexivity|]. rewrite EL. reflexivity.
    + apply IH in E; [exact E| |intros p [<-|I]; [reflexivity|apply CR; assumption]]. cbn [loop_state]. destruct LS as (-> & ->). replace (upper - precision + precision) with upper by ring. split; [constructor|].
      eexists _, []. split; reflexivity. Qed.

Lemma dual_loop_ends lower k : (forall s, lower <= critical s) -> forall fuel new o log, lower <= new -> new - lower < z2q (Z.of_nat k) * precision -> (k <= fuel)%nat ->
  dual_loop critical precision fuel new (Some o) log <> None.
Proof.
  intros LB. induction k as [|k IH]; intros fuel new o log LN W F.
  - exfalso. change (z2q (Z.of_nat 0)) with (z2q 0) in W. rewrite z2q_0 in W. qclra.
  - destruct fuel as [|fuel]; [lia|]. cbn [dual_loop]. destruct (qltb (new + precision) o); [|discriminate]. cbn zeta.
    set (v := critical (new + precision)). set (log' := _ :: log).
    destruct (Qclt_le_dec (v + precision) new) as [C|C].
    + apply IH; [apply LB| |lia]. rewrite Nat2Z.inj_succ in W. unfold Z.succ in W. rewrite z2q_succ in W.
      replace ((z2q (Z.of_nat k) + 1) * precision) with (z2q (Z.of_nat k) * precision + precision) in W by ring. qclra.
    + apply qltb_false in C. destruct fuel; cbn [dual_loop]; rewrite C; discriminate. Qed.
End Dual.

(** The search ends after a number of certificates bounded by the width over the precision. *)
Theorem C32_dual_terminates critical lower upper precision k fuel : 0 < precision -> (forall s, lower <= critical s <= upper) ->
  upper - lower < z2q (Z.of_nat k) * precision -> (k < fuel)%nat -> maximize_via_dual critical upper precision fuel <> NotFinished.
Proof.
  intros P B W F. unfold maximize_via_dual. destruct fuel as [|fuel]; [lia|]. cbn [dual_loop]. cbn zeta. replace (upper - precision + precision) with upper by ring.
  destruct (B upper) as (B1 & B2).
  pose proof (dual_loop_ends critical precision lower k ltac:(apply B) fuel (critical upper) (upper - precision) [(critical upper, upper)] B1 ltac:(qclra) ltac:(lia)) as T.
  destruct (dual_loop critical precision fuel _ _ _) as [((n & o) & l)|]; [|congruence]. destruct l as [|a [|b l]], o; discriminate. Qed.
(** The reported value is a critical value of some certificate; the last certificate's one is
    at most the precision below it; and the seeds and values go down as described. *)
Theorem C32_dual_descends critical upper precision fuel r last : 0 < precision -> maximize_via_dual critical upper precision fuel = Critical r last ->
  exists log, decreasing upper precision (last :: log) /\ log <> [] /\ (forall p, In p (last :: log) -> fst p = critical (snd p)) /\
    In r (map fst (last :: log)) /\ fst last <= r /\ r <= fst last + precision.
Proof.
  intros P E. unfold maximize_via_dual in E. destruct (dual_loop _ _ _ _ _ _) as [((n & o) & l)|] eqn:D; [|discriminate].
  apply (dual_loop_state critical upper precision) in D; [|split; reflexivity|intros p []]. destruct D as (LS & (x & -> & X) & CR).
  destruct l as [|a [|b l]]; try discriminate. injection E as <- <-. exists (b :: l). destruct LS as (DE & s & l' & EL & O). injection EL as -> <-. destruct b as (w & t). subst x. cbn [fst map].
  split; [assumption|]. split; [discriminate|]. split; [assumption|].
  destruct (qmax_spec n w) as [(A & ->)|(A & ->)]; (split; [|split; qclra]); cbn; auto. Qed.
(** If every certificate is valid (non-negative at all feasible parameters) and its critical
    value is an upper bound on the parameters where it is non-negative, the reported value
    bounds all feasible parameters from above. *)
Theorem C32_dual_sound critical (certificate : Qc -> Qc -> Qc) (feasible : Qc -> Prop) lower upper precision fuel r last : 0 < precision ->
  (forall s v, feasible v -> 0 <= certificate s v) -> (forall s v, lower <= v <= upper -> 0 <= certificate s v -> v <= critical s) ->
  maximize_via_dual critical upper precision fuel = Critical r last -> forall v, lower <= v <= upper -> feasible v -> v <= r.
Proof.
  intros P CV CM E v V F. destruct (C32_dual_descends _ _ _ _ _ _ P E) as (log & _ & _ & CR & I & _). apply in_map_iff in I. destruct I as (p & <- & I). rewrite (CR p I). apply CM; auto. Qed.
(** It reports a failure exactly when the first certificate cuts off less than twice the
    precision. *)
Theorem C32_dual_failure critical upper precision fuel : maximize_via_dual critical upper precision fuel <> NotFinished ->
  (maximize_via_dual critical upper precision fuel = AssertionFailed <-> upper - precision <= critical upper + precision).
Proof.
  unfold maximize_via_dual. destruct fuel as [|fuel]; [cbn; congruence|]. cbn [dual_loop]. cbn zeta. replace (upper - precision + precision) with upper by ring. intros NF.
  destruct (Qclt_le_dec (critical upper + precision) (upper - precision)) as [C|C].
  - split; [intros E|intros L; exfalso; qclra]. exfalso. apply qltb_true in C. destruct fuel as [|fuel]; cbn [dual_loop] in *; rewrite C in *; [apply NF; reflexivity|]. cbn zeta in *.
    assert (K : forall fuel n o l a b c, dual_loop critical precision fuel n (Some o) (a :: b :: c) = l -> match l with None => True | Some (_, o', l') => exists x a' b' c', o' = Some x /\ l' = a' :: b' :: c' end).
    { clear. induction fuel as [|fuel IH]; intros n o l a b c E; cbn [dual_loop] in E; destruct (qltb _ _); subst l; auto; try (do 4 eexists; split; reflexivity). eapply IH. reflexivity. }
    match type of NF with context [dual_loop _ _ ?a ?b (Some ?c) (?d :: ?e :: ?g)] => specialize (K a b c _ d e g eq_refl) end. destruct (dual_loop critical precision fuel _ _ _) as [((n & o) & l)|]; [|apply NF; reflexivity]. destruct K as (x & a' & b' & c' & -> & ->). discriminate.
  - split; [intros _; assumption|intros _]. apply qltb_false in C. destruct fuel as [|fuel]; cbn [dual_loop]; rewrite C; reflexivity. Qed.
Example C32_dual_example : match maximize_via_dual (fun s => s * half + q 1 8) 1 (q 1 100) 20 with Critical v last => (qleb (q 1 4) v, qltb v (q 28 100)) | _ => (false, false) end = (true, true).
Proof. vm_compute. reflexivity. Qed.
