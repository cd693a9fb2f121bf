(** C27: pre-processing of semidefinite programmes and certificates. *)
From Coq Require Import List Arith Bool Lia String QArith Qcanon.
From Verif Require Import MargModel QcSum QcArith SearchModel ProgramModel ProgramProofs Duality SDPSolveModel SDPSolveSpec PSD SDPSolveProofs SDPSolveProofs2 SDPSolveProofs3 SDPSolveProofs4 SDPSolveProofs5.
Import ListNotations.
Open Scope Qc_scope.

Lemma linear_open a x : linear_part a x <-> open_part a x /\ given_values a x.
Proof.
  unfold linear_part, open_part, given_values, relations, targets. split.
  - intros (h1 & h2 & h3 & h4 & h5). split; [|exact h1]. split; [exact h2|]. split; [exact h3|]. split; [exact h4|]. intros hn. destruct (h5 hn) as (q1 & q2). split; [assumption|].
    intros k hk. apply in_map_iff in hk as ((k0, (c, k2)) & <- & hin). cbn [snd]. exact (q2 _ _ _ hin).
  - intros ((h2 & h3 & h4 & h5) & h1). split; [exact h1|]. split; [exact h2|]. split; [exact h3|]. split; [exact h4|]. intros hn. destruct (h5 hn) as (q1 & q2). split; [assumption|].
    intros k c k2 hin. apply q2. exact (in_map (fun q => snd (snd q)) _ _ hin). Qed.
Lemma psd_iff n M M' : (forall i j, M i j = M' i j) -> psd n M <-> psd n M'.
Proof. intros h. split; apply psd_ext; intros; [apply h|symmetry; apply h]. Qed.
Lemma allowed_plain a : feas_as_optim a = false -> allowed a. Proof. intros h e. congruence. Qed.
Lemma lam_ok_plain a x : feas_as_optim a = false -> lam_ok a x. Proof. intros h e. congruence. Qed.
Lemma set_at_eq k l x : set_at k l x k = l. Proof. unfold set_at. destruct (string_dec k k); [reflexivity|contradiction]. Qed.
Lemma set_at_open a l x : lambda_free a -> open_part a x -> open_part a (set_at (lambda_name a) l x).
Proof.
  intros (l1 & l2 & l3) (h1 & h2 & h3 & h4). pose proof (lambda_not_name a l1) as hn.
  assert (forall k, k <> lambda_name a -> set_at (lambda_name a) l x k = x k) as he by (intros k hk; unfold set_at; destruct (string_dec k (lambda_name a)); [contradiction|reflexivity]).
  split; [|split; [|split]].
  - intros k c k2 hin. rewrite !he; [now apply h1| |].
    + intros ->. apply l3. exact (in_map (fun q => snd (snd q)) _ _ hin).
    + intros ->. apply l2. apply (in_map fst) in hin. exact hin.
  - intros d hd. rewrite expr_set_at; [auto|]. intros e. apply hn. now apply (in_all_eqs a d).
  - intros d hd. rewrite expr_set_at; [auto|]. intros e. apply hn. now apply (in_all_ineqs a d).
  - intros hd. destruct (h4 hd) as (q1 & q2). split; intros k hk; rewrite he; auto; intros ->; [|contradiction].
    destruct hk as (hk & _). contradiction. Qed.
Lemma set_at_given a l x : lambda_free a -> given_values a x -> given_values a (set_at (lambda_name a) l x).
Proof.
  intros (l1 & _) h k v hin. unfold set_at. destruct (string_dec k (lambda_name a)) as [->|]; [|now apply h]. exfalso. apply l1. apply (in_map fst) in hin. exact hin. Qed.
Lemma moment_set_at a l x i j : lambda_free a -> moment_matrix a (set_at (lambda_name a) l x) i j = moment_matrix a x i j.
Proof.
  intros (l1 & _). unfold moment_matrix. apply sumQ_ext. intros (k, M) hin. unfold set_at. destruct (string_dec k (lambda_name a)) as [->|]; [|reflexivity].
  exfalso. apply (lambda_not_name a l1). apply in_all_masks. apply (in_map fst) in hin. exact hin. Qed.
Lemma relaxed_matrix0 a l x i j : feas_as_optim a = true -> has_masks a = true -> lambda_free a -> NoDup (keys (mask_matrices a)) ->
  matrix0 a (set_at (lambda_name a) l x) i j = moment_matrix a x i j - (if Nat.eqb i j then l else 0).
Proof. intros h1 h2 h3 h4. rewrite (proj1 (start_relaxed a h1 h2 h3 h4 _)), (moment_set_at a l x i j h3), set_at_eq. reflexivity. Qed.

(** ** C27: the programme given to the solver describes the same points and values.  Every
    feasible assignment of all moments is a feasible point of the primal programme with the
    same value, and every feasible point of it extends to a feasible assignment. *)
Theorem C27_same_programme a p t :
  wf_args a -> feas_as_optim a = false -> preprocess a = Some p -> build_primal a p = Some t ->
  (forall x, feasible a x -> primal_feasible t x (moment_matrix a x) /\ primal_value t x = value a x) /\
  (forall y G, primal_feasible t y G ->
     exists x, feasible a x /\ value a x = primal_value t y /\ (forall k, In k (x_vars t) -> x k = y k) /\
       (has_masks a = true -> forall i j, (i < mat_dim a)%nat -> (j < mat_dim a)%nat -> G i j = moment_matrix a x i j)).
Proof.
  intros hwf hf hp ht. pose proof (allowed_plain a hf) as hal. split.
  - intros x (hl & hps). apply linear_open in hl as (ho & hx). destruct (start_plain a hf x) as (e1 & e2).
    destruct (to_primal a hwf hal p hp t x ho hx) as ((q1 & q2 & q3 & q4) & q5); [now apply (psd_iff _ _ _ e1)|now apply lam_ok_plain|assumption|].
    split; [|congruence]. split; [assumption|]. split; [assumption|]. split; [assumption|]. intros hm. destruct (q4 hm) as (q6 & q7). split; [now apply (psd_iff _ _ _ e1)|].
    intros i j h1 h2. rewrite <- e1. auto.
  - intros y G hG. destruct (from_primal a hwf hal p hp t y G ht hG) as (x & ho & hx & hps & _ & h1 & h2 & h3). destruct (start_plain a hf x) as (e1 & e2).
    exists x. split; [split; [now apply linear_open|now apply (psd_iff _ _ _ e1)]|]. split; [congruence|]. split; [assumption|].
    intros hm i j hi hj. rewrite <- e1. auto. Qed.

(** With feas_as_optim the value is a lower bound on all eigenvalues of the moment matrix. *)
Theorem C27_same_programme_relaxed a p t :
  wf_args a -> feas_as_optim a = true -> has_masks a = true -> lambda_free a -> preprocess a = Some p -> build_primal a p = Some t ->
  (forall x l, feasible_above a l x -> (default_non_negative a = true -> 0 <= l) -> exists y G, primal_feasible t y G /\ primal_value t y = l) /\
  (forall y G, primal_feasible t y G -> exists x, feasible_above a (primal_value t y) x).
Proof.
  intros hwf hf hm hlf hp ht. assert (allowed a) as hal by (intros _; now split). assert (NoDup (keys (mask_matrices a))) as nm by (destruct hwf; assumption). split.
  - intros x l (hl & hps) hn. apply linear_open in hl as (ho & hx). set (y := set_at (lambda_name a) l x).
    destruct (to_primal a hwf hal p hp t y) as (q1 & q2).
    + now apply set_at_open.
    + now apply set_at_given.
    + revert hps. apply psd_ext. intros i j _ _. symmetry. now apply relaxed_matrix0.
    + intros _ hd. unfold y. rewrite set_at_eq. auto.
    + assumption.
    + exists y, (matrix0 a y). split; [assumption|]. rewrite q2, (proj2 (start_relaxed a hf hm hlf nm y)). apply set_at_eq.
  - intros y G hG. destruct (from_primal a hwf hal p hp t y G ht hG) as (x & ho & hx & hps & _ & h1 & h2 & h3). exists x. split; [now apply linear_open|].
    rewrite h2, (proj2 (start_relaxed a hf hm hlf nm x)). revert hps. apply psd_ext. intros i j _ _. apply (proj1 (start_relaxed a hf hm hlf nm x)). Qed.

(** the programmes can be built if the semi-known moments are in the moment matrix *)
Theorem C27_total a :
  wf_args a -> (feas_as_optim a = true -> lambda_free a) -> has_masks a = true ->
  (forall k, In k (keys (semiknown_vars a)) -> In k (keys (mask_matrices a))) ->
  exists p, preprocess a = Some p /\ (exists t, build_dual a p = Some t) /\ (exists t, build_primal a p = Some t).
Proof.
  intros hwf hl hm hk. assert (allowed a) as hal by (intros e; split; [assumption|auto]). destruct (preprocess_total a hwf hal hm hk) as (p & hp & hmats).
  exists p. split; [assumption|]. now apply build_total. Qed.

(** ** C27: the value of every point of the dual bounds the programme *)
Theorem C27_dual_bound a p t s x :
  wf_args a -> feas_as_optim a = false -> preprocess a = Some p -> build_dual a p = Some t -> dual_feasible t s ->
  feasible a x -> value a x <= dual_value t s.
Proof.
  intros hwf hf hp ht hs (hl & hps). pose proof (allowed_plain a hf) as hal. apply linear_open in hl as (ho & hx). destruct (start_plain a hf x) as (e1 & e2).
  rewrite <- e2, (dual_value_over a hwf hal p hp x s t hx ht). apply (bound_holds a hwf hal p hp x s t); auto; [now apply (psd_iff _ _ _ e1)|now apply lam_ok_plain]. Qed.
Theorem C27_dual_bound_relaxed a p t s x l :
  wf_args a -> feas_as_optim a = true -> has_masks a = true -> lambda_free a -> preprocess a = Some p -> build_dual a p = Some t -> dual_feasible t s ->
  feasible_above a l x -> (default_non_negative a = true -> 0 <= l) -> l <= dual_value t s.
Proof.
  intros hwf hf hm hlf hp ht hs (hl & hps) hn. assert (allowed a) as hal by (intros _; now split). assert (NoDup (keys (mask_matrices a))) as nm by (destruct hwf; assumption).
  apply linear_open in hl as (ho & hx). set (y := set_at (lambda_name a) l x).
  assert (value0 a y = l) as el by (rewrite (proj2 (start_relaxed a hf hm hlf nm y)); apply set_at_eq).
  apply (Qcle_trans _ (value0 a y)); [rewrite el; apply Qcle_refl|]. clear el.
  rewrite (dual_value_over a hwf hal p hp y s t (set_at_given a l x hlf hx) ht). apply (bound_holds a hwf hal p hp y s t); auto.
  - now apply set_at_open.
  - revert hps. apply psd_ext. intros i j _ _. symmetry. now apply relaxed_matrix0.
  - intros _ hd. unfold y. rewrite set_at_eq. auto. Qed.

(** ** C27: the certificate.  It is a linear expression in the known moments.  For every other
    assignment v of values to the same moments, its value bounds the programme with these
    values from above. *)
Definition same_known (a : sdp_args) (v : ndict Qc) : Prop := forall k, In k (keys v) <-> In k (keys (known_vars a)).
Lemma open_with_known a v x : same_known a v -> open_part (with_known v a) x -> open_part a x.
Proof.
  intros hv (h1 & h2 & h3 & h4). split; [exact h1|]. split; [exact h2|]. split; [exact h3|]. intros hn. destruct (h4 hn) as (q1 & q2). split; [|exact q2].
  intros k (u1 & u2). apply q1. split; [exact u1|]. cbn [known_vars with_known]. now rewrite (hv k). Qed.
Lemma objective_known a p k : feas_as_optim a = false -> wf_args a -> preprocess a = Some p -> In k (keys (known_vars a)) ->
  getd 0 k (p_obj p) = getd 0 k (objective a) /\ mem k (keys (p_F p)) = mem k (keys (mask_matrices a)).
Proof.
  intros hf hwf hp hk. pose proof (allowed_plain a hf) as hal. destruct (pre_w a p hp) as (w & hw & e1 & e2 & e3 & _). pose proof (process_spec a w hwf hal hw) as D. split.
  - unfold getd. rewrite e3, (dn_get_obj _ _ D k hk). unfold start, relaxing. rewrite hf. reflexivity.
  - pose proof (dn_get_known _ _ D k hk 0%nat 0%nat) as q. rewrite e2.
    assert (keys (w_F (start a)) = keys (mask_matrices a)) as hkk by (unfold start, relaxing; rewrite hf; cbn [andb w_F]; apply keys_masks).
    rewrite <- hkk, <- (keys_Fent 0 0 (w_F w)), <- (keys_Fent 0 0 (w_F (start a))). unfold nget in q.
    destruct (mem k (keys (Fent 0 0 (w_F (start a))))) eqn:E.
    + apply mem_iff. apply mem_iff in E. apply (in_keys_get string_dec) in E as (v & e). rewrite e in q. apply (in_keys_get string_dec). now exists v.
    + apply mem_false. apply mem_false in E. apply (get_none string_dec) in E. rewrite E in q. now apply (get_none string_dec). Qed.
Theorem C27_certificate a p t s v x :
  wf_args a -> feas_as_optim a = false -> preprocess a = Some p -> build_dual a p = Some t -> dual_feasible t s ->
  (forall k c, In (k, c) (objective a) -> In k (keys (known_vars a)) -> In k (keys (mask_matrices a)) -> c = 0) ->
  same_known a v -> feasible (with_known v a) x -> value a x <= expr x (certificate a p s).
Proof.
  intros hwf hf hp ht hs hobj hv (hl & hps). pose proof (allowed_plain a hf) as hal. apply linear_open in hl as (ho & hx). apply (open_with_known a v x hv) in ho.
  change (psd (mat_dim a) (moment_matrix a x)) in hps. destruct (start_plain a hf x) as (e1 & e2).
  rewrite (certificate_expr a hwf hal p hp). rewrite <- e2.
  rewrite (sumk_ext _ (fun k => x k * getd 0 k (certificate a p s)) (fun k => x k * bound_coef a p s k)).
  - apply (bound_holds a hwf hal p hp x s t); auto; [now apply (psd_iff _ _ _ e1)|now apply lam_ok_plain].
  - intros k hk. f_equal. rewrite (proj2 (certificate_get a hwf hal p hp s) k hk), hf. unfold bound_coef, hcoef. destruct (objective_known a p k hf hwf hp hk) as (o1 & o2).
    destruct (mem k (keys (p_F p))) eqn:E.
    + symmetry in o2. apply mem_iff in o2. rewrite o1.
      assert (getd 0 k (objective a) = 0) as ->; [|ring].
      unfold getd, nget. destruct (get string_dec k (objective a)) as [c|] eqn:Eo; [|reflexivity]. apply (hobj k c); auto. now apply get_some_in in Eo.
    + rewrite (getd_F_absent a p k E). ring. Qed.
(** for a feasibility problem turned into an optimisation, it bounds the smallest eigenvalue:
    if the certificate is negative at v, the values v are not compatible *)
Theorem C27_certificate_relaxed a p t s v x l :
  wf_args a -> feas_as_optim a = true -> has_masks a = true -> lambda_free a -> preprocess a = Some p -> build_dual a p = Some t -> dual_feasible t s ->
  same_known a v -> feasible_above (with_known v a) l x -> (default_non_negative a = true -> 0 <= l) -> l <= expr x (certificate a p s).
Proof.
  intros hwf hf hm hlf hp ht hs hv (hl & hps) hn. assert (allowed a) as hal by (intros _; now split). assert (NoDup (keys (mask_matrices a))) as nm by (destruct hwf; assumption).
  apply linear_open in hl as (ho & hx). apply (open_with_known a v x hv) in ho.
  change (psd (mat_dim a) (fun i j => moment_matrix a x i j - (if Nat.eqb i j then l else 0))) in hps. set (y := set_at (lambda_name a) l x).
  assert (expr x (certificate a p s) = expr y (certificate a p s)) as ->.
  { symmetry. apply expr_set_at. rewrite (proj1 (certificate_get a hwf hal p hp s)). apply hlf. }
  assert (value0 a y = l) as el by (rewrite (proj2 (start_relaxed a hf hm hlf nm y)); apply set_at_eq).
  apply (Qcle_trans _ (value0 a y)); [rewrite el; apply Qcle_refl|]. clear el.
  rewrite (certificate_expr a hwf hal p hp).
  rewrite (sumk_ext _ (fun k => y k * getd 0 k (certificate a p s)) (fun k => y k * bound_coef a p s k)).
  - apply (bound_holds a hwf hal p hp y s t); auto.
    + now apply set_at_open.
    + revert hps. apply psd_ext. intros i j _ _. symmetry. now apply relaxed_matrix0.
    + intros _ hd. unfold y. rewrite set_at_eq. auto.
  - intros k hk. f_equal. rewrite (proj2 (certificate_get a hwf hal p hp s) k hk), hf. unfold bound_coef, hcoef. rewrite (obj_known_feas a hwf hal p hp k hf hk).
    destruct (mem k (keys (p_F p))) eqn:E; [ring|]. rewrite (getd_F_absent a p k E). ring. Qed.
(** for an infeasible problem the solver returns a ray of the dual: the certificate is not
    negative at compatible values, unless the objective has known terms outside the matrix *)
Theorem C27_certificate_infeasible a p t s v x :
  wf_args a -> feas_as_optim a = false -> preprocess a = Some p -> build_dual a p = Some t -> dual_ray t s ->
  (forall k c, In (k, c) (objective a) -> In k (keys (known_vars a)) -> ~ In k (keys (mask_matrices a)) -> c = 0) ->
  same_known a v -> feasible (with_known v a) x -> 0 <= expr x (certificate a p s).
Proof.
  intros hwf hf hp ht hs hobj hv (hl & hps). pose proof (allowed_plain a hf) as hal. apply linear_open in hl as (ho & hx). apply (open_with_known a v x hv) in ho.
  change (psd (mat_dim a) (moment_matrix a x)) in hps. destruct (start_plain a hf x) as (e1 & e2).
  rewrite (certificate_expr a hwf hal p hp).
  rewrite (sumk_ext _ (fun k => x k * getd 0 k (certificate a p s)) (fun k => x k * hcoef a p s k)).
  - apply (ray_core a hwf hal p hp x s t); auto. apply (satisfies_open a hwf hal p hp); auto; [now apply (psd_iff _ _ _ e1)|now apply lam_ok_plain].
  - intros k hk. f_equal. rewrite (proj2 (certificate_get a hwf hal p hp s) k hk), hf. unfold hcoef. destruct (objective_known a p k hf hwf hp hk) as (o1 & o2).
    destruct (mem k (keys (p_F p))) eqn:E; [ring|]. rewrite (getd_F_absent a p k E). symmetry in o2. apply mem_false in o2. rewrite o1.
    assert (getd 0 k (objective a) = 0) as ->; [|ring].
    unfold getd, nget. destruct (get string_dec k (objective a)) as [c|] eqn:Eo; [|reflexivity]. apply (hobj k c); auto. now apply get_some_in in Eo. Qed.
(** such a ray with a negative value excludes every point *)
Theorem C27_ray_infeasible a p t s x :
  wf_args a -> feas_as_optim a = false -> preprocess a = Some p -> build_dual a p = Some t -> dual_ray t s ->
  dual_value t s - d_const t < 0 -> ~ feasible a x.
Proof.
  intros hwf hf hp ht hs hneg (hl & hps). pose proof (allowed_plain a hf) as hal. apply linear_open in hl as (ho & hx). destruct (start_plain a hf x) as (e1 & e2).
  assert (satisfies a p x) as hsat by (apply (satisfies_open a hwf hal p hp); auto; [now apply (psd_iff _ _ _ e1)|now apply lam_ok_plain]).
  pose proof (ray_core a hwf hal p hp x s t hsat ht hs) as q. rewrite (dual_value_over a hwf hal p hp x s t hx ht) in hneg.
  assert (d_const t = sumk (keys (known_vars a)) (fun k => x k * getd 0 k (p_obj p))) as ec.
  { destruct (pre_w a p hp) as (w & hw & _ & _ & e3 & _ & _ & _ & e7 & _). unfold build_dual in ht. destruct (all_some _); [|discriminate]. injection ht as <-. cbn [d_const]. rewrite hf, e7, <- e3.
    apply constant_over; [assumption|now apply nodup_known|]. destruct (nodup_dicts a hwf hal p hp) as (_ & q0 & _). exact q0. }
  rewrite ec in hneg. unfold bound_coef in hneg.
  rewrite (sumk_ext _ (fun k => x k * (getd 0 k (p_obj p) + hcoef a p s k)) (fun k => x k * getd 0 k (p_obj p) + x k * hcoef a p s k)) in hneg by (intros; ring).
  rewrite sumk_add in hneg. apply (Qclt_not_le _ _ hneg).
  generalize dependent (sumk (keys (known_vars a)) (fun k => x k * hcoef a p s k)). generalize (sumk (keys (known_vars a)) (fun k => x k * getd 0 k (p_obj p))). intros u u' _ q. replace (u + u' - u) with u' by ring. exact q. Qed.

Lemma abs_prod c y b : qabs c <= b -> c * y <= b * qabs y.
Proof.
  unfold qabs, qltb. intros h. destruct (Qclt_le_dec c 0) as [h1|h1], (Qclt_le_dec y 0) as [h2|h2].
  - assert (0 <= (b + c) * (- y)) as q by (apply Qclt_le_weak in h2; assert (0 <= b + c) by qclra; assert (0 <= - y) by qclra; qcnra). assert (b * - y - c * y = (b + c) * - y) as e by ring. rewrite <- e in q. qclra.
  - assert (0 <= (b - c) * y) as q by (apply Qclt_le_weak in h1; assert (0 <= b - c) by qclra; qcnra). assert (b * y - c * y = (b - c) * y) as e by ring. rewrite <- e in q. qclra.
  - assert (0 <= (b + c) * (- y)) as q by (apply Qclt_le_weak in h2; assert (0 <= b + c) by qclra; assert (0 <= - y) by qclra; qcnra). assert (b * - y - c * y = (b + c) * - y) as e by ring. rewrite <- e in q. qclra.
  - assert (0 <= (b - c) * y) as q by (assert (0 <= b - c) by qclra; qcnra). assert (b * y - c * y = (b - c) * y) as e by ring. rewrite <- e in q. qclra. Qed.
(** removing near-zero entries changes the value by at most 1e-8 times the sum of the known
    values in absolute value *)
Theorem C27_clean cert x : expr x cert <= expr x (clean cert) + atol * sumQ (map (fun k => qabs (x k)) (keys cert)).
Proof.
  unfold clean. induction cert as [|(k, c) cert IH]; [apply Qcle_refl|]. cbn [filter keys map fst]. fold (keys cert). rewrite sumQ_cons, expr_cons.
  assert (0 <= qabs (x k)) as h0 by (unfold qabs, qltb; destruct (Qclt_le_dec (x k) 0); clear IH; qclra).
  assert (0 <= atol) as ha by (unfold atol; discriminate).
  destruct (isclose0 c) eqn:Ec; cbn [negb].
  - assert (c * x k <= atol * qabs (x k)) as h1; [|qclra].
    unfold isclose0, isclose in Ec. assert (qabs (c - 0) <= atol + rtol * qabs 0) as hc.
    { clear - Ec. unfold qleb, qltb in Ec. destruct (Qclt_le_dec (atol + rtol * qabs 0) (qabs (c - 0))); [discriminate|assumption]. }
    replace (atol + rtol * qabs 0) with atol in hc by (assert (qabs 0 = 0) as -> by reflexivity; ring). replace (c - 0) with c in hc by ring.
    now apply abs_prod.
  - rewrite expr_cons. assert (0 <= atol * qabs (x k)) as h1; [|qclra]. revert ha h0. clear. generalize atol, (qabs (x k)). intros u v h h'. qcnra.
Qed.

(** ** A case: the moment matrix [[1, x], [x, y]] with y semi-known as x/2, w equal to x and x
    not negative.  The programme has the optimum 1/2. *)
Local Open Scope string_scope.
Definition half : Qc := Q2Qc (1 # 2).
Definition quarter : Qc := Q2Qc (1 # 4).
Definition E00 : matrix := fun i j => if ((i =? 0) && (j =? 0))%nat then 1 else 0.
Definition E01 : matrix := fun i j => if (((i =? 0) && (j =? 1)) || ((i =? 1) && (j =? 0)))%nat then 1 else 0.
Definition E11 : matrix := fun i j => if ((i =? 1) && (j =? 1))%nat then 1 else 0.
Definition case_args (obj : ndict Qc) (feas proc : bool) : sdp_args := {|
  mat_dim := 2; mask_matrices := [("1", E00); ("x", E01); ("y", E11)]; objective := obj; known_vars := [("1", 1)];
  semiknown_vars := [("y", (half, "x"))]; inequalities := [[("x", 1)]]; equalities := [[("w", 1); ("x", - (1))]];
  default_non_negative := false; feas_as_optim := feas; process_constraints := proc |}.
Definition case_obj : ndict Qc := [("x", 1)].
Definition shifted_obj : ndict Qc := [("x", 1); ("1", 1 + 1 + 1 + 1 + 1)].
Definition case_x (k : name) : Qc := if String.eqb k "1" then 1 else if String.eqb k "y" then quarter else half.
Definition case_Z : matrix := fun i j =>
  match i, j with 0%nat, 0%nat => half | 0%nat, 1%nat | 1%nat, 0%nat => - (1) | 1%nat, 1%nat => 1 + 1 | _, _ => 0 end.
Definition case_s : dual_point := {| Z := case_Z; I := [0]; E := [0] |}.

Ltac strings := unfold keys, targets, case_obj, shifted_obj; cbn [map fst snd case_args known_vars semiknown_vars]; repeat match goal with
  | |- NoDup [] => constructor
  | |- NoDup (_ :: _) => constructor
  | |- ~ _ => let h := fresh "h" in intro h; cbn [In] in h; repeat (destruct h as [h|h]; [discriminate|]); destruct h
  | |- _ /\ _ => split
  end.
Lemma case_wf obj feas proc : obj = case_obj \/ obj = shifted_obj -> wf_args (case_args obj feas proc).
Proof.
  intros ho. unfold wf_args. cbn [mask_matrices objective known_vars semiknown_vars equalities inequalities mat_dim default_non_negative case_args].
  split; [strings|]. split; [destruct ho; subst; strings|]. split; [strings|]. split; [strings|]. split; [intros d [<-|[]]; strings|]. split; [intros d [<-|[]]; strings|].
  split; [|split; [discriminate|split; [|split; [|discriminate]]]].
  - intros k M [e|[e|[e|[]]]] i j hi hj; injection e as _ <-; unfold E00, E01, E11;
      destruct i as [|[|i]], j as [|[|j]]; try lia; reflexivity.
  - intros k [<-|[]]. strings.
  - intros k [<-|[]]. strings. Qed.
Lemma sum2 f : sumn 2 f = f 0%nat + f 1%nat.
Proof. rewrite !sumn_S. unfold sumn. cbn [seq map]. rewrite sumQ_nil. ring. Qed.
Lemma case_feasible obj proc : feasible (case_args obj false proc) case_x.
Proof.
  split.
  - split; [|split; [|split; [|split]]].
    + intros k v [e|[]]. injection e as <- <-. reflexivity.
    + intros k c k2 [e|[]]. injection e as <- <- <-. apply Qc_eq_bool_correct. vm_compute. reflexivity.
    + intros d [<-|[]]. apply Qc_eq_bool_correct. vm_compute. reflexivity.
    + intros d [<-|[]]. assert (expr case_x [("x", 1)] = half) as -> by (apply Qc_eq_bool_correct; vm_compute; reflexivity). discriminate.
    + discriminate.
  - cbn [mat_dim case_args]. apply (psd_ext 2 (fun i j => match i, j with 0%nat, 0%nat => 1 | 1%nat, 1%nat => quarter | _, _ => half end)).
    + intros i j hi hj. destruct i as [|[|i]], j as [|[|j]]; try lia; apply Qc_eq_bool_correct; vm_compute; reflexivity.
    + split; [intros i j hi hj; destruct i as [|[|i]], j as [|[|j]]; try lia; reflexivity|].
      intros v. rewrite sum2, !sum2. replace quarter with (half * half) by (apply Qc_eq_bool_correct; vm_compute; reflexivity).
      replace (v 0%nat * 1 * v 0%nat + v 0%nat * half * v 1%nat + (v 1%nat * half * v 0%nat + v 1%nat * (half * half) * v 1%nat))
        with ((v 0%nat + half * v 1%nat) * (v 0%nat + half * v 1%nat)) by ring. generalize (v 0%nat + half * v 1%nat). intros u. qcnra. Qed.
Lemma case_psd_Z : psd 2 case_Z.
Proof.
  split; [intros i j hi hj; destruct i as [|[|i]], j as [|[|j]]; try lia; reflexivity|].
  intros v. rewrite sum2, !sum2. cbn [case_Z].
  assert ((1 + 1) * (v 0%nat * half * v 0%nat + v 0%nat * - (1) * v 1%nat + (v 1%nat * - (1) * v 0%nat + v 1%nat * (1 + 1) * v 1%nat)) = (v 0%nat - (1 + 1) * v 1%nat) * (v 0%nat - (1 + 1) * v 1%nat)) as e.
  { assert ((1 + 1) * half = 1) as h by (apply Qc_eq_bool_correct; vm_compute; reflexivity).
    transitivity (((1 + 1) * half) * v 0%nat * v 0%nat - (1 + 1) * (1 + 1) * v 0%nat * v 1%nat + (1 + 1) * (1 + 1) * v 1%nat * v 1%nat); [ring|]. rewrite h. ring. }
  revert e. generalize (v 0%nat * half * v 0%nat + v 0%nat * - (1) * v 1%nat + (v 1%nat * - (1) * v 0%nat + v 1%nat * (1 + 1) * v 1%nat)), (v 0%nat - (1 + 1) * v 1%nat). intros q u e. qcnra. Qed.
Definition the_problem (a : sdp_args) : problem := match preprocess a with Some p => p | None => Build_problem [] [] (fun _ _ => 0) [] 0 [] [] [] [] end.
Definition the_dual (a : sdp_args) : dual_task := match build_dual a (the_problem a) with Some t => t | None => Build_dual_task 0 false 0 0 0 (fun _ _ => 0) [] [] [] false end.
Definition solvable (a : sdp_args) : bool := match preprocess a with Some p => match build_dual a p with Some _ => true | None => false end | None => false end.
Lemma solvable_spec a : solvable a = true -> preprocess a = Some (the_problem a) /\ build_dual a (the_problem a) = Some (the_dual a).
Proof. unfold solvable, the_dual, the_problem. destruct (preprocess a) as [p|]; [|discriminate]. destruct (build_dual a p); [auto|discriminate]. Qed.
Definition rows_ok (t : dual_task) (s : dual_point) : bool :=
  forallb (fun '(ci, F, A, C) => Qc_eq_bool (ci + match F with Some M => mdot (d_dim t) (Z s) M | None => 0 end + dotQ A (I s) + dotQ C (E s)) 0) (d_rows t).
Lemma rows_dual_feasible t s : (d_psd t = true -> psd (d_dim t) (Z s)) -> length (I s) = d_ineq t -> (forall y, In y (I s) -> 0 <= y) -> length (E s) = d_eq t ->
  d_le t = false -> rows_ok t s = true -> dual_feasible t s.
Proof.
  intros h1 h2 h3 h4 h5 h6. split; [assumption|]. split; [assumption|]. split; [assumption|]. split; [assumption|]. intros ci F A C hin. cbn zeta. rewrite h5.
  unfold rows_ok in h6. rewrite forallb_forall in h6. apply Qc_eq_bool_correct. exact (h6 _ hin). Qed.
Lemma case_dual obj : obj = case_obj \/ obj = shifted_obj -> dual_feasible (the_dual (case_args obj false true)) case_s.
Proof.
  intros ho. apply rows_dual_feasible.
  - intros _. assert (d_dim (the_dual (case_args obj false true)) = 2%nat) as -> by (destruct ho; subst; vm_compute; reflexivity). exact case_psd_Z.
  - destruct ho; subst; vm_compute; reflexivity.
  - intros y [<-|[]]. apply Qcle_refl.
  - destruct ho; subst; vm_compute; reflexivity.
  - destruct ho; subst; vm_compute; reflexivity.
  - destruct ho; subst; vm_compute; reflexivity. Qed.
Lemma case_solvable obj : obj = case_obj \/ obj = shifted_obj -> solvable (case_args obj false true) = true.
Proof. intros [->| ->]; vm_compute; reflexivity. Qed.

Example C27_case :
  let a := case_args case_obj false true in
  wf_args a /\ feasible a case_x /\ preprocess a = Some (the_problem a) /\ build_dual a (the_problem a) = Some (the_dual a) /\ dual_feasible (the_dual a) case_s /\
  value a case_x = half /\ dual_value (the_dual a) case_s = half /\ expr case_x (certificate a (the_problem a) case_s) = half.
Proof.
  cbn zeta. split; [apply case_wf; now left|]. split; [apply case_feasible|]. destruct (solvable_spec _ (case_solvable case_obj (or_introl eq_refl))) as (h1 & h2).
  split; [exact h1|]. split; [exact h2|]. split; [apply case_dual; now left|].
  split; [|split]; apply Qc_eq_bool_correct; vm_compute; reflexivity. Qed.

(** ** What does not hold *)
(** line 516 overwrites the contribution of a known moment of the matrix to the objective:
    with the constant 5 added to the objective, the certificate is off by 5 *)
Theorem C27_certificate_objective_refuted : exists a p t s x,
  wf_args a /\ feas_as_optim a = false /\ preprocess a = Some p /\ build_dual a p = Some t /\ dual_feasible t s /\
  feasible a x /\ value a x = dual_value t s /\ ~ value a x <= expr x (certificate a p s).
Proof.
  set (a := case_args shifted_obj false true). destruct (solvable_spec a (case_solvable shifted_obj (or_intror eq_refl))) as (h1 & h2).
  exists a, (the_problem a), (the_dual a), case_s, case_x. split; [apply case_wf; now right|]. split; [reflexivity|]. split; [exact h1|]. split; [exact h2|]. split; [apply case_dual; now right|].
  split; [apply case_feasible|]. split; [apply Qc_eq_bool_correct; vm_compute; reflexivity|].
  assert (expr case_x (certificate a (the_problem a) case_s) = half) as -> by (apply Qc_eq_bool_correct; vm_compute; reflexivity).
  assert (value a case_x = half + 1 + 1 + 1 + 1 + 1) as -> by (apply Qc_eq_bool_correct; vm_compute; reflexivity).
  intros h. assert (half + 1 + 1 + 1 + 1 + 1 <= half) as h' by exact h. qclra. Qed.

(** the matrix returned after solving the dual (457-458) is only its constant part, because
    the unknown parts have been removed from Fi while building the constraints (356) *)
Theorem C27_returned_matrix_refuted :
  (forall a p x i j, wf_args a -> feas_as_optim a = false -> preprocess a = Some p -> returned_matrix a p x i j = p_F0 p i j) /\
  exists a p x, wf_args a /\ feasible a x /\ preprocess a = Some p /\ returned_matrix a p x 0%nat 1%nat <> moment_matrix a x 0%nat 1%nat.
Proof.
  assert (forall a p x i j, wf_args a -> feas_as_optim a = false -> preprocess a = Some p -> returned_matrix a p x i j = p_F0 p i j) as hall.
  { intros a p x i j hwf hf hp. unfold returned_matrix. rewrite sumQ_zero; [ring|]. intros (k, f) hin. destruct (is_known a k) eqn:E; [reflexivity|].
    exfalso. unfold left_over in hin. apply filter_In in hin as (h1 & h2). destruct (keys_in_U a hwf (allowed_plain a hf) p hp) as (k1 & _).
    assert (In k (p_vars p ++ keys (known_vars a))) as q by (apply k1; apply (in_map fst) in h1; exact h1). apply in_app_or in q as [q|q].
    - apply mem_iff in q. rewrite q in h2. discriminate.
    - apply mem_iff in q. unfold is_known in E. congruence. }
  split; [exact hall|]. set (a := case_args case_obj false true). destruct (solvable_spec a (case_solvable case_obj (or_introl eq_refl))) as (h1 & _).
  exists a, (the_problem a), case_x. assert (wf_args a) as hwf by (apply case_wf; now left). split; [exact hwf|]. split; [apply case_feasible|]. split; [exact h1|].
  rewrite (hall a _ _ _ _ hwf eq_refl h1).
  assert (p_F0 (the_problem a) 0%nat 1%nat = 0) as -> by (apply Qc_eq_bool_correct; vm_compute; reflexivity).
  assert (moment_matrix a case_x 0%nat 1%nat = half) as -> by (apply Qc_eq_bool_correct; vm_compute; reflexivity). discriminate. Qed.

(** a moment that is semi-known relative to a known moment: the matrix treats the latter as
    free and as known at once *)
Definition target_args : sdp_args := {|
  mat_dim := 1; mask_matrices := [("x", fun _ _ => 1); ("k", fun _ _ => 0)]; objective := []; known_vars := [("k", - (1))];
  semiknown_vars := [("x", (1, "k"))]; inequalities := []; equalities := [];
  default_non_negative := false; feas_as_optim := false; process_constraints := true |}.
Definition the_primal (a : sdp_args) : primal_task := match build_primal a (the_problem a) with Some t => t | None => Build_primal_task [] false [] [] 0 false (fun _ _ => 0) [] 0 [] end.
Theorem C27_known_target_refuted :
  (forall x, ~ feasible target_args x) /\
  exists p t y G, preprocess target_args = Some p /\ build_primal target_args p = Some t /\ primal_feasible t y G.
Proof.
  split.
  - intros x ((h1 & h2 & _) & h3). pose proof (h1 "k" (- (1)) (or_introl eq_refl)) as e1. pose proof (h2 "x" 1 "k" (or_introl eq_refl)) as e2.
    pose proof (psd_diag 0 _ h3) as q. unfold moment_matrix in q. cbn [mask_matrices target_args map] in q. rewrite !sumQ_cons, sumQ_nil, e2, e1 in q.
    assert (1 * - (1) * 1 + (- (1) * 0 + 0) = - (1)) as e by ring. rewrite e in q. apply (Qcle_not_lt _ _ q). reflexivity.
  - set (a := target_args). assert (preprocess a = Some (the_problem a) /\ build_primal a (the_problem a) = Some (the_primal a)) as (h1 & h2).
    { assert ((match preprocess a with Some p => match build_primal a p with Some _ => true | None => false end | None => false end) = true) as h by (vm_compute; reflexivity).
      unfold the_primal, the_problem. destruct (preprocess a) as [p|]; [|discriminate]. destruct (build_primal a p); [auto|discriminate]. }
    exists (the_problem a), (the_primal a), (fun _ => 0), (fun _ _ => 0). split; [exact h1|]. split; [exact h2|].
    assert (x_A (the_primal a) = [] /\ x_C (the_primal a) = [] /\ x_nonneg (the_primal a) = false /\ x_dim (the_primal a) = 1%nat) as (f1 & f2 & f3 & f4) by (vm_compute; auto).
    split; [rewrite f3; discriminate|]. rewrite f1, f2, f4. split; [intros r b []|]. split; [intros r b []|]. intros _. split.
    + split; [intros i j _ _; reflexivity|]. intros v. unfold sumn. cbn [seq map]. rewrite !sumQ_cons, !sumQ_nil. assert (v 0%nat * 0 * v 0%nat + 0 + 0 = 0) as -> by ring. apply Qcle_refl.
    + intros i j hi hj. assert (j = 0)%nat as -> by lia. assert (i = 0)%nat as -> by lia.
      assert (x_F0 (the_primal a) 0%nat 0%nat = 0) as -> by (apply Qc_eq_bool_correct; vm_compute; reflexivity).
      rewrite sumQ_zero; [ring|]. intros (k, M) _. ring. Qed.
