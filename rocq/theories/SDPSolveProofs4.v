From Coq Require Import List Arith Bool Lia String QArith Qcanon Permutation.
From Verif Require Import MargModel QcSum QcArith SearchModel ProgramModel ProgramProofs Duality SDPSolveModel SDPSolveSpec PSD SDPSolveProofs SDPSolveProofs2 SDPSolveProofs3.
Import ListNotations.
Open Scope Qc_scope.

Definition set_at (k : name) (l : Qc) (x : name -> Qc) : name -> Qc := fun k' => if string_dec k' k then l else x k'.
(** the matrix and the objective with which the loops start *)
Definition matrix0 (a : sdp_args) (x : name -> Qc) : matrix := fun i j => expr x (Fent i j (w_F (start a))).
Definition value0 (a : sdp_args) (x : name -> Qc) : Qc := expr x (w_obj (start a)).
Lemma expr_masks a x i j : expr x (Fent i j (map (fun '(k, m) => (k, Mat m)) (mask_matrices a))) = moment_matrix a x i j.
Proof. unfold expr, Fent, moment_matrix. rewrite !map_map. apply sumQ_ext. intros (k, M) _. cbn. ring. Qed.
Lemma start_plain a : feas_as_optim a = false -> forall x, (forall i j, matrix0 a x i j = moment_matrix a x i j) /\ value0 a x = value a x.
Proof.
  intros h x. unfold matrix0, value0, start, relaxing. rewrite h. cbn [andb w_F w_obj]. split; [|reflexivity]. intros i j. apply expr_masks. Qed.
Lemma expr_set_at k l x d : ~ In k (keys d) -> expr (set_at k l x) d = expr x d.
Proof. intros h. apply expr_ext. intros k' hk. unfold set_at. destruct (string_dec k' k); [subst; contradiction|reflexivity]. Qed.
Lemma start_relaxed a : feas_as_optim a = true -> has_masks a = true -> lambda_free a -> NoDup (keys (mask_matrices a)) -> forall x,
  (forall i j, matrix0 a x i j = moment_matrix a x i j - (if Nat.eqb i j then x (lambda_name a) else 0)) /\ value0 a x = x (lambda_name a).
Proof.
  intros h hm (l1 & l2 & l3) N x. unfold matrix0, value0, start, relaxing. rewrite h, hm. cbn [andb w_F w_obj]. split.
  - intros i j. rewrite <- set_Fent, expr_set; [|rewrite keys_Fent, keys_masks; assumption]. rewrite expr_masks.
    rewrite getd_none.
    + cbn [F_entry]. unfold minus_identity. destruct (Nat.eqb i j); ring.
    + rewrite keys_Fent, keys_masks. intros e. apply (lambda_not_name a l1). now apply in_all_masks.
  - rewrite expr_cons, expr_nil. ring. Qed.

Definition lam_ok (a : sdp_args) (x : name -> Qc) : Prop := feas_as_optim a = true -> default_non_negative a = true -> 0 <= x (lambda_name a).

Section Solved4.
Variable a : sdp_args.
Hypothesis Hwf : wf_args a.
Hypothesis Hal : allowed a.
Variable p : problem.
Hypothesis Hp : preprocess a = Some p.
Notation KN := (keys (known_vars a)).

(** the constraints that do not mention the known values *)
Definition open_part (x : name -> Qc) : Prop :=
  relations (semiknown_vars a) x /\
  (forall d, In d (equalities a) -> expr x d = 0) /\ (forall d, In d (inequalities a) -> 0 <= expr x d) /\
  (default_non_negative a = true -> (forall k, unknown a k -> 0 <= x k) /\ (forall k, In k (targets a) -> 0 <= x k)).
Lemma satisfies_open x : open_part x -> psd (mat_dim a) (matrix0 a x) -> lam_ok a x -> satisfies a p x.
Proof.
  intros (h1 & h2 & h3 & h4) hp hl. destruct (pre_w a p Hp) as (w & hw & e1 & e2 & e3 & e4 & e5 & e6 & e7 & e8 & e9 & e10 & e11). pose proof (process_spec a w Hwf Hal hw) as D.
  unfold satisfies. rewrite e1, e2, e4, e5. split; [|split; [|split]].
  - now apply (dn_same_ineqs _ _ D).
  - now apply (dn_same_eqs _ _ D).
  - revert hp. apply psd_ext. intros i j _ _. symmetry. now apply (dn_same_F _ _ D).
  - intros hn k hk. destruct (h4 hn) as (q1 & q2). destruct (dn_vars _ _ D k hk) as [h|[h|(h & ->)]]; auto. Qed.
Lemma open_satisfies x : satisfies a p x -> relations (semiknown_vars a) x -> open_part x /\ psd (mat_dim a) (matrix0 a x).
Proof.
  intros (h1 & h2 & h3 & h4) hr. destruct (pre_w a p Hp) as (w & hw & e1 & e2 & e3 & e4 & e5 & e6 & e7 & e8 & e9 & e10 & e11). pose proof (process_spec a w Hwf Hal hw) as D.
  rewrite e1, e2, e4, e5 in *. split; [split; [assumption|split; [|split]]|].
  - now apply (dn_same_eqs _ _ D).
  - now apply (dn_same_ineqs _ _ D).
  - intros hn. split; intros k hk.
    + destruct (dn_unknown _ _ D k hk) as [q|(q1 & q2)]; [auto|].
      unfold keys in q2. apply in_map_iff in q2 as ((k0, (c, k2)) & ek & hin). cbn in ek. subst k0. rewrite (hr _ _ _ hin).
      assert (0 <= c) as hc by (destruct Hwf as (_ & _ & _ & _ & _ & _ & _ & _ & _ & _ & n11); exact (n11 hn _ _ _ hin)).
      assert (0 <= x k2) as hx2 by (apply (h4 hn); apply (dn_targets _ _ D); exact (in_map (fun q => snd (snd q)) _ _ hin)).
      clear - hc hx2. qcnra.
    + apply (h4 hn). now apply (dn_targets _ _ D).
  - revert h3. apply psd_ext. intros i j _ _. now apply (dn_same_F _ _ D). Qed.
Lemma value_over x : relations (semiknown_vars a) x -> value0 a x = sumk (p_vars p) (fun k => x k * getd 0 k (p_obj p)) + sumk KN (fun k => x k * getd 0 k (p_obj p)).
Proof.
  intros hr. destruct (pre_w a p Hp) as (w & hw & e1 & e2 & e3 & e4 & e5 & e6 & e7 & e8 & e9 & e10 & e11). pose proof (process_spec a w Hwf Hal hw) as D.
  unfold value0. rewrite <- (dn_same_obj _ _ D x hr), <- e3, <- sumk_app.
  destruct (keys_in_U a Hwf Hal p Hp) as (k1 & k2 & k3 & k4). destruct (nodup_dicts a Hwf Hal p Hp) as (n1 & n2 & n3 & n4).
  apply expr_over; [now apply nodup_U|assumption|assumption]. Qed.

(** the bound in terms of the known moments *)
Definition bound_coef (s : dual_point) (k : name) : Qc := getd 0 k (p_obj p) + hcoef a p s k.
Lemma bound_holds x s t : open_part x -> psd (mat_dim a) (matrix0 a x) -> lam_ok a x -> build_dual a p = Some t -> dual_feasible t s ->
  value0 a x <= sumk KN (fun k => x k * bound_coef s k).
Proof.
  intros ho hps hl ht hd. pose proof (weak_core a Hwf Hal p Hp x s t (satisfies_open x ho hps hl) ht hd) as q.
  rewrite (value_over x (proj1 ho)). unfold bound_coef.
  rewrite (sumk_ext KN (fun k => x k * (getd 0 k (p_obj p) + hcoef a p s k)) (fun k => x k * getd 0 k (p_obj p) + x k * hcoef a p s k)) by (intros; ring).
  rewrite sumk_add. qclra. Qed.

(** known values in the objective of the dual *)
Lemma obj_known_feas k : feas_as_optim a = true -> In k KN -> getd 0 k (p_obj p) = 0.
Proof.
  intros hf hk. destruct (pre_w a p Hp) as (w & hw & e1 & e2 & e3 & _). pose proof (process_spec a w Hwf Hal hw) as D.
  unfold getd. rewrite e3, (dn_get_obj _ _ D k hk). destruct (Hal hf) as (hm & l1 & _). unfold start, relaxing. rewrite hf, hm. cbn [andb w_obj].
  unfold nget. cbn [get]. destruct (string_dec k (lambda_name a)); [subst; contradiction|reflexivity]. Qed.
Lemma F0_over x i j : given_values a x -> p_F0 p i j = sumk KN (fun k => x k * Fm k (p_F p) i j).
Proof.
  intros hx. destruct (pre_w a p Hp) as (w & hw & e1 & e2 & e3 & e4 & e5 & e6 & _). pose proof (process_spec a w Hwf Hal hw) as D. pose proof (start_spec a Hwf Hal) as T.
  rewrite e6. unfold constant_matrix.
  transitivity (constant_part a (Fent i j (w_F (start a)))).
  - unfold constant_part, Fent. rewrite map_map. apply sumQ_ext. intros (k, f) _. destruct (nget k (known_vars a)); ring.
  - rewrite (constant_over a x); [|assumption|now apply nodup_known|rewrite keys_Fent; destruct (st_wf _ _ T) as (_ & q & _); exact q].
    apply sumk_ext. intros k hk. f_equal. unfold Fm. rewrite <- getd_Fent. rewrite e2. unfold getd. now rewrite (dn_get_known _ _ D k hk). Qed.
Lemma consts_over x ds : given_values a x -> (forall d, In d ds -> NoDup (keys d)) -> forall m,
  dotQ (map (constant_part a) ds) m = sumk KN (fun k => x k * dotQ (map (getd 0 k) ds) m).
Proof.
  intros hx. induction ds as [|d ds IH]; intros h m; cbn [map dotQ].
  - symmetry. apply sumk_zero. intros; ring.
  - destruct m as [|y m]; [symmetry; apply sumk_zero; intros; ring|]. rewrite IH by (intros; apply h; now right).
    rewrite (constant_over a x) by (assumption || (apply h; now left) || now apply nodup_known).
    rewrite (sumk_ext KN (fun k => x k * (getd 0 k d * y + dotQ (map (getd 0 k) ds) m)) (fun k => y * (x k * getd 0 k d) + x k * dotQ (map (getd 0 k) ds) m)) by (intros; ring).
    rewrite sumk_add, sumk_scale. ring. Qed.
Lemma dual_value_over x s t : given_values a x -> build_dual a p = Some t -> dual_value t s = sumk KN (fun k => x k * bound_coef s k).
Proof.
  intros hx ht. destruct (pre_w a p Hp) as (w & hw & e1 & e2 & e3 & e4 & e5 & e6 & e7 & e8 & e9 & _). pose proof (process_spec a w Hwf Hal hw) as D.
  destruct (nodup_dicts a Hwf Hal p Hp) as (n1 & n2 & n3 & n4).
  unfold build_dual in ht. destruct (all_some _) as [rows|]; [|discriminate]. injection ht as <-. unfold dual_value. cbn [d_const d_psd d_dim d_F0 d_b d_d].
  assert ((if has_masks a then mdot (mat_dim a) (Z s) (p_F0 p) else 0) = sumk KN (fun k => x k * mdot (mat_dim a) (Z s) (Fm k (p_F p)))) as ->.
  { destruct (has_masks a) eqn:Em.
    - unfold sumk. rewrite (sumQ_ext KN _ (fun k => mdot (mat_dim a) (Z s) (fun i j => x k * Fm k (p_F p) i j))) by (intros; now rewrite mdot_scale).
      rewrite <- (mdot_sum _ _ KN (fun k i j => x k * Fm k (p_F p) i j)). apply mdot_ext. intros i j _ _. split; [reflexivity|]. now apply F0_over.
    - symmetry. apply sumk_zero. intros k _. rewrite e2, (dn_masks _ _ D Em). unfold Fm, getd. cbn [nget get F_entry]. rewrite mdot_0. ring. }
  rewrite e8, e9, !map_map. cbn [snd]. rewrite <- e4, <- e5.
  rewrite (consts_over x (p_ineqs p) hx n3), (consts_over x (p_eqs p) hx n4).
  assert ((if feas_as_optim a then 0 else p_c0 p) = sumk KN (fun k => x k * getd 0 k (p_obj p))) as ->.
  { destruct (feas_as_optim a) eqn:Ef.
    - symmetry. apply sumk_zero. intros k hk. rewrite (obj_known_feas k Ef hk). ring.
    - rewrite e7, <- e3. apply constant_over; [assumption|now apply nodup_known|assumption]. }
  rewrite <- !sumk_add. apply sumk_ext. intros k _. unfold bound_coef, hcoef. ring. Qed.

(** ** The certificate *)
Lemma get_add_at k v d k' : getd 0 k' (add_at k v d) = if string_dec k' k then getd 0 k d + v else getd 0 k' d.
Proof. unfold add_at. unfold getd at 1, nget, nset. rewrite get_set. destruct (string_dec k' k); reflexivity. Qed.
Lemma keys_nset_in {V} k (v : V) d : In k (keys d) -> keys (nset k v d) = keys d.
Proof.
  unfold nset, keys. induction d as [|(k0, v0) d IH]; intros h; [destruct h|]. cbn [set map fst]. destruct (string_dec k k0) as [->|ne]; cbn [map fst]; [reflexivity|].
  f_equal. apply IH. destruct h as [h|h]; [cbn in h; congruence|exact h]. Qed.
Lemma is_known_in k : is_known a k = true -> In k KN. Proof. apply mem_iff. Qed.
Lemma fold_add mult d : NoDup (keys d) -> forall cert, keys cert = KN ->
  let cert' := fold_left (fun cert '(k, c) => if is_known a k then add_at k (mult * c) cert else cert) d cert in
  keys cert' = KN /\ forall k, In k KN -> getd 0 k cert' = getd 0 k cert + mult * getd 0 k d.
Proof.
  induction d as [|(k0, c) d IH]; intros N cert hk; cbn [fold_left].
  - split; [assumption|]. intros k _. unfold getd at 3. cbn. ring.
  - inversion N as [|? ? q1 q2]; subst. destruct (is_known a k0) eqn:E.
    + destruct (IH q2 (add_at k0 (mult * c) cert)) as (h1 & h2).
      { unfold add_at. rewrite keys_nset_in; [assumption|]. rewrite hk. now apply is_known_in. }
      split; [exact h1|]. intros k hkn. rewrite (h2 k hkn), get_add_at, getd_cons. destruct (string_dec k k0) as [->|]; [|reflexivity].
      rewrite (getd_none 0 k0 d q1). ring.
    + destruct (IH q2 cert hk) as (h1 & h2). split; [exact h1|]. intros k hkn. rewrite (h2 k hkn), getd_cons. destruct (string_dec k k0) as [->|]; [|reflexivity].
      unfold is_known in E. apply mem_false in E. contradiction. Qed.
Lemma fold_constraints ds : (forall d, In d ds -> NoDup (keys d)) -> forall m cert, keys cert = KN ->
  let cert' := fold_left (add_constraint a) (combine m ds) cert in
  keys cert' = KN /\ forall k, In k KN -> getd 0 k cert' = getd 0 k cert + dotQ (map (getd 0 k) ds) m.
Proof.
  induction ds as [|d ds IH]; intros N m cert hk.
  - rewrite combine_nil. cbn [fold_left map dotQ]. split; [assumption|]. intros; ring.
  - destruct m as [|y m]; cbn [combine fold_left map dotQ].
    + split; [assumption|]. intros; ring.
    + destruct (fold_add y d (N d (or_introl eq_refl)) cert hk) as (h1 & h2). cbn zeta in *.
      destruct (IH (fun d hd => N d (or_intror hd)) m (add_constraint a cert (y, d)) h1) as (h3 & h4). split; [exact h3|].
      intros k hkn. rewrite (h4 k hkn). unfold add_constraint. rewrite (h2 k hkn). ring. Qed.
Lemma fold_matrices s F : NoDup (keys F) -> forall cert, keys cert = KN ->
  let cert' := fold_left (fun cert '(k, f) => if is_known a k
     then nset k (sumn (mat_dim a) (fun i => sumn (mat_dim a) (fun j => Z s i j * F_entry i j f))) cert else cert) F cert in
  keys cert' = KN /\ forall k, In k KN -> getd 0 k cert' = if mem k (keys F) then mdot (mat_dim a) (Z s) (Fm k F) else getd 0 k cert.
Proof.
  induction F as [|(k0, f) F IH]; intros N cert hk; cbn [fold_left].
  - split; [assumption|reflexivity].
  - inversion N as [|? ? q1 q2]; subst. destruct (is_known a k0) eqn:E.
    + destruct (IH q2 (nset k0 (sumn (mat_dim a) (fun i => sumn (mat_dim a) (fun j => Z s i j * F_entry i j f))) cert)) as (h1 & h2).
      { rewrite keys_nset_in; [assumption|]. rewrite hk. now apply is_known_in. }
      split; [exact h1|]. intros k hkn. rewrite (h2 k hkn). cbn [keys map fst]. fold (keys F).
      destruct (string_dec k k0) as [->|ne].
      * assert (mem k0 (keys F) = false) as -> by now apply mem_false. assert (mem k0 (k0 :: keys F) = true) as -> by (apply mem_iff; now left).
        unfold getd at 1, nget, nset. rewrite get_set. destruct (string_dec k0 k0); [|contradiction]. unfold mdot, Fm.
        rewrite getd_cons. destruct (string_dec k0 k0); [reflexivity|contradiction].
      * assert (mem k (k0 :: keys F) = mem k (keys F)) as ->.
        { destruct (mem k (keys F)) eqn:E1; [apply mem_iff; right; now apply mem_iff|]. apply mem_false. apply mem_false in E1. intros [e|e]; [congruence|contradiction]. }
        destruct (mem k (keys F)).
        -- unfold Fm. rewrite getd_cons. destruct (string_dec k k0); [contradiction|reflexivity].
        -- unfold getd, nget, nset. rewrite get_set. destruct (string_dec k k0); [contradiction|reflexivity].
    + destruct (IH q2 cert hk) as (h1 & h2). split; [exact h1|]. intros k hkn. rewrite (h2 k hkn). cbn [keys map fst]. fold (keys F).
      assert (k <> k0) as ne by (intros ->; unfold is_known in E; apply mem_false in E; contradiction).
      assert (mem k (k0 :: keys F) = mem k (keys F)) as ->.
      { destruct (mem k (keys F)) eqn:E1; [apply mem_iff; right; now apply mem_iff|]. apply mem_false. apply mem_false in E1. intros [e|e]; [congruence|contradiction]. }
      unfold Fm. rewrite getd_cons. destruct (string_dec k k0); [contradiction|reflexivity]. Qed.

Lemma left_over_known k : In k KN -> nget k (left_over p) = nget k (p_F p).
Proof.
  intros hk. destruct (pre_w a p Hp) as (w & hw & e1 & _). pose proof (process_spec a w Hwf Hal hw) as D.
  assert (mem k (p_vars p) = false) as hm by (apply mem_false; intros e; rewrite e1 in e; now apply (dn_known _ _ D k e)).
  unfold nget, left_over. induction (p_F p) as [|(k0, f) F IH]; [reflexivity|]. cbn [filter get]. destruct (mem k0 (p_vars p)) eqn:E; cbn [negb get].
  - destruct (string_dec k k0); [congruence|exact IH].
  - destruct (string_dec k k0); [reflexivity|exact IH]. Qed.
Lemma certificate_get s : keys (certificate a p s) = KN /\ forall k, In k KN -> getd 0 k (certificate a p s) =
  (if mem k (keys (p_F p)) then mdot (mat_dim a) (Z s) (Fm k (p_F p)) else if feas_as_optim a then 0 else getd 0 k (p_obj p))
  + dotQ (map (getd 0 k) (p_ineqs p)) (I s) + dotQ (map (getd 0 k) (p_eqs p)) (E s).
Proof.
  destruct (nodup_dicts a Hwf Hal p Hp) as (n1 & n2 & n3 & n4).
  destruct (pre_w a p Hp) as (w & hw & e1 & e2 & _). pose proof (process_spec a w Hwf Hal hw) as D.
  unfold certificate. cbv zeta. set (c0 := map (fun '(k, _) => (k, 0)) (known_vars a)).
  assert (keys c0 = KN) as hc0 by (unfold c0, keys; rewrite map_map; apply map_ext; intros (k, v); reflexivity).
  assert (forall k, getd 0 k c0 = 0) as g0.
  { intros k. unfold c0. generalize (known_vars a). intros d0. clear. induction d0 as [|(k0, v) d IH]; [reflexivity|]. cbn [map]. rewrite getd_cons. destruct (string_dec k k0); [reflexivity|exact IH]. }
  set (c1 := if feas_as_optim a then c0 else _).
  assert (keys c1 = KN /\ forall k, In k KN -> getd 0 k c1 = if feas_as_optim a then 0 else getd 0 k (p_obj p)) as (hc1 & g1).
  { unfold c1. destruct (feas_as_optim a); [split; [assumption|intros; apply g0]|].
    destruct (fold_add 1 (p_obj p) n2 c0 hc0) as (h1 & h2). cbn zeta in *.
    assert (forall d cert, fold_left (fun cert '(k, c) => if is_known a k then add_at k (1 * c) cert else cert) d cert = fold_left (fun cert '(k, c) => if is_known a k then add_at k c cert else cert) d cert) as ef.
    { induction d as [|(k0, c) d IH]; intros cert; [reflexivity|]. cbn [fold_left]. rewrite Qcmult_1_l. apply IH. }
    rewrite ef in h1, h2. split; [exact h1|]. intros k hk. rewrite (h2 k hk), g0. ring. }
  clearbody c1. match goal with |- context [fold_left (add_constraint a) (combine (I s) (p_ineqs p)) ?c] => set (c2 := c) end.
  assert (keys c2 = KN /\ forall k, In k KN -> getd 0 k c2 = if mem k (keys (p_F p)) then mdot (mat_dim a) (Z s) (Fm k (p_F p)) else if feas_as_optim a then 0 else getd 0 k (p_obj p)) as (hc2 & g2).
  { unfold c2. destruct (has_masks a) eqn:Em.
    - destruct (fold_matrices s (left_over p)) with (cert := c1) as (h1 & h2); [apply nodup_filter_keys; assumption|assumption|]. cbn zeta in *.
      split; [exact h1|]. intros k hk. rewrite (h2 k hk), (g1 k hk).
      assert (mem k (keys (left_over p)) = mem k (keys (p_F p))) as ->.
      { pose proof (left_over_known k hk) as q. unfold nget in q. destruct (mem k (keys (p_F p))) eqn:E1.
        - apply mem_iff. apply mem_iff in E1. apply (in_keys_get string_dec) in E1 as (v & e). rewrite e in q. apply (in_keys_get string_dec). now exists v.
        - apply mem_false. apply mem_false in E1. apply (get_none string_dec) in E1. rewrite E1 in q. now apply (get_none string_dec). }
      unfold Fm, getd at 1. rewrite (left_over_known k hk). reflexivity.
    - split; [assumption|]. intros k hk. rewrite (g1 k hk). rewrite e2, (dn_masks _ _ D Em). reflexivity. }
  clearbody c2.
  destruct (fold_constraints (p_ineqs p) n3 (I s) c2 hc2) as (hc3 & g3). cbn zeta in *.
  destruct (fold_constraints (p_eqs p) n4 (E s) _ hc3) as (hc4 & g4). cbn zeta in *.
  split; [exact hc4|]. intros k hk. etransitivity; [exact (g4 k hk)|]. rewrite <- (g2 k hk). f_equal. exact (g3 k hk). Qed.
Lemma certificate_expr s x : expr x (certificate a p s) = sumk KN (fun k => x k * getd 0 k (certificate a p s)).
Proof.
  destruct (certificate_get s) as (h & _). apply expr_over; rewrite ?h; auto; now apply nodup_known. Qed.
Lemma getd_F_absent k : mem k (keys (p_F p)) = false -> forall M, mdot (mat_dim a) M (Fm k (p_F p)) = 0.
Proof.
  intros h M. apply mem_false in h. unfold Fm. rewrite (getd_none Zero k _ h). cbn [F_entry]. apply mdot_0. Qed.
End Solved4.
