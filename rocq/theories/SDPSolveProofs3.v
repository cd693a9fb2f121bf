From Coq Require Import List Arith Bool Lia String QArith Qcanon Permutation.
From Verif Require Import MargModel QcSum QcArith ProgramModel ProgramProofs Duality SDPSolveModel SDPSolveSpec PSD SDPSolveProofs SDPSolveProofs2.
Import ListNotations.
Open Scope Qc_scope.

Lemma all_some_spec {A B} (f : A -> option B) l : forall r, all_some (map f l) = Some r -> Forall2 (fun x y => f x = Some y) l r.
Proof.
  induction l as [|x l IH]; intros r h; cbn [map all_some] in h.
  - injection h as <-. constructor.
  - destruct (f x) as [y|] eqn:E; [|discriminate]. destruct (all_some (map f l)) as [r'|]; [|discriminate]. injection h as <-. constructor; auto. Qed.
Lemma all_some_complete {A B} (f : A -> option B) l : (forall x, In x l -> f x <> None) -> exists r, all_some (map f l) = Some r.
Proof.
  induction l as [|x l IH]; intros h; cbn [map all_some]; [now exists []|]. destruct (f x) as [y|] eqn:E.
  - destruct IH as (r & ->); [intros; apply h; now right|]. now exists (y :: r).
  - exfalso. apply (h x); [now left|assumption]. Qed.
Lemma to_rows_spec a vars ds r : all_some (map (to_row a vars) ds) = Some r ->
  r = map (fun d => (free_part a d, constant_part a d)) ds /\ forall d k, In d ds -> In k (keys d) -> In k vars \/ In k (keys (known_vars a)).
Proof.
  revert r. induction ds as [|d ds IH]; intros r h; cbn [map all_some] in h.
  - injection h as <-. split; [reflexivity|intros d k []].
  - unfold to_row in h at 1. destruct (forallb _ (keys (free_part a d))) eqn:E; [|discriminate].
    destruct (all_some (map (to_row a vars) ds)) as [r'|]; [|discriminate]. injection h as <-. destruct (IH r' eq_refl) as (h1 & h2). split; [cbn [map]; now rewrite h1|].
    intros d0 k [<-|hd] hk; [|now apply (h2 d0)]. destruct (in_dec string_dec k (keys (known_vars a))) as [q|q]; [now right|left].
    rewrite forallb_forall in E. apply mem_iff. apply E. unfold keys, free_part in *. apply in_map_iff in hk as ((k0, c) & <- & hk). apply in_map_iff. exists (k0, c). split; [reflexivity|].
    apply filter_In. split; [assumption|]. unfold is_known. apply negb_true_iff. now apply mem_false. Qed.

Lemma NoDup_app_iff_local {A} (l l' : list A) : NoDup l -> NoDup l' -> (forall x, In x l -> In x l' -> False) -> NoDup (l ++ l').
Proof.
  intros h1 h2 h3. induction h1 as [|x l hx h1 IH]; [assumption|]. cbn [app]. constructor.
  - intros e. apply in_app_or in e as [e|e]; [contradiction|]. apply (h3 x); [now left|assumption].
  - apply IH. intros y hy. apply h3. now right. Qed.
Definition sumk (l : list name) (f : name -> Qc) : Qc := sumQ (map f l).
Lemma sumk_app l l' f : sumk (l ++ l') f = sumk l f + sumk l' f.
Proof. unfold sumk. now rewrite map_app, sumQ_app. Qed.
Lemma sumk_add l f g : sumk l (fun k => f k + g k) = sumk l f + sumk l g.
Proof. apply sumQ_add. Qed.
Lemma sumk_scale l c f : sumk l (fun k => c * f k) = c * sumk l f.
Proof. apply sumQ_scale. Qed.
Lemma sumk_ext l f g : (forall k, In k l -> f k = g k) -> sumk l f = sumk l g.
Proof. apply sumQ_ext. Qed.
Lemma sumk_zero l f : (forall k, In k l -> f k = 0) -> sumk l f = 0.
Proof. apply sumQ_zero. Qed.
Lemma sumk_le l f g : (forall k, In k l -> f k <= g k) -> sumk l f <= sumk l g.
Proof.
  intros h. unfold sumk. induction l as [|k l IH]; cbn [map]; [apply Qcle_refl|]. rewrite !sumQ_cons. apply Qcplus_le_compat; [apply h; now left|]. apply IH. intros; apply h; now right. Qed.

Lemma expr_over x l d : NoDup l -> NoDup (keys d) -> (forall k, In k (keys d) -> In k l) -> expr x d = sumk l (fun k => x k * getd 0 k d).
Proof.
  intros N. induction d as [|(k0, c) d IH]; intros N' h.
  - rewrite expr_nil. symmetry. apply sumk_zero. intros k _. unfold getd. cbn. ring.
  - inversion N' as [|? ? q1 q2]; subst. rewrite expr_cons, IH; [|assumption|intros k hk; apply h; now right].
    rewrite (sumk_ext l (fun k => x k * getd 0 k ((k0, c) :: d)) (fun k => (if string_dec k k0 then c * x k else 0) + x k * getd 0 k d)).
    + rewrite sumk_add. f_equal. symmetry. unfold sumk. rewrite (sumQ_single string_dec l k0).
      * destruct (string_dec k0 k0); [reflexivity|contradiction].
      * assumption.
      * apply h. now left.
      * intros k _ hk. destruct (string_dec k k0); [contradiction|reflexivity].
    + intros k _. rewrite getd_cons. destruct (string_dec k k0) as [->|]; [rewrite (getd_none 0 k0 d q1); ring|ring]. Qed.

Definition Fm (k : name) (F : ndict fval) : matrix := fun i j => F_entry i j (getd Zero k F).
Lemma mdot_over n Z x l F : NoDup l -> NoDup (keys F) -> (forall k, In k (keys F) -> In k l) ->
  mdot n Z (fun i j => expr x (Fent i j F)) = sumk l (fun k => x k * mdot n Z (Fm k F)).
Proof.
  intros N N' h. unfold sumk. rewrite (sumQ_ext l _ (fun k => mdot n Z (fun i j => x k * Fm k F i j))) by (intros; now rewrite mdot_scale).
  rewrite <- (mdot_sum n Z l (fun k i j => x k * Fm k F i j)). apply mdot_ext. intros i j _ _. split; [reflexivity|].
  rewrite (expr_over x l); [|assumption|now rewrite keys_Fent|now rewrite keys_Fent]. apply sumk_ext. intros k _. now rewrite getd_Fent. Qed.
Lemma dot_over x l ds : NoDup l -> (forall d, In d ds -> NoDup (keys d)) -> (forall d k, In d ds -> In k (keys d) -> In k l) ->
  forall m, dotQ (map (expr x) ds) m = sumk l (fun k => x k * dotQ (map (getd 0 k) ds) m).
Proof.
  intros N. induction ds as [|d ds IH]; intros h1 h2 m.
  - cbn. symmetry. apply sumk_zero. intros; ring.
  - destruct m as [|y m]; cbn [map dotQ].
    + symmetry. apply sumk_zero. intros; ring.
    + rewrite IH; [|intros d0 hd; apply h1; now right|intros d0 k hd; apply h2; now right]. rewrite (expr_over x l d); [|assumption|apply h1; now left|intros k; apply h2; now left].
      rewrite (sumk_ext l (fun k => x k * (getd 0 k d * y + dotQ (map (getd 0 k) ds) m)) (fun k => y * (x k * getd 0 k d) + x k * dotQ (map (getd 0 k) ds) m)) by (intros; ring).
      rewrite sumk_add, sumk_scale. ring. Qed.
Lemma dotQ_nonneg a b : (forall v, In v a -> 0 <= v) -> (forall v, In v b -> 0 <= v) -> 0 <= dotQ a b.
Proof.
  revert b. induction a as [|x a IH]; intros b h1 h2; cbn [dotQ]; [apply Qcle_refl|]. destruct b as [|y b]; [apply Qcle_refl|].
  assert (0 <= dotQ a b) as h3 by (apply IH; intros; [apply h1|apply h2]; now right).
  assert (0 <= x) as h4 by (apply h1; now left). assert (0 <= y) as h5 by (apply h2; now left).
  generalize dependent (dotQ a b). intros q h3. clear - h3 h4 h5. qcnra. Qed.
Lemma dotQ_zero a b : (forall v, In v a -> v = 0) -> dotQ a b = 0.
Proof.
  revert b. induction a as [|x a IH]; intros b h1; cbn [dotQ]; [reflexivity|]. destruct b as [|y b]; [reflexivity|].
  rewrite (h1 x) by now left. rewrite IH by (intros; apply h1; now right). ring. Qed.

(** ** Free and known parts *)
Lemma getd_free a k d : is_known a k = false -> getd 0 k (free_part a d) = getd 0 k d.
Proof.
  intros h. unfold free_part. induction d as [|(k0, c) d IH]; [reflexivity|]. cbn [filter]. destruct (is_known a k0) eqn:E; cbn [negb].
  - rewrite IH, getd_cons. destruct (string_dec k k0); [congruence|reflexivity].
  - rewrite !getd_cons, IH. reflexivity. Qed.
Definition given_values (a : sdp_args) (x : name -> Qc) : Prop := forall k v, In (k, v) (known_vars a) -> x k = v.
Lemma known_value_of a x k : given_values a x -> match nget k (known_vars a) with Some v => In k (keys (known_vars a)) /\ x k = v | None => ~ In k (keys (known_vars a)) end.
Proof.
  intros h. unfold nget. destruct (get string_dec k (known_vars a)) as [v|] eqn:E.
  - apply get_some_in in E. split; [apply (in_map fst) in E; exact E|now apply h].
  - now apply (get_none string_dec). Qed.
Lemma constant_over a x d : given_values a x -> NoDup (keys (known_vars a)) -> NoDup (keys d) ->
  constant_part a d = sumk (keys (known_vars a)) (fun k => x k * getd 0 k d).
Proof.
  intros hx N N'.
  rewrite <- (sumk_ext _ (fun k => x k * getd 0 k (filter (fun '(k, _) => is_known a k) d))).
  2:{ intros k hk. f_equal. clear - hk. induction d as [|(k0, c) d IH]; [reflexivity|]. cbn [filter]. destruct (is_known a k0) eqn:E.
      - rewrite !getd_cons, IH. reflexivity.
      - rewrite IH, getd_cons. destruct (string_dec k k0) as [->|]; [|reflexivity]. unfold is_known in E. apply mem_false in E. contradiction. }
  rewrite <- (expr_over x).
  - clear N'. unfold constant_part. induction d as [|(k0, c) d IH]; [reflexivity|]. cbn [filter map]. rewrite sumQ_cons, IH.
    pose proof (known_value_of a x k0 hx) as q. unfold is_known. destruct (nget k0 (known_vars a)) as [v|].
    + destruct q as (q1 & q2). apply mem_iff in q1. rewrite q1, expr_cons, q2. ring.
    + apply mem_false in q. rewrite q. ring.
  - assumption.
  - now apply nodup_filter_keys.
  - intros k hk. unfold keys in hk. apply in_map_iff in hk as ((k0, c) & <- & hk). apply filter_In in hk as (_ & hk). now apply mem_iff in hk. Qed.
Lemma expr_split a x d : given_values a x -> expr x d = expr x (free_part a d) + constant_part a d.
Proof.
  intros hx. unfold constant_part, free_part. induction d as [|(k0, c) d IH]; [cbn [filter map]; rewrite expr_nil, sumQ_nil; ring|]. cbn [filter map]. rewrite sumQ_cons, expr_cons, IH.
  pose proof (known_value_of a x k0 hx) as q. unfold is_known. destruct (nget k0 (known_vars a)) as [v|].
  - destruct q as (q1 & q2). apply mem_iff in q1. rewrite q1. cbn [negb]. rewrite q2. ring.
  - apply mem_false in q. rewrite q. cbn [negb]. rewrite expr_cons. ring. Qed.

(** ** The situation after the pre-processing *)
Section Solved.
Variable a : sdp_args.
Hypothesis Hwf : wf_args a.
Hypothesis Hal : allowed a.
Variable p : problem.
Hypothesis Hp : preprocess a = Some p.
Notation KN := (keys (known_vars a)).
Notation w0 := (start a).
Notation vars := (p_vars p).

Lemma pre_w : exists w, process a w0 = Some w /\ p_vars p = w_vars w /\ p_F p = w_F w /\ p_obj p = w_obj w /\ p_ineqs p = w_ineqs w /\ p_eqs p = w_eqs w /\
  p_F0 p = constant_matrix a (w_F w0) /\ p_c0 p = constant_part a (w_obj w) /\
  p_A p = map (fun d => (free_part a d, constant_part a d)) (w_ineqs w) /\ p_C p = map (fun d => (free_part a d, constant_part a d)) (w_eqs w) /\
  (forall d k, In d (w_ineqs w) -> In k (keys d) -> In k (w_vars w) \/ In k KN) /\ (forall d k, In d (w_eqs w) -> In k (keys d) -> In k (w_vars w) \/ In k KN).
Proof.
  unfold preprocess in Hp. destruct (process a w0) as [w|] eqn:E; [|discriminate].
  destruct (all_some (map (to_row a (w_vars w)) (w_ineqs w))) as [A|] eqn:EA; [|discriminate].
  destruct (all_some (map (to_row a (w_vars w)) (w_eqs w))) as [C|] eqn:EC; [|discriminate].
  injection Hp as <-. cbn [p_vars p_F p_obj p_ineqs p_eqs p_F0 p_c0 p_A p_C].
  apply to_rows_spec in EA as (h1 & h2). apply to_rows_spec in EC as (h3 & h4). exists w. repeat split; assumption. Qed.

Lemma nodup_known : NoDup KN. Proof. destruct Hwf as (_ & _ & h & _). exact h. Qed.
(** the coefficient of a name in Z.F + I.ineqs + E.eqs *)
Definition hcoef (s : dual_point) (k : name) : Qc :=
  mdot (mat_dim a) (Z s) (Fm k (p_F p)) + dotQ (map (getd 0 k) (p_ineqs p)) (I s) + dotQ (map (getd 0 k) (p_eqs p)) (E s).
Definition satisfies (x : name -> Qc) : Prop :=
  (forall d, In d (p_ineqs p) -> 0 <= expr x d) /\ (forall d, In d (p_eqs p) -> expr x d = 0) /\
  psd (mat_dim a) (fun i j => expr x (Fent i j (p_F p))) /\
  (default_non_negative a = true -> forall k, In k vars -> 0 <= x k).

Lemma nodup_U : NoDup (vars ++ KN).
Proof.
  destruct pre_w as (w & hw & e1 & _). pose proof (process_spec a w Hwf Hal hw) as D. rewrite e1.
  apply NoDup_app_iff_local. - apply (dn_nodup _ _ D). - apply nodup_known. - intros k h1 h2. now apply (dn_known _ _ D k). Qed.

Lemma keys_in_U : (forall k, In k (keys (p_F p)) -> In k (vars ++ KN)) /\ (forall k, In k (keys (p_obj p)) -> In k (vars ++ KN)) /\
  (forall d k, In d (p_ineqs p) -> In k (keys d) -> In k (vars ++ KN)) /\ (forall d k, In d (p_eqs p) -> In k (keys d) -> In k (vars ++ KN)).
Proof.
  destruct pre_w as (w & hw & e1 & e2 & e3 & e4 & e5 & e6 & e7 & e8 & e9 & e10 & e11). pose proof (process_spec a w Hwf Hal hw) as D.
  rewrite e1, e2, e3, e4, e5. split; [|split; [|split]].
  - intros k h. apply in_or_app. now apply (dn_F _ _ D).
  - intros k h. apply in_or_app. now apply (dn_obj _ _ D).
  - intros d k h h'. apply in_or_app. now apply (e10 d).
  - intros d k h h'. apply in_or_app. now apply (e11 d). Qed.
Lemma nodup_dicts : NoDup (keys (p_F p)) /\ NoDup (keys (p_obj p)) /\ (forall d, In d (p_ineqs p) -> NoDup (keys d)) /\ (forall d, In d (p_eqs p) -> NoDup (keys d)).
Proof.
  destruct pre_w as (w & hw & e1 & e2 & e3 & e4 & e5 & e6 & e7 & e8 & e9 & e10 & e11). pose proof (process_spec a w Hwf Hal hw) as D.
  rewrite e2, e3, e4, e5. destruct D. repeat split; assumption. Qed.

Lemma lagrangian x s : mdot (mat_dim a) (Z s) (fun i j => expr x (Fent i j (p_F p))) + dotQ (map (expr x) (p_ineqs p)) (I s) + dotQ (map (expr x) (p_eqs p)) (E s)
  = sumk vars (fun k => x k * hcoef s k) + sumk KN (fun k => x k * hcoef s k).
Proof.
  destruct keys_in_U as (k1 & k2 & k3 & k4). destruct nodup_dicts as (n1 & n2 & n3 & n4). pose proof nodup_U as N.
  rewrite (mdot_over _ _ _ (vars ++ KN)) by assumption. rewrite (dot_over x (vars ++ KN) (p_ineqs p)) by assumption. rewrite (dot_over x (vars ++ KN) (p_eqs p)) by assumption.
  rewrite <- !sumk_add, <- sumk_app. apply sumk_ext. intros k _. unfold hcoef. ring. Qed.
Lemma lagrangian_nonneg x s : satisfies x -> psd (mat_dim a) (Z s) -> (forall y, In y (I s) -> 0 <= y) ->
  0 <= sumk vars (fun k => x k * hcoef s k) + sumk KN (fun k => x k * hcoef s k).
Proof.
  intros (h1 & h2 & h3 & _) hz hi. rewrite <- lagrangian.
  rewrite (dotQ_zero (map (expr x) (p_eqs p))).
  2:{ intros v hv. apply in_map_iff in hv as (d & <- & hd). auto. }
  assert (0 <= mdot (mat_dim a) (Z s) (fun i j => expr x (Fent i j (p_F p)))) as q1 by (now apply psd_mdot).
  assert (0 <= dotQ (map (expr x) (p_ineqs p)) (I s)) as q2.
  { apply dotQ_nonneg; [|assumption]. intros v hv. apply in_map_iff in hv as (d & <- & hd). auto. }
  qclra. Qed.

(** ** The constraints of the dual *)
Lemma known_false k : In k vars -> is_known a k = false.
Proof.
  destruct pre_w as (w & hw & e1 & _). pose proof (process_spec a w Hwf Hal hw) as D. rewrite e1. intros h. apply mem_false. now apply (dn_known _ _ D). Qed.
Lemma column_A k : is_known a k = false -> column (p_A p) k = map (getd 0 k) (p_ineqs p).
Proof.
  destruct pre_w as (w & hw & e1 & e2 & e3 & e4 & e5 & e6 & e7 & e8 & e9 & _). intros h. rewrite e8, e4. unfold column. rewrite map_map. apply map_ext. intros d. cbn [fst]. now apply getd_free. Qed.
Lemma column_C k : is_known a k = false -> column (p_C p) k = map (getd 0 k) (p_eqs p).
Proof.
  destruct pre_w as (w & hw & e1 & e2 & e3 & e4 & e5 & e6 & e7 & e8 & e9 & _). intros h. rewrite e9, e5. unfold column. rewrite map_map. apply map_ext. intros d. cbn [fst]. now apply getd_free. Qed.
Lemma dual_row_spec t s k : build_dual a p = Some t -> In k vars -> exists ci F A C, In (ci, F, A, C) (d_rows t) /\ ci = getd 0 k (p_obj p) /\ match F with Some M => mdot (d_dim t) (Z s) M | None => 0 end + dotQ A (I s) + dotQ C (E s) = hcoef s k.
Proof.
  intros h hk. unfold build_dual in h. destruct (all_some (map (dual_row a p) vars)) as [rows|] eqn:ER; [|discriminate]. injection h as <-. cbn [d_rows d_dim].
  apply all_some_spec in ER. destruct (forall2_in_l _ _ _ _ ER hk) as (r & hr & er). unfold dual_row in er. rewrite (known_false k hk) in er.
  rewrite (column_A k (known_false k hk)), (column_C k (known_false k hk)) in er.
  unfold hcoef, Fm. unfold getd at 2. destruct (nget k (p_F p)) as [[|M]|] eqn:EF; [discriminate| |].
  - injection er as <-. eexists _, _, _, _. split; [exact hr|]. split; [unfold getd; destruct (nget k (p_obj p)); reflexivity|reflexivity].
  - injection er as <-. eexists _, _, _, _. split; [exact hr|]. split; [unfold getd; destruct (nget k (p_obj p)); reflexivity|].
    cbn [F_entry]. rewrite mdot_0. reflexivity. Qed.
Lemma dual_Z t s : build_dual a p = Some t -> (d_psd t = true -> psd (d_dim t) (Z s)) -> psd (mat_dim a) (Z s).
Proof.
  intros h hz. unfold build_dual in h. destruct (all_some _) as [rows|]; [|discriminate]. injection h as <-. cbn [d_psd d_dim] in hz.
  destruct (has_masks a) eqn:E; [auto|]. unfold has_masks in E. destruct (mask_matrices a) as [|m ms] eqn:Em; [|discriminate].
  destruct Hwf as (_ & _ & _ & _ & _ & _ & _ & n8 & _). rewrite (n8 Em). split; [intros i j hi; lia|]. intros v. apply Qcle_refl. Qed.

Lemma weak_core x s t : satisfies x -> build_dual a p = Some t -> dual_feasible t s ->
  sumk vars (fun k => x k * getd 0 k (p_obj p)) <= sumk KN (fun k => x k * hcoef s k).
Proof.
  intros hx ht (d1 & d2 & d3 & d4 & d5). pose proof (lagrangian_nonneg x s hx (dual_Z t s ht d1) d3) as L.
  assert (sumk vars (fun k => x k * hcoef s k) <= sumk vars (fun k => - (x k * getd 0 k (p_obj p)))) as q.
  { apply sumk_le. intros k hk. destruct (dual_row_spec t s k ht hk) as (ci & F & A & C & h1 & h2 & h3). specialize (d5 ci F A C h1). cbn zeta in d5.
    rewrite <- h2, <- h3. assert (d_le t = default_non_negative a) as el by (unfold build_dual in ht; destruct (all_some _); [|discriminate]; injection ht as <-; reflexivity).
    rewrite el in d5. destruct hx as (_ & _ & _ & hx). destruct (default_non_negative a).
    - specialize (hx eq_refl k hk). generalize dependent (match F with Some M => mdot (d_dim t) (Z s) M | None => 0 end). intros u d5 _ .
      generalize dependent (dotQ A (I s)). generalize dependent (dotQ C (E s)). intros u1 u2 d5. clear - d5 hx. qcnra.
    - generalize dependent (match F with Some M => mdot (d_dim t) (Z s) M | None => 0 end). intros u d5 _ .
      generalize dependent (dotQ A (I s)). generalize dependent (dotQ C (E s)). intros u1 u2 d5. clear - d5.
      replace (u + u2 + u1) with (- ci) by (rewrite <- (Qcplus_0_l (- ci)), <- d5; ring). assert (x k * - ci = - (x k * ci)) as -> by ring. apply Qcle_refl. }
  rewrite (sumk_ext vars (fun k => - (x k * getd 0 k (p_obj p))) (fun k => (- (1)) * (x k * getd 0 k (p_obj p)))) in q by (intros; ring). rewrite sumk_scale in q. qclra. Qed.
Lemma ray_core x s t : satisfies x -> build_dual a p = Some t -> dual_ray t s -> 0 <= sumk KN (fun k => x k * hcoef s k).
Proof.
  intros hx ht (d1 & d2 & d3 & d4 & d5). pose proof (lagrangian_nonneg x s hx (dual_Z t s ht d1) d3) as L.
  assert (sumk vars (fun k => x k * hcoef s k) <= sumk vars (fun k => 0)) as q.
  { apply sumk_le. intros k hk. destruct (dual_row_spec t s k ht hk) as (ci & F & A & C & h1 & h2 & h3). specialize (d5 ci F A C h1). cbn zeta in d5.
    rewrite <- h3. assert (d_le t = default_non_negative a) as el by (unfold build_dual in ht; destruct (all_some _); [|discriminate]; injection ht as <-; reflexivity).
    rewrite el in d5. destruct hx as (_ & _ & _ & hx). destruct (default_non_negative a).
    - specialize (hx eq_refl k hk). generalize dependent (match F with Some M => mdot (d_dim t) (Z s) M | None => 0 end). intros u d5 _ .
      generalize dependent (dotQ A (I s)). generalize dependent (dotQ C (E s)). intros u1 u2 d5. clear - d5 hx. qcnra.
    - rewrite d5. assert (x k * 0 = 0) as -> by ring. apply Qcle_refl. }
  rewrite (sumk_zero vars (fun _ => 0)) in q by reflexivity. qclra. Qed.
End Solved.
