From Coq Require Import List Arith Bool Lia String QArith Qcanon Permutation.
From Verif Require Import MargModel QcSum QcArith SearchModel ProgramModel ProgramProofs Duality SDPSolveModel SDPSolveSpec PSD SDPSolveProofs SDPSolveProofs2 SDPSolveProofs3 SDPSolveProofs4.
Import ListNotations.
Open Scope Qc_scope.

(** ** The primal programme *)
Lemma as_matrices F : forall r, all_some (map as_matrix F) = Some r -> forall x i j, sumQ (map (fun '(k, M) => M i j * x k) r) = expr x (Fent i j F).
Proof.
  induction F as [|(k, f) F IH]; intros r h x i j; cbn [map all_some] in h.
  - injection h as <-. reflexivity.
  - unfold as_matrix in h at 1. cbn [fst snd] in h. destruct f as [|M]; [discriminate|]. destruct (all_some (map as_matrix F)) as [r'|]; [|discriminate]. injection h as <-.
    cbn [map Fent]. rewrite sumQ_cons, expr_cons. rewrite (IH r' eq_refl). reflexivity. Qed.
Lemma free_Fent a i j F : free_part a (Fent i j F) = Fent i j (free_part a F).
Proof. unfold free_part, Fent. induction F as [|(k, f) F IH]; [reflexivity|]. cbn [map filter]. destruct (is_known a k); cbn [negb map]; rewrite <- ?IH; reflexivity. Qed.

(** values for all names from values for the variables *)
Definition ext (a : sdp_args) (y : name -> Qc) : name -> Qc := fun k =>
  match nget k (known_vars a) with
  | Some v => v
  | None => if process_constraints a then match nget k (semiknown_vars a) with Some (c, k2) => c * y k2 | None => y k end else y k
  end.

Section Solved5.
Variable a : sdp_args.
Hypothesis Hwf : wf_args a.
Hypothesis Hal : allowed a.
Variable p : problem.
Hypothesis Hp : preprocess a = Some p.
Notation KN := (keys (known_vars a)).

Lemma filter_vars {V} (F : ndict V) : (forall k, In k (keys F) -> In k (p_vars p ++ KN)) -> filter (fun '(k, _) => mem k (p_vars p)) F = free_part a F.
Proof.
  intros h. unfold free_part. induction F as [|(k, f) F IH]; [reflexivity|]. cbn [filter]. rewrite IH by (intros k0 h0; apply h; now right).
  destruct (mem k (p_vars p)) eqn:E.
  - apply mem_iff in E. rewrite (known_false a Hwf Hal p Hp k E). reflexivity.
  - apply mem_false in E. assert (In k (p_vars p ++ KN)) as q by (apply h; now left). apply in_app_or in q as [q|q]; [contradiction|].
    unfold is_known. apply mem_iff in q. rewrite q. reflexivity. Qed.
Lemma matrix_over t x i j : given_values a x -> build_primal a p = Some t ->
  expr x (Fent i j (p_F p)) = x_F0 t i j + sumQ (map (fun '(k, M) => M i j * x k) (x_F t)).
Proof.
  intros hx ht. unfold build_primal in ht. destruct (all_some _) as [F|] eqn:EF; [|discriminate]. destruct (forallb _ _); [|discriminate]. injection ht as <-. cbn [x_F0 x_F].
  destruct (keys_in_U a Hwf Hal p Hp) as (k1 & _). rewrite (filter_vars (p_F p) k1) in EF. rewrite (as_matrices _ _ EF).
  rewrite (expr_split a x (Fent i j (p_F p)) hx), free_Fent. rewrite (F0_over a Hwf Hal p Hp x i j hx).
  rewrite (constant_over a x); [|assumption|now apply nodup_known|rewrite keys_Fent; apply (nodup_dicts a Hwf Hal p Hp)].
  rewrite (sumk_ext KN (fun k => x k * getd 0 k (Fent i j (p_F p))) (fun k => x k * Fm k (p_F p) i j)) by (intros; now rewrite getd_Fent). ring. Qed.
Lemma primal_fields t : build_primal a p = Some t -> x_vars t = p_vars p /\ x_nonneg t = default_non_negative a /\ x_A t = p_A p /\ x_C t = p_C p /\ x_dim t = mat_dim a /\ x_psd t = has_masks a /\
  x_const t = p_c0 p /\ x_obj t = free_part a (p_obj p).
Proof.
  intros ht. unfold build_primal in ht. destruct (all_some _) as [F|]; [|discriminate]. destruct (forallb _ _); [|discriminate]. injection ht as <-. repeat split. Qed.
Lemma rows_iff x : given_values a x ->
  ((forall r b, In (r, b) (p_A p) -> 0 <= expr x r + b) <-> (forall d, In d (p_ineqs p) -> 0 <= expr x d)) /\
  ((forall r b, In (r, b) (p_C p) -> expr x r + b = 0) <-> (forall d, In d (p_eqs p) -> expr x d = 0)).
Proof.
  intros hx. destruct (pre_w a p Hp) as (w & hw & e1 & e2 & e3 & e4 & e5 & e6 & e7 & e8 & e9 & _). rewrite e8, e9, e4, e5. split; split; intros h.
  - intros d hd. rewrite (expr_split a x d hx). apply h. apply in_map_iff. now exists d.
  - intros r b hr. apply in_map_iff in hr as (d & e & hd). injection e as <- <-. rewrite <- (expr_split a x d hx). auto.
  - intros d hd. rewrite (expr_split a x d hx). apply h. apply in_map_iff. now exists d.
  - intros r b hr. apply in_map_iff in hr as (d & e & hd). injection e as <- <-. rewrite <- (expr_split a x d hx). auto. Qed.
Lemma primal_value_is t x : given_values a x -> build_primal a p = Some t -> primal_value t x = expr x (p_obj p).
Proof.
  intros hx ht. destruct (primal_fields t ht) as (_ & _ & _ & _ & _ & _ & f1 & f2). unfold primal_value. rewrite f1, f2.
  destruct (pre_w a p Hp) as (w & hw & e1 & e2 & e3 & e4 & e5 & e6 & e7 & _). rewrite e7, <- e3, (expr_split a x (p_obj p) hx). ring. Qed.
Lemma psd_0 M : psd 0 M.
Proof. split; [intros i j hi; lia|]. intros v. apply Qcle_refl. Qed.
Lemma no_masks_dim : has_masks a = false -> mat_dim a = 0%nat.
Proof. intros h. destruct Hwf as (_ & _ & _ & _ & _ & _ & _ & n8 & _). apply n8. unfold has_masks in h. destruct (mask_matrices a); [reflexivity|discriminate]. Qed.

Lemma to_primal t x : open_part a x -> given_values a x -> psd (mat_dim a) (matrix0 a x) -> lam_ok a x -> build_primal a p = Some t ->
  primal_feasible t x (matrix0 a x) /\ primal_value t x = value0 a x.
Proof.
  intros ho hx hps hl ht. destruct (primal_fields t ht) as (f1 & f2 & f3 & f4 & f5 & f6 & f7 & f8).
  destruct (satisfies_open a Hwf Hal p Hp x ho hps hl) as (s1 & s2 & s3 & s4).
  destruct (pre_w a p Hp) as (w & hw & e1 & e2 & e3 & _). pose proof (process_spec a w Hwf Hal hw) as D.
  split.
  - unfold primal_feasible. rewrite f1, f2, f3, f4, f5, f6. split; [assumption|]. split; [now apply (proj1 (rows_iff x hx))|]. split; [now apply (proj2 (rows_iff x hx))|].
    intros _. split; [assumption|]. intros i j _ _. rewrite <- (matrix_over t x i j hx ht), e2. symmetry. apply (dn_same_F _ _ D). apply ho.
  - rewrite (primal_value_is t x hx ht), e3. unfold value0. apply (dn_same_obj _ _ D). apply ho. Qed.

Lemma ext_given y : given_values a (ext a y).
Proof.
  intros k v hin. unfold ext, nget. rewrite (in_get string_dec k v); [reflexivity|now apply nodup_known|assumption]. Qed.
Lemma ext_vars y k : In k (p_vars p) -> ext a y k = y k.
Proof.
  intros hk. pose proof (known_false a Hwf Hal p Hp k hk) as q. unfold is_known in q. apply mem_false in q. apply (get_none string_dec) in q.
  unfold ext, nget. rewrite q. destruct (process_constraints a) eqn:Ep; [|reflexivity].
  destruct (pre_w a p Hp) as (w & hw & e1 & _). pose proof (process_spec a w Hwf Hal hw) as D. rewrite e1 in hk. pose proof (dn_gone _ _ D Ep k hk) as q2. apply (get_none string_dec) in q2.
  rewrite q2. reflexivity. Qed.
Lemma expr_ext_row y d : (forall k, In k (keys d) -> In k (p_vars p ++ KN)) -> expr (ext a y) (free_part a d) = expr y (free_part a d).
Proof.
  intros h. apply expr_ext. intros k hk. apply ext_vars. unfold keys, free_part in hk. apply in_map_iff in hk as ((k0, c) & <- & hk). apply filter_In in hk as (hk & q). cbn [fst] in *.
  assert (In k0 (p_vars p ++ KN)) as q1 by (apply h; apply (in_map fst) in hk; exact hk). apply in_app_or in q1 as [q1|q1]; [assumption|].
  apply mem_iff in q1. unfold is_known in q. rewrite q1 in q. discriminate. Qed.
Lemma from_primal t y G : build_primal a p = Some t -> primal_feasible t y G -> exists x,
  open_part a x /\ given_values a x /\ psd (mat_dim a) (matrix0 a x) /\ lam_ok a x /\ (forall k, In k (x_vars t) -> x k = y k) /\ primal_value t y = value0 a x /\
  (has_masks a = true -> forall i j, (i < mat_dim a)%nat -> (j < mat_dim a)%nat -> G i j = matrix0 a x i j).
Proof.
  intros ht (h1 & h2 & h3 & h4). destruct (primal_fields t ht) as (f1 & f2 & f3 & f4 & f5 & f6 & f7 & f8). rewrite f1, f2, f3, f4, f5, f6 in *.
  destruct (pre_w a p Hp) as (w & hw & e1 & e2 & e3 & e4 & e5 & e6 & e7 & e8 & e9 & e10 & e11). pose proof (process_spec a w Hwf Hal hw) as D.
  destruct (keys_in_U a Hwf Hal p Hp) as (k1 & k2 & k3 & k4). destruct (nodup_dicts a Hwf Hal p Hp) as (n1 & n2 & n3 & n4).
  set (x := ext a y). pose proof (ext_given y) as hx. fold x in hx.
  assert (forall d, In d (p_ineqs p) -> 0 <= expr x d) as s1.
  { intros d hd. rewrite (expr_split a x d hx). unfold x. rewrite expr_ext_row by (intros k hk; now apply (k3 d)). apply h2. rewrite e8, <- e4. apply in_map_iff. now exists d. }
  assert (forall d, In d (p_eqs p) -> expr x d = 0) as s2.
  { intros d hd. rewrite (expr_split a x d hx). unfold x. rewrite expr_ext_row by (intros k hk; now apply (k4 d)). apply h3. rewrite e9, <- e5. apply in_map_iff. now exists d. }
  assert (relations (semiknown_vars a) x) as hr.
  { destruct (process_constraints a) eqn:Ep.
    - destruct Hwf as (_ & _ & _ & m4 & _ & _ & _ & _ & m9 & m10 & _).
      intros k c kk2 hin. assert (In k (keys (semiknown_vars a))) as ik by (apply (in_map fst) in hin; exact hin).
      assert (In kk2 (targets a)) as it by (exact (in_map (fun q => snd (snd q)) _ _ hin)). destruct (m10 _ it) as (q1 & q2).
      pose proof (m9 _ ik) as q3. apply (get_none string_dec) in q1. apply (get_none string_dec) in q2. apply (get_none string_dec) in q3.
      unfold x, ext, nget. rewrite q3, q1, q2, Ep. rewrite (in_get string_dec k (c, kk2)); [reflexivity|assumption|assumption].
    - apply (dn_relations _ _ D Ep). rewrite <- e5. exact s2. }
  assert (has_masks a = true -> forall i j, (i < mat_dim a)%nat -> (j < mat_dim a)%nat -> G i j = expr x (Fent i j (p_F p))) as hG.
  { intros hm. destruct (h4 hm) as (hg & he).
    assert (forall i j, (i <= j)%nat -> (j < mat_dim a)%nat -> G i j = expr x (Fent i j (p_F p))) as hu.
    { intros i j hij hj. rewrite (he i j hij hj), (matrix_over t x i j hx ht). f_equal. apply sumQ_ext. intros (k, M) hin. unfold x. rewrite ext_vars; [reflexivity|].
      clear - ht hin. unfold build_primal in ht. destruct (all_some _) as [F|] eqn:EF; [|discriminate]. destruct (forallb _ _); [|discriminate]. injection ht as <-. cbn [x_F] in hin.
      apply all_some_spec in EF. destruct (forall2_in_r _ _ _ _ EF hin) as ((k0, f) & q1 & q2). apply filter_In in q1 as (_ & q1). apply mem_iff in q1.
      unfold as_matrix in q2. cbn [fst snd] in q2. destruct f; [discriminate|]. injection q2 as <- _. assumption. }
    assert (symmetric (mat_dim a) (fun i j => expr x (Fent i j (p_F p)))) as hsym.
    { intros i j hi hj. rewrite e2. rewrite !(dn_same_F _ _ D x hr). fold (matrix0 a x i j). fold (matrix0 a x j i).
      assert (forall i j, (i < mat_dim a)%nat -> (j < mat_dim a)%nat -> moment_matrix a x i j = moment_matrix a x j i) as hs.
      { intros i0 j0 q1 q2. unfold moment_matrix. apply sumQ_ext. intros (k, M) hin. destruct Hwf as (_ & _ & _ & _ & _ & _ & n7 & _). now rewrite (n7 k M hin i0 j0). }
      destruct (feas_as_optim a) eqn:Ef.
      - destruct (Hal Ef) as (_ & hl). assert (NoDup (keys (mask_matrices a))) as nm by (destruct Hwf; assumption).
        rewrite !(proj1 (start_relaxed a Ef hm hl nm x)). rewrite (hs i j) by assumption. rewrite Nat.eqb_sym. reflexivity.
      - rewrite !(proj1 (start_plain a Ef x)). now apply hs. }
    intros i j hi hj. destruct (le_ge_dec i j) as [h|h]; [now apply hu|]. rewrite (proj1 hg i j hi hj). rewrite (hu j i h hi). symmetry. now apply (hsym i j). }
  assert (satisfies a p x) as hs.
  { split; [assumption|]. split; [assumption|]. split.
    - destruct (has_masks a) eqn:Em; [|rewrite (no_masks_dim Em); apply psd_0].
      destruct (h4 eq_refl) as (hg & _). revert hg. apply psd_ext. auto.
    - intros hn k hk. unfold x. rewrite (ext_vars y k hk). auto. }
  destruct (open_satisfies a Hwf Hal p Hp x hs hr) as (ho & hps).
  exists x. split; [assumption|]. split; [assumption|]. split; [assumption|]. split; [|split; [|split]].
  - intros hf hn. unfold x. rewrite ext_vars; [|rewrite e1; now apply (dn_lambda _ _ D)]. apply (h1 hn). rewrite e1. now apply (dn_lambda _ _ D).
  - intros k hk. now apply ext_vars.
  - transitivity (primal_value t x).
    + unfold primal_value. rewrite f8. f_equal. symmetry. apply expr_ext_row. assumption.
    + rewrite (primal_value_is t x hx ht), e3. unfold value0. now apply (dn_same_obj _ _ D).
  - intros hm i j hi hj. rewrite (hG hm i j hi hj), e2. now apply (dn_same_F _ _ D). Qed.
End Solved5.

(** ** Pre-processing does not fail *)
Definition is_mat (f : fval) : Prop := match f with Mat _ => True | Zero => False end.
Definition all_mats (F : ndict fval) : Prop := forall k f, In (k, f) F -> is_mat f.
Lemma elim_total a sk : sane sk -> has_masks a = true -> forall w, NoDup (keys (w_F w)) -> all_mats (w_F w) ->
  (forall k, In k (keys sk) -> In k (w_vars w) /\ In k (keys (w_F w))) -> exists w', elim_all a sk (Some w) = Some w' /\ all_mats (w_F w').
Proof.
  intros hs hm. induction sk as [|(k, (c, k2)) sk IH]; intros w N ha hk; [now exists w|].
  cbn [elim_all fold_left]. unfold eliminate at 2. destruct (hk k (or_introl eq_refl)) as (q1 & q2). apply mem_iff in q1 as q1'. rewrite q1'. rewrite hm.
  destruct (sane_head _ _ _ _ hs) as (s1 & s2). apply (in_keys_get string_dec) in q2 as (f & ef).
  refine (IH (sane_tail _ _ hs) _ _ _ _); cbn [w_vars w_F].
  - now apply subst_nodup.
  - intros k0 f0 hin. apply (in_get string_dec) in hin; [|now apply subst_nodup]. unfold substF, substitute, nset in hin. rewrite get_set in hin.
    destruct (string_dec k0 k2).
    + injection hin as <-. unfold getd at 2, nget. rewrite ef. pose proof (ha k f (get_some_in _ _ _ _ ef)) as hf. destruct f as [|m]; [destruct hf|]. cbn [fmul].
      destruct (getd Zero k2 (ndel k (w_F w))); exact Logic.I.
    + unfold ndel in hin. rewrite get_del in hin. destruct (string_dec k0 k); [discriminate|]. apply get_some_in in hin. now apply (ha k0).
  - intros k0 hk0. destruct (hk k0 (or_intror hk0)) as (q3 & q4). assert (k0 <> k) as ne.
    { intros ->. destruct hs as (hs & _). inversion hs; subst. contradiction. }
    split; [apply in_add; right; apply in_remove; now split|]. unfold substF. rewrite subst_keys. right. now split. Qed.
Lemma rows_total a vars ds : (forall d k, In d ds -> In k (keys d) -> In k vars \/ In k (keys (known_vars a))) -> exists r, all_some (map (to_row a vars) ds) = Some r.
Proof.
  intros h. apply all_some_complete. intros d hd e. unfold to_row in e.
  assert (forallb (fun k => mem k vars) (keys (free_part a d)) = true) as q; [|rewrite q in e; discriminate].
  apply forallb_forall. intros k hk. unfold keys, free_part in hk. apply in_map_iff in hk as ((k0, c) & <- & hk). apply filter_In in hk as (hk & q). cbn [fst].
  apply mem_iff. destruct (h d k0 hd) as [e1|e1]; [apply (in_map fst) in hk; exact hk|assumption|]. apply mem_iff in e1. unfold is_known in q. rewrite e1 in q. discriminate. Qed.
Lemma preprocess_total a : wf_args a -> allowed a -> has_masks a = true -> (forall k, In k (keys (semiknown_vars a)) -> In k (keys (mask_matrices a))) ->
  exists p, preprocess a = Some p /\ all_mats (p_F p).
Proof.
  intros hwf hal hm hk. pose proof (start_spec a hwf hal) as T.
  assert (sane (semiknown_vars a)) as hsane.
  { destruct hwf as (_ & _ & _ & n4 & _ & _ & _ & _ & _ & n10 & _). split; [assumption|]. intros k h. apply n10. exact h. }
  assert (forall k, In k (keys (semiknown_vars a)) -> In k (w_vars (start a)) /\ In k (keys (w_F (start a)))) as hk'.
  { intros k h. destruct hwf as (_ & _ & _ & _ & _ & _ & _ & _ & n9 & _). split; [apply (st_unknown _ _ T); split; [apply in_all_masks; auto|auto]|].
    unfold start. destruct (relaxing a); cbn [w_F].
    - unfold nset. apply keys_set. right. rewrite keys_masks. auto.
    - rewrite keys_masks. auto. }
  assert (all_mats (w_F (start a))) as hmats.
  { unfold start. destruct (relaxing a); cbn [w_F].
    - intros k f hin. apply (in_get string_dec) in hin.
      + unfold nset in hin. rewrite get_set in hin. destruct (string_dec k (lambda_name a)); [injection hin as <-; exact Logic.I|].
        apply get_some_in in hin. apply in_map_iff in hin as ((k0, m) & e & _). injection e as <- <-. exact Logic.I.
      + apply (nodup_set string_dec). rewrite keys_masks. destruct hwf; assumption.
    - intros k f hin. apply in_map_iff in hin as ((k0, m) & e & _). injection e as <- <-. exact Logic.I. }
  assert (exists w, process a (start a) = Some w /\ all_mats (w_F w)) as (w & hw & hmw).
  { unfold process. destruct (process_constraints a).
    - apply (elim_total a _ hsane hm); try assumption. destruct (st_wf _ _ T) as (_ & q & _). exact q.
    - eexists. split; [reflexivity|]. destruct (append_all (semiknown_vars a) (start a)) as (h1 & _). cbn zeta in h1. rewrite h1. assumption. }
  pose proof (process_spec a w hwf hal hw) as D.
  assert (forall ds ds', (process_constraints a = true -> Forall2 (same (semiknown_vars a)) ds ds') -> True) as _ by auto.
  assert ((forall d k, In d (w_ineqs w) -> In k (keys d) -> In k (w_vars w) \/ In k (keys (known_vars a))) /\
          (forall d k, In d (w_eqs w) -> In k (keys d) -> In k (w_vars w) \/ In k (keys (known_vars a)))) as (r1 & r2).
  { assert (forall k, In k (all_names a) -> In k (keys (known_vars a)) \/ In k (w_vars (start a))) as hn.
    { intros k h. destruct (in_dec string_dec k (keys (known_vars a))) as [q|q]; [now left|right]. apply (st_unknown _ _ T). now split. }
    unfold process in hw. destruct (process_constraints a).
    - fold (elim_all a (semiknown_vars a) (Some (start a))) in hw.
      pose proof (eliminate_all a _ hsane _ _ (st_wf _ _ T) (st_masks _ _ T) hw) as [s1 s2 s3 s4 s5 s6 s7]. rewrite (st_eqs _ _ T) in s6. rewrite (st_ineqs _ _ T) in s7. split.
      + intros d k hd h. destruct (forall2_in_r _ _ _ _ s7 hd) as (d0 & h0 & q). destruct (same_keys _ _ _ q k h) as [(q1 & q2)|q1]; [|left; apply s1; now right].
        destruct (hn k (in_all_ineqs a d0 k h0 q1)) as [e|e]; [now right|left; apply s1; left; now split].
      + intros d k hd h. destruct (forall2_in_r _ _ _ _ s6 hd) as (d0 & h0 & q). destruct (same_keys _ _ _ q k h) as [(q1 & q2)|q1]; [|left; apply s1; now right].
        destruct (hn k (in_all_eqs a d0 k h0 q1)) as [e|e]; [now right|left; apply s1; left; now split].
    - injection hw as <-. destruct (append_all (semiknown_vars a) (start a)) as (h1 & h2 & h3 & h4 & h5 & h6). cbn zeta in *. rewrite h3, h4, (st_eqs _ _ T), (st_ineqs _ _ T). split.
      + intros d k hd h. destruct (hn k (in_all_ineqs a d k hd h)) as [e|e]; [now right|left; apply h5; now left].
      + intros d k hd h. apply in_app_or in hd as [hd|hd].
        * destruct (hn k (in_all_eqs a d k hd h)) as [e|e]; [now right|left; apply h5; now left].
        * apply in_map_iff in hd as ((x, (c, x2)) & <- & hin). left. apply h5. unfold nset in h. apply keys_set in h as [->|h].
          -- right. exact (in_map (fun q => snd (snd q)) _ _ hin).
          -- left. cbn in h. destruct h as [<-|[]]. apply hk'. apply (in_map fst) in hin. exact hin. }
  destruct (rows_total a (w_vars w) (w_ineqs w) r1) as (A & hA). destruct (rows_total a (w_vars w) (w_eqs w) r2) as (C & hC).
  unfold preprocess. rewrite hw, hA, hC. eexists. split; [reflexivity|]. exact hmw. Qed.
Lemma build_total a p : wf_args a -> allowed a -> preprocess a = Some p -> all_mats (p_F p) -> (exists t, build_dual a p = Some t) /\ (exists t, build_primal a p = Some t).
Proof.
  intros hwf hal hp hm. split.
  - unfold build_dual. destruct (all_some_complete (dual_row a p) (p_vars p)) as (r & hr).
    + intros k hk e. unfold dual_row in e. unfold nget in e. destruct (get string_dec k (p_F p)) as [f|] eqn:E; [|discriminate].
      apply get_some_in in E. pose proof (hm k f E) as q. destruct f; [destruct q|discriminate].
    + rewrite hr. eexists. reflexivity.
  - unfold build_primal. destruct (all_some_complete as_matrix (filter (fun '(k, _) => mem k (p_vars p)) (p_F p))) as (r & hr).
    + intros (k, f) hk e. apply filter_In in hk as (hk & _). pose proof (hm k f hk) as q. unfold as_matrix in e. cbn [snd] in e. destruct f; [destruct q|discriminate].
    + rewrite hr. destruct (keys_in_U a hwf hal p hp) as (_ & k2 & _).
      assert (forallb (fun k => mem k (p_vars p)) (keys (free_part a (p_obj p))) = true) as ->; [|eexists; reflexivity].
      apply forallb_forall. intros k hk. unfold keys, free_part in hk. apply in_map_iff in hk as ((k0, c) & <- & hk). apply filter_In in hk as (hk & q). cbn [fst].
      apply mem_iff. assert (In k0 (p_vars p ++ keys (known_vars a))) as q1 by (apply k2; apply (in_map fst) in hk; exact hk). apply in_app_or in q1 as [e1|e1]; [assumption|]. apply mem_iff in e1. unfold is_known in q. rewrite e1 in q. discriminate. Qed.
