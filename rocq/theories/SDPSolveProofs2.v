From Coq Require Import List Arith Bool Lia String QArith Qcanon Permutation.
From Verif Require Import MargModel QcSum QcArith ProgramModel ProgramProofs Duality SDPSolveModel SDPSolveSpec PSD SDPSolveProofs.
Import ListNotations.
Open Scope Qc_scope.

(** ** Variables *)
Lemma in_fold_add l : forall acc k, In k (fold_left (fun l k => add k l) l acc) <-> In k l \/ In k acc.
Proof.
  induction l as [|x l IH]; intros acc k; cbn [fold_left].
  - cbn. intuition.
  - rewrite IH, in_add. cbn [In]. intuition. Qed.
Lemma nodup_fold_add l : forall acc, NoDup acc -> NoDup (fold_left (fun l k => add k l) l acc).
Proof. induction l as [|x l IH]; intros acc h; cbn [fold_left]; [assumption|]. apply IH. now apply nodup_add. Qed.
Lemma in_variables a k : In k (variables_of a) <-> unknown a k.
Proof.
  unfold variables_of, unknown, is_known. rewrite filter_In, in_fold_add, negb_true_iff, mem_false. cbn [In]. intuition. Qed.
Lemma nodup_variables a : NoDup (variables_of a).
Proof. unfold variables_of. apply NoDup_filter. apply nodup_fold_add. constructor. Qed.

Lemma length_append s t : String.length (String.append s t) = (String.length s + String.length t)%nat.
Proof. induction s as [|c s IH]; cbn; [reflexivity|now rewrite IH]. Qed.
(** fewer than fuel names are at least as long: the loop ends with a new name *)
Lemma fresh_spec fuel : forall vars lam, (length (filter (fun v => String.length lam <=? String.length v)%nat vars) < fuel)%nat -> ~ In (fresh fuel vars lam) vars.
Proof.
  induction fuel as [|fuel IH]; intros vars lam h; [lia|]. cbn [fresh]. destruct (mem lam vars) eqn:E; [|now apply mem_false].
  apply mem_iff in E. apply IH. clear IH.
  assert (forall l, length (filter (fun v => String.length (String.append lam "_") <=? String.length v)%nat l) <= length (filter (fun v => String.length lam <=? String.length v)%nat l))%nat as hle.
  { induction l as [|v l IHl]; [apply Nat.le_refl|]. cbn [filter]. rewrite length_append. cbn [String.length].
    destruct (Nat.leb_spec (String.length lam + 1) (String.length v)), (Nat.leb_spec (String.length lam) (String.length v)); cbn [length]; rewrite length_append in IHl; cbn [String.length] in IHl; lia. }
  assert (length (filter (fun v => String.length (String.append lam "_") <=? String.length v)%nat vars) < length (filter (fun v => String.length lam <=? String.length v)%nat vars))%nat as hlt; [|lia].
  clear h. induction vars as [|v vars IHv]; [destruct E|]. cbn [filter]. destruct E as [->|E].
  - pose proof (hle vars) as q. rewrite length_append in *. cbn [String.length] in *.
    destruct (Nat.leb_spec (String.length lam + 1) (String.length lam)); [lia|]. rewrite Nat.leb_refl. cbn [length]. lia.
  - specialize (IHv E). rewrite length_append in *. cbn [String.length] in *.
    destruct (Nat.leb_spec (String.length lam + 1) (String.length v)), (Nat.leb_spec (String.length lam) (String.length v)); cbn [length]; lia. Qed.
Lemma lambda_fresh a : ~ In (lambda_name a) (variables_of a).
Proof.
  unfold lambda_name. apply fresh_spec. apply Nat.lt_succ_r. apply filter_shorter. Qed.
Lemma lambda_not_name a : ~ In (lambda_name a) (keys (known_vars a)) -> ~ In (lambda_name a) (all_names a).
Proof. intros h e. apply (lambda_fresh a). apply in_variables. now split. Qed.

(** ** The beginning *)
Definition allowed (a : sdp_args) : Prop := (feas_as_optim a = true -> has_masks a = true /\ lambda_free a).
Lemma relaxing_feas a : allowed a -> relaxing a = feas_as_optim a.
Proof. intros h. unfold relaxing. destruct (feas_as_optim a) eqn:E; [|reflexivity]. rewrite (proj1 (h E)). reflexivity. Qed.
Lemma keys_masks (d : ndict matrix) : keys (map (fun '(k, m) => (k, Mat m)) d) = keys d.
Proof. unfold keys. rewrite map_map. apply map_ext. intros (k, m). reflexivity. Qed.
Lemma in_all_masks a k : In k (keys (mask_matrices a)) -> In k (all_names a).
Proof. intros h. unfold all_names. apply in_or_app. now left. Qed.
Lemma in_all_obj a k : In k (keys (objective a)) -> In k (all_names a).
Proof. intros h. unfold all_names. apply in_or_app. right. apply in_or_app. now left. Qed.
Lemma in_all_eqs a d k : In d (equalities a) -> In k (keys d) -> In k (all_names a).
Proof. intros h h1. unfold all_names. apply in_or_app. right. apply in_or_app. right. apply in_or_app. left. apply in_flat_map. now exists d. Qed.
Lemma in_all_ineqs a d k : In d (inequalities a) -> In k (keys d) -> In k (all_names a).
Proof. intros h h1. unfold all_names. apply in_or_app. right. apply in_or_app. right. apply in_or_app. right. apply in_flat_map. now exists d. Qed.

Record start_facts (a : sdp_args) (w : work) : Prop := {
  st_wf : wf_work w;
  st_vars : forall k, In k (w_vars w) -> unknown a k \/ (feas_as_optim a = true /\ k = lambda_name a);
  st_vars_known : forall k, In k (w_vars w) -> ~ In k (keys (known_vars a));
  st_F : forall k, In k (keys (w_F w)) -> In k (w_vars w) \/ In k (keys (known_vars a));
  st_obj : forall k, In k (keys (w_obj w)) -> In k (w_vars w) \/ In k (keys (known_vars a));
  st_eqs : w_eqs w = equalities a; st_ineqs : w_ineqs w = inequalities a;
  st_masks : has_masks a = false -> w_F w = [];
  st_unknown : forall k, unknown a k -> In k (w_vars w)
}.
Lemma start_spec a : wf_args a -> allowed a -> start_facts a (start a).
Proof.
  intros (n1 & n2 & n3 & n4 & n5 & n6 & n7 & n8 & n9 & n10 & n11) hal.
  unfold start. rewrite (relaxing_feas a hal). destruct (feas_as_optim a) eqn:Ef.
  - destruct (hal Ef) as (hm & l1 & l2 & l3). split; cbn [w_vars w_F w_obj w_eqs w_ineqs].
    + split; [|split; [|split; [|split]]]; try assumption; cbn [w_vars w_F w_obj w_eqs w_ineqs].
      * apply nodup_add. apply nodup_variables.
      * apply (nodup_set string_dec). now rewrite keys_masks.
      * constructor; [intros []|constructor].
    + intros k h. apply in_add in h as [->|h]; [now right|left; now apply in_variables].
    + intros k h. apply in_add in h as [->|h]; [assumption|]. apply in_variables in h. apply h.
    + intros k h. unfold nset in h. apply keys_set in h as [->|h]; [left; apply in_add; now left|]. rewrite keys_masks in h.
      destruct (in_dec string_dec k (keys (known_vars a))) as [hk|hk]; [now right|]. left. apply in_add. right. apply in_variables. split; [now apply in_all_masks|assumption].
    + intros k [<-|[]]. left. apply in_add. now left.
    + reflexivity. + reflexivity.
    + congruence.
    + intros k h. apply in_add. right. now apply in_variables.
  - split; cbn [w_vars w_F w_obj w_eqs w_ineqs].
    + split; [|split; [|split; [|split]]]; try assumption; cbn [w_vars w_F w_obj w_eqs w_ineqs].
      * apply nodup_variables.
      * now rewrite keys_masks.
    + intros k h. left. now apply in_variables.
    + intros k h. apply in_variables in h. apply h.
    + intros k h. rewrite keys_masks in h.
      destruct (in_dec string_dec k (keys (known_vars a))) as [hk|hk]; [now right|]. left. apply in_variables. split; [now apply in_all_masks|assumption].
    + intros k h.
      destruct (in_dec string_dec k (keys (known_vars a))) as [hk|hk]; [now right|]. left. apply in_variables. split; [now apply in_all_obj|assumption].
    + reflexivity. + reflexivity.
    + unfold has_masks. destruct (mask_matrices a); [reflexivity|discriminate].
    + intros k h. now apply in_variables.
Qed.

(** ** After the loops of lines 214-241 *)
Record done_facts (a : sdp_args) (w : work) : Prop := {
  dn_nodup : NoDup (w_vars w);
  dn_vars : forall k, In k (w_vars w) -> unknown a k \/ In k (targets a) \/ (feas_as_optim a = true /\ k = lambda_name a);
  dn_known : forall k, In k (w_vars w) -> ~ In k (keys (known_vars a));
  dn_nodupF : NoDup (keys (w_F w));
  dn_F : forall k, In k (keys (w_F w)) -> In k (w_vars w) \/ In k (keys (known_vars a));
  dn_nodup_obj : NoDup (keys (w_obj w));
  dn_obj : forall k, In k (keys (w_obj w)) -> In k (w_vars w) \/ In k (keys (known_vars a));
  dn_nodup_eqs : forall d, In d (w_eqs w) -> NoDup (keys d);
  dn_nodup_ineqs : forall d, In d (w_ineqs w) -> NoDup (keys d);
  dn_same_F : forall x, relations (semiknown_vars a) x -> forall i j, expr x (Fent i j (w_F w)) = expr x (Fent i j (w_F (start a)));
  dn_same_obj : forall x, relations (semiknown_vars a) x -> expr x (w_obj w) = expr x (w_obj (start a));
  dn_same_ineqs : forall x, relations (semiknown_vars a) x -> ((forall d, In d (w_ineqs w) -> 0 <= expr x d) <-> (forall d, In d (inequalities a) -> 0 <= expr x d));
  dn_same_eqs : forall x, relations (semiknown_vars a) x -> ((forall d, In d (w_eqs w) -> expr x d = 0) <-> (forall d, In d (equalities a) -> expr x d = 0));
  dn_get_known : forall k, In k (keys (known_vars a)) -> forall i j, nget k (Fent i j (w_F w)) = nget k (Fent i j (w_F (start a)));
  dn_get_obj : forall k, In k (keys (known_vars a)) -> nget k (w_obj w) = nget k (w_obj (start a));
  dn_masks : has_masks a = false -> w_F w = [];
  dn_relations : process_constraints a = false -> forall x, (forall d, In d (w_eqs w) -> expr x d = 0) -> relations (semiknown_vars a) x;
  dn_gone : process_constraints a = true -> forall k, In k (w_vars w) -> ~ In k (keys (semiknown_vars a));
  dn_unknown : forall k, unknown a k -> In k (w_vars w) \/ (process_constraints a = true /\ In k (keys (semiknown_vars a)));
  dn_targets : forall k, In k (targets a) -> In k (w_vars w);
  dn_lambda : feas_as_optim a = true -> In (lambda_name a) (w_vars w);
  dn_all : forall k, In k (keys (semiknown_vars a)) -> process_constraints a = true -> In k (w_vars (start a))
}.

Lemma append_all sk : forall w,
  let w' := fold_left append_equality sk w in
  w_F w' = w_F w /\ w_obj w' = w_obj w /\ w_ineqs w' = w_ineqs w /\
  w_eqs w' = w_eqs w ++ map (fun '(x, (c, x2)) => nset x2 (- c) [(x, 1)]) sk /\
  (forall k, In k (w_vars w') <-> In k (w_vars w) \/ In k (tgts sk)) /\ (NoDup (w_vars w) -> NoDup (w_vars w')).
Proof.
  induction sk as [|(x, (c, x2)) sk IH]; intros w; cbn [fold_left].
  - cbn [map tgts In]. rewrite app_nil_r. repeat split; auto. intros [h|[]]; assumption.
  - destruct (IH (append_equality w (x, (c, x2)))) as (h1 & h2 & h3 & h4 & h5 & h6). cbn [append_equality w_F w_obj w_ineqs w_eqs w_vars] in *.
    split; [assumption|]. split; [assumption|]. split; [assumption|]. split; [rewrite h4; cbn [map]; now rewrite <- app_assoc|]. split.
    + intros k. rewrite h5, in_add. cbn [tgts map In snd]. intuition.
    + intros N. apply h6. now apply nodup_add. Qed.

Lemma forall2_in_r {A B} (R : A -> B -> Prop) l l' y : Forall2 R l l' -> In y l' -> exists x, In x l /\ R x y.
Proof. induction 1 as [|x y0 l l' r F IH]; intros h; [destruct h|]. destruct h as [<-|h]; [exists x; split; [now left|assumption]|]. destruct (IH h) as (x0 & h1 & h2). exists x0. split; [now right|assumption]. Qed.
Lemma forall2_in_l {A B} (R : A -> B -> Prop) l l' x : Forall2 R l l' -> In x l -> exists y, In y l' /\ R x y.
Proof. induction 1 as [|x0 y l l' r F IH]; intros h; [destruct h|]. destruct h as [<-|h]; [exists y; split; [now left|assumption]|]. destruct (IH h) as (y0 & h1 & h2). exists y0. split; [now right|assumption]. Qed.

Lemma process_spec a w : wf_args a -> allowed a -> process a (start a) = Some w -> done_facts a w.
Proof.
  intros hwf hal h. pose proof (start_spec a hwf hal) as [t1 t2 t2' t3 t4 t5 t6 t7 t8].
  destruct hwf as (n1 & n2 & n3 & n4 & n5 & n6 & n7 & n8 & n9 & n10 & n11).
  assert (sane (semiknown_vars a)) as hsane by (split; [assumption|intros k hk; apply n10; exact hk]).
  destruct t1 as (m1 & m2 & m3 & m4 & m5). unfold process in h. destruct (process_constraints a) eqn:Ep.
  - fold (elim_all a (semiknown_vars a) (Some (start a))) in h.
    pose proof (eliminate_all a _ hsane _ _ (conj m1 (conj m2 (conj m3 (conj m4 m5)))) t7 h) as [s1 s2 s3 s4 s5 s6 s7].
    assert (forall k, In k (w_vars w) -> ~ In k (keys (known_vars a))) as hvk.
    { intros k hk. apply s1 in hk as [(q & _)|q]; [now apply t2'|now apply n10]. }
    split.
    + assumption.
    + intros k hk. apply s1 in hk as [(q & q')|q]; [destruct (t2 k q) as [|]; auto|right; left; exact q].
    + assumption.
    + rewrite <- (keys_Fent 0 0). apply (same_nodup _ _ _ (s4 0%nat 0%nat)).
    + intros k hk. rewrite <- (keys_Fent 0 0) in hk. apply (same_keys _ _ _ (s4 0%nat 0%nat)) in hk. rewrite keys_Fent in hk.
      destruct hk as [(q & q')|q]; [destruct (t3 k q) as [e|e]; [left; apply s1; left; now split|now right]|left; apply s1; now right].
    + destruct (feas_as_optim a); [now rewrite s5|apply (same_nodup _ _ _ s5)].
    + intros k hk. destruct (feas_as_optim a) eqn:Ef.
      * rewrite s5 in hk. destruct (t4 k hk) as [e|e]; [|now right]. left. apply s1. left. split; [assumption|].
        destruct (hal Ef) as (_ & l1 & l2 & l3). unfold start in hk. rewrite (relaxing_feas a hal), Ef in hk. cbn [w_obj keys map fst In] in hk. destruct hk as [<-|[]]. assumption.
      * apply (same_keys _ _ _ s5) in hk.
        destruct hk as [(q & q')|q]; [destruct (t4 k q) as [e|e]; [left; apply s1; left; now split|now right]|left; apply s1; now right].
    + intros d hd. destruct (forall2_in_r _ _ _ _ s6 hd) as (d0 & _ & q). apply (same_nodup _ _ _ q).
    + intros d hd. destruct (forall2_in_r _ _ _ _ s7 hd) as (d0 & _ & q). apply (same_nodup _ _ _ q).
    + intros x hx i j. apply (same_expr _ _ _ (s4 i j)). assumption.
    + intros x hx. destruct (feas_as_optim a); [now rewrite s5|]. now apply (same_expr _ _ _ s5).
    + intros x hx. rewrite <- t6. split; intros q d hd.
      * destruct (forall2_in_l _ _ _ _ s7 hd) as (d' & hd' & e). rewrite <- (same_expr _ _ _ e x hx). auto.
      * destruct (forall2_in_r _ _ _ _ s7 hd) as (d' & hd' & e). rewrite (same_expr _ _ _ e x hx). auto.
    + intros x hx. rewrite <- t5. split; intros q d hd.
      * destruct (forall2_in_l _ _ _ _ s6 hd) as (d' & hd' & e). rewrite <- (same_expr _ _ _ e x hx). auto.
      * destruct (forall2_in_r _ _ _ _ s6 hd) as (d' & hd' & e). rewrite (same_expr _ _ _ e x hx). auto.
    + intros k hk i j. apply (same_get _ _ _ (s4 i j)).
      * intros e. now apply (n9 k).
      * intros e. exact (proj1 (n10 k e) hk).
    + intros k hk. destruct (feas_as_optim a); [now rewrite s5|]. apply (same_get _ _ _ s5).
      * intros e. now apply (n9 k).
      * intros e. exact (proj1 (n10 k e) hk).
    + intros e. specialize (s4 0%nat 0%nat). rewrite (t7 e) in s4. pose proof (same_keys _ _ _ s4) as q. rewrite keys_Fent in q. cbn in q.
      clear - h e t7. revert h. generalize (semiknown_vars a) as sk. intros sk. specialize (t7 e). revert t7. generalize (start a) as w0. intros w0. revert w0.
      induction sk as [|(x, (c, x2)) sk IH]; intros w0 h0 h; cbn [elim_all fold_left] in h; [injection h as <-; assumption|].
      unfold eliminate in h at 2. destruct (mem x (w_vars w0)).
      * refine (IH _ _ h). cbn [w_F]. now rewrite e.
      * fold (elim_all a sk None) in h. rewrite elim_none in h. discriminate.
    + intros; congruence.
    + intros _ k hk e. apply s1 in hk as [(_ & q)|q]; [contradiction|]. exact (proj2 (n10 k q) e).
    + intros k hk. destruct (in_dec string_dec k (keys (semiknown_vars a))) as [q|q]; [right; split; [exact Ep|assumption]|]. left. apply s1. left. split; auto.
    + intros k hk. apply s1. now right.
    + intros hf. apply s1. left. destruct (hal hf) as (hm & l1 & l2 & l3). split; [|assumption]. unfold start, relaxing. rewrite hf, hm. cbn [andb w_vars]. apply in_add. now left.
    + intros k hk _. now apply s3.
  - injection h as <-. destruct (append_all (semiknown_vars a) (start a)) as (h1 & h2 & h3 & h4 & h5 & h6). cbn zeta in *.
    set (w := fold_left append_equality (semiknown_vars a) (start a)) in *.
    assert (forall x, relations (semiknown_vars a) x <-> forall d, In d (map (fun '(x, (c, x2)) => nset x2 (- c) [(x, 1)]) (semiknown_vars a)) -> expr x d = 0) as hrel.
    { intros x. assert (forall k c k2, In (k, (c, k2)) (semiknown_vars a) -> expr x (nset k2 (- c) [(k, 1)]) = x k - c * x k2) as he.
      { intros k c k2 hin. rewrite expr_set by (constructor; [intros []|constructor]). rewrite expr_cons, expr_nil. rewrite getd_cons.
        destruct (string_dec k2 k) as [e|e].
        - exfalso. subst k2. apply (proj2 (n10 k (in_map (fun p => snd (snd p)) _ _ hin))). apply (in_map fst) in hin. exact hin.
        - unfold getd. cbn. ring. }
      split.
      - intros hx d hd. apply in_map_iff in hd as ((k, (c, k2)) & <- & hin). rewrite he by assumption. rewrite (hx _ _ _ hin). ring.
      - intros hd k c k2 hin. specialize (he _ _ _ hin). rewrite (hd _ (in_map (fun '(x, (c, x2)) => nset x2 (- c) [(x, 1)]) _ _ hin)) in he. symmetry in he. qclra. }
    split.
    + auto.
    + intros k hk. apply h5 in hk as [q|q]; [destruct (t2 k q); auto|right; left; exact q].
    + intros k hk. apply h5 in hk as [q|q]; [now apply t2'|now apply n10].
    + now rewrite h1.
    + intros k hk. rewrite h1 in hk. destruct (t3 k hk); [left; apply h5; now left|now right].
    + now rewrite h2.
    + intros k hk. rewrite h2 in hk. destruct (t4 k hk); [left; apply h5; now left|now right].
    + intros d hd. rewrite h4, t5 in hd. apply in_app_or in hd as [hd|hd]; [auto|]. apply in_map_iff in hd as ((x, (c, x2)) & <- & _). apply (nodup_set string_dec). constructor; [intros []|constructor].
    + intros d hd. rewrite h3, t6 in hd. auto.
    + intros x _ i j. now rewrite h1.
    + intros x _. now rewrite h2.
    + intros x _. now rewrite h3, t6.
    + intros x hx. rewrite h4, t5. split; intros q d hd; [apply q; apply in_or_app; now left|].
      apply in_app_or in hd as [hd|hd]; [auto|]. now apply hrel.
    + intros k _ i j. now rewrite h1.
    + intros k _. now rewrite h2.
    + intros e. rewrite h1. auto.
    + intros _ x hx. apply hrel. intros d hd. apply hx. rewrite h4. apply in_or_app. now right.
    + intros; congruence.
    + intros k hk. left. apply h5. left. auto.
    + intros k hk. apply h5. now right.
    + intros hf. apply h5. left. destruct (hal hf) as (hm & _). unfold start, relaxing. rewrite hf, hm. cbn [andb w_vars]. apply in_add. now left.
    + intros; congruence.
Qed.
