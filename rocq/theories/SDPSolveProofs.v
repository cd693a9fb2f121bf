From Coq Require Import List Arith Bool Lia String QArith Qcanon Permutation.
From Verif Require Import MargModel QcSum QcArith ProgramModel ProgramProofs Duality SDPSolveModel SDPSolveSpec PSD.
Import ListNotations.
Open Scope Qc_scope.

(** ** Sums over dictionaries *)
Lemma mem_iff k l : mem k l = true <-> In k l.
Proof. unfold mem. destruct (in_dec string_dec k l); split; auto; discriminate. Qed.
Lemma mem_false k l : mem k l = false <-> ~ In k l.
Proof. unfold mem. destruct (in_dec string_dec k l); split; auto; try discriminate. contradiction. Qed.
Lemma in_add k l k' : In k' (add k l) <-> k' = k \/ In k' l.
Proof.
  unfold add. destruct (mem k l) eqn:E.
  - apply mem_iff in E. split; [auto|intros [->|]; auto].
  - rewrite in_app_iff. cbn [In]. intuition. Qed.
Lemma nodup_add k l : NoDup l -> NoDup (add k l).
Proof.
  intros h. unfold add. destruct (mem k l) eqn:E; [assumption|]. apply mem_false in E.
  apply (Permutation_NoDup (l := k :: l)); [apply Permutation_cons_append|now constructor]. Qed.
Lemma in_remove k l k' : In k' (remove k l) <-> In k' l /\ k' <> k.
Proof. unfold remove. rewrite filter_In, negb_true_iff, String.eqb_neq. reflexivity. Qed.
Lemma nodup_remove k l : NoDup l -> NoDup (remove k l).
Proof. apply NoDup_filter. Qed.

Lemma expr_cons x k c d : expr x ((k, c) :: d) = c * x k + expr x d.
Proof. unfold expr. cbn [map]. apply sumQ_cons. Qed.
Lemma expr_nil x : expr x [] = 0. Proof. reflexivity. Qed.
Lemma expr_app x d e : expr x (d ++ e) = expr x d + expr x e.
Proof. unfold expr. now rewrite map_app, sumQ_app. Qed.
Lemma expr_ext x y d : (forall k, In k (keys d) -> x k = y k) -> expr x d = expr y d.
Proof. intros h. unfold expr. apply sumQ_ext. intros (k, c) hin. rewrite h; [reflexivity|]. apply (in_map fst) in hin. exact hin. Qed.
Lemma getd_none {V} (z : V) k d : ~ In k (keys d) -> getd z k d = z.
Proof. intros h. unfold getd, nget. apply (get_none string_dec) in h. now rewrite h. Qed.
Lemma getd_cons {V} (z : V) k k0 v d : getd z k ((k0, v) :: d) = if string_dec k k0 then v else getd z k d.
Proof. unfold getd, nget. cbn [get]. destruct (string_dec k k0); reflexivity. Qed.
Lemma expr_del x k d : NoDup (keys d) -> expr x (ndel k d) = expr x d - getd 0 k d * x k.
Proof.
  unfold ndel, del. induction d as [|(k0, c0) d IH]; intros N.
  - unfold getd. cbn [filter nget get]. rewrite expr_nil. cbn. ring.
  - cbn [filter fst]. inversion N as [|? ? h1 h2]; subst. rewrite getd_cons. destruct (string_dec k k0) as [->|ne].
    + rewrite (IH h2), expr_cons. rewrite getd_none by assumption. ring.
    + rewrite !expr_cons, (IH h2). ring. Qed.
Lemma expr_set x k v d : NoDup (keys d) -> expr x (nset k v d) = expr x d - getd 0 k d * x k + v * x k.
Proof.
  unfold nset. induction d as [|(k0, c0) d IH]; intros N; cbn [set].
  - rewrite expr_cons. unfold getd. cbn. ring.
  - inversion N as [|? ? h1 h2]; subst. rewrite getd_cons. destruct (string_dec k k0) as [->|ne].
    + rewrite !expr_cons. ring.
    + rewrite !expr_cons, (IH h2). ring. Qed.
Lemma keys_del {V} k k' (d : ndict V) : In k' (keys (ndel k d)) <-> In k' (keys d) /\ k' <> k.
Proof.
  unfold ndel, del, keys. rewrite !in_map_iff. split.
  - intros ((k0, v) & h & h0). apply filter_In in h0 as (h0 & h1). cbn in *. subst k0. destruct (string_dec k k'); [discriminate|]. split; [now exists (k', v)|congruence].
  - intros (((k0, v) & h & h0) & h1). cbn in h. subst k0. exists (k', v). split; [reflexivity|]. apply filter_In. split; [assumption|]. cbn. destruct (string_dec k k'); congruence. Qed.

Lemma subst_expr x k c k2 d : NoDup (keys d) -> x k = c * x k2 -> expr x (substQ k c k2 d) = expr x d.
Proof.
  intros N h. unfold substQ, substitute. rewrite expr_set.
  - rewrite expr_del by assumption. rewrite h. ring.
  - now apply (nodup_del string_dec). Qed.
Lemma subst_nodup {V} (z : V) pl tm k c k2 d : NoDup (keys d) -> NoDup (keys (substitute z pl tm k c k2 d)).
Proof. intros N. unfold substitute. apply (nodup_set string_dec). now apply (nodup_del string_dec). Qed.
Lemma subst_keys {V} (z : V) pl tm k c k2 d k' : In k' (keys (substitute z pl tm k c k2 d)) <-> k' = k2 \/ (In k' (keys d) /\ k' <> k).
Proof. unfold substitute. unfold nset. rewrite keys_set. now rewrite keys_del. Qed.
Lemma subst_get {V} (z : V) pl tm k c k2 d k' : k' <> k -> k' <> k2 -> nget k' (substitute z pl tm k c k2 d) = nget k' d.
Proof.
  intros h h2. unfold substitute, nget, nset. rewrite get_set. destruct (string_dec k' k2); [contradiction|].
  unfold ndel. rewrite get_del. destruct (string_dec k' k); [contradiction|reflexivity]. Qed.

(** ** Entries of the dictionary of matrices *)
Definition Fent (i j : nat) (F : ndict fval) : ndict Qc := map (fun '(k, f) => (k, F_entry i j f)) F.
Lemma keys_Fent i j F : keys (Fent i j F) = keys F.
Proof. unfold keys, Fent. rewrite map_map. apply map_ext. intros (k, f). reflexivity. Qed.
Lemma get_Fent i j F k : nget k (Fent i j F) = option_map (F_entry i j) (nget k F).
Proof. unfold nget, Fent. induction F as [|(k0, f0) F IH]; [reflexivity|]. cbn [map get]. destruct (string_dec k k0); [reflexivity|exact IH]. Qed.
Lemma del_Fent i j F k : ndel k (Fent i j F) = Fent i j (ndel k F).
Proof.
  unfold ndel, del, Fent. induction F as [|(k0, f0) F IH]; [reflexivity|]. cbn [map filter fst]. destruct (string_dec k k0); cbn [map].
  - exact IH.
  - now rewrite <- IH. Qed.
Lemma set_Fent i j F k f : nset k (F_entry i j f) (Fent i j F) = Fent i j (nset k f F).
Proof.
  unfold nset, Fent. induction F as [|(k0, f0) F IH]; [reflexivity|]. cbn [map set]. destruct (string_dec k k0); cbn [map].
  - reflexivity.
  - now rewrite <- IH. Qed.
Lemma getd_Fent i j F k : getd 0 k (Fent i j F) = F_entry i j (getd Zero k F).
Proof. unfold getd. rewrite get_Fent. destruct (nget k F); reflexivity. Qed.
Lemma F_entry_fadd i j f g : F_entry i j (fadd f g) = F_entry i j f + F_entry i j g.
Proof. destruct f, g; cbn; ring. Qed.
Lemma F_entry_fmul i j c f : F_entry i j (fmul c f) = c * F_entry i j f.
Proof. destruct f; cbn; ring. Qed.
Lemma subst_Fent i j F k c k2 : Fent i j (substF k c k2 F) = substQ k c k2 (Fent i j F).
Proof.
  unfold substF, substQ, substitute. rewrite <- set_Fent, F_entry_fadd, F_entry_fmul, !getd_Fent, del_Fent, getd_Fent. reflexivity. Qed.

(** ** Eliminating semi-known moments does not change any expression *)
Definition relations (sk : ndict (Qc * name)) (x : name -> Qc) : Prop := forall k c k2, In (k, (c, k2)) sk -> x k = c * x k2.
Definition tgts (sk : ndict (Qc * name)) : list name := map (fun p => snd (snd p)) sk.
Definition sane (sk : ndict (Qc * name)) : Prop := NoDup (keys sk) /\ forall k, In k (tgts sk) -> ~ In k (keys sk).
Record same (sk : ndict (Qc * name)) (d d' : ndict Qc) : Prop := {
  same_nodup : NoDup (keys d');
  same_expr : forall x, relations sk x -> expr x d' = expr x d;
  same_keys : forall k, In k (keys d') -> (In k (keys d) /\ ~ In k (keys sk)) \/ In k (tgts sk);
  same_get : forall k, ~ In k (keys sk) -> ~ In k (tgts sk) -> nget k d' = nget k d
}.
Lemma same_refl d : NoDup (keys d) -> same [] d d.
Proof. intros N. split; [assumption|reflexivity|intros k h; left; split; [assumption|intros []]|reflexivity]. Qed.
Lemma same_nil sk : same sk [] [].
Proof. split; [constructor|reflexivity|intros k []|reflexivity]. Qed.
Lemma same_step k c k2 sk d d' : NoDup (keys d) -> ~ In k2 (keys sk) -> k2 <> k -> same sk (substQ k c k2 d) d' -> same ((k, (c, k2)) :: sk) d d'.
Proof.
  intros N h1 h2 [s1 s2 s3 s4]. split.
  - assumption.
  - intros x hx. rewrite s2.
    + apply subst_expr; [assumption|]. apply hx. now left.
    + intros k0 c0 k3 hin. apply hx. now right.
  - intros k0 hk. destruct (s3 k0 hk) as [(q1 & q2)|q].
    + unfold substQ in q1. rewrite subst_keys in q1. destruct q1 as [->|(q1 & q3)].
      * right. left. reflexivity.
      * left. split; [assumption|]. intros [e|e]; [cbn in e; congruence|contradiction].
    + right. now right.
  - intros k0 hk ht. cbn [keys map fst In] in hk. cbn [tgts map snd In] in ht.
    rewrite s4; [|intros e; apply hk; now right|intros e; apply ht; now right].
    unfold substQ. apply subst_get; intros e; subst; [apply hk|apply ht]; now left. Qed.
Lemma sane_tail p sk : sane (p :: sk) -> sane sk.
Proof.
  intros (h1 & h2). inversion h1; subst. split; [assumption|]. intros k hk e. apply (h2 k); now right. Qed.
Lemma sane_head k c k2 sk : sane ((k, (c, k2)) :: sk) -> ~ In k2 (keys sk) /\ k2 <> k.
Proof. intros (h1 & h2). pose proof (h2 k2 (or_introl eq_refl)) as h. cbn [keys map fst In] in h. split; intros e; apply h; [now right|left; congruence]. Qed.

Definition elim_all (a : sdp_args) (sk : ndict (Qc * name)) (w : option work) : option work :=
  fold_left (fun w s => match w with Some w => eliminate a w s | None => None end) sk w.
Lemma elim_none a sk : elim_all a sk None = None.
Proof. induction sk as [|p sk IH]; [reflexivity|exact IH]. Qed.

Record same_work (a : sdp_args) (sk : ndict (Qc * name)) (w w' : work) : Prop := {
  sw_vars : forall k, In k (w_vars w') <-> (In k (w_vars w) /\ ~ In k (keys sk)) \/ In k (tgts sk);
  sw_nodup : NoDup (w_vars w');
  sw_keys : forall k, In k (keys sk) -> In k (w_vars w);
  sw_F : forall i j, same sk (Fent i j (w_F w)) (Fent i j (w_F w'));
  sw_obj : if feas_as_optim a then w_obj w' = w_obj w else same sk (w_obj w) (w_obj w');
  sw_eqs : Forall2 (same sk) (w_eqs w) (w_eqs w');
  sw_ineqs : Forall2 (same sk) (w_ineqs w) (w_ineqs w')
}.
Definition wf_work (w : work) : Prop :=
  NoDup (w_vars w) /\ NoDup (keys (w_F w)) /\ NoDup (keys (w_obj w)) /\
  (forall d, In d (w_eqs w) -> NoDup (keys d)) /\ (forall d, In d (w_ineqs w) -> NoDup (keys d)).
Lemma forall2_map_l {A B C} (f : A -> B) (R : B -> C -> Prop) l l' : Forall2 R (map f l) l' -> Forall2 (fun x y => R (f x) y) l l'.
Proof. revert l'. induction l as [|x l IH]; intros l' h; inversion h; subst; constructor; auto. Qed.
Lemma forall2_impl_in {A B} (R R' : A -> B -> Prop) l l' : (forall x y, In x l -> R x y -> R' x y) -> Forall2 R l l' -> Forall2 R' l l'.
Proof. intros h F. induction F as [|x y l l' r F IH]; constructor; [apply h; [now left|assumption]|]. apply IH. intros. apply h; [now right|assumption]. Qed.
Lemma forall2_diag {A} (R : A -> A -> Prop) l : (forall x, In x l -> R x x) -> Forall2 R l l.
Proof. induction l as [|x l IH]; intros h; constructor; [apply h; now left|]. apply IH. intros. apply h. now right. Qed.

Lemma eliminate_all a sk : sane sk -> forall w w', wf_work w -> (has_masks a = false -> w_F w = []) -> elim_all a sk (Some w) = Some w' -> same_work a sk w w'.
Proof.
  induction sk as [|(k, (c, k2)) sk IH]; intros hs w w' (N1 & N2 & N3 & N4 & N5) hm h.
  - injection h as <-. split.
    + intros k. cbn. intuition.
    + assumption.
    + intros k [].
    + intros i j. apply same_refl. rewrite keys_Fent. assumption.
    + destruct (feas_as_optim a); [reflexivity|now apply same_refl].
    + apply forall2_diag. intros d hd. apply same_refl. auto.
    + apply forall2_diag. intros d hd. apply same_refl. auto.
  - cbn [elim_all fold_left] in h. unfold eliminate in h at 2. destruct (mem k (w_vars w)) eqn:E; [|fold (elim_all a sk None) in h; rewrite elim_none in h; discriminate].
    apply mem_iff in E. destruct (sane_head _ _ _ _ hs) as (hk1 & hk2).
    match type of h with fold_left _ _ (Some ?w0) = _ => set (w1 := w0) in *; fold (elim_all a sk (Some w1)) in h end.
    assert (forall d, In d (w_eqs w1) -> NoDup (keys d)) as M1.
    { intros d hd. unfold w1 in hd. cbn [w_eqs] in hd. apply in_map_iff in hd as (d0 & <- & hd). apply subst_nodup. auto. }
    assert (forall d, In d (w_ineqs w1) -> NoDup (keys d)) as M2.
    { intros d hd. unfold w1 in hd. cbn [w_ineqs] in hd. apply in_map_iff in hd as (d0 & <- & hd). apply subst_nodup. auto. }
    assert (wf_work w1) as hw1.
    { split; [|split; [|split; [|split]]]; try assumption.
      - unfold w1. cbn [w_vars]. apply nodup_add. now apply nodup_remove.
      - unfold w1. cbn [w_F]. destruct (has_masks a); [now apply subst_nodup|assumption].
      - unfold w1. cbn [w_obj]. destruct (w_obj w) as [|o os] eqn:Eo; [constructor|]. destruct (feas_as_optim a); [assumption|]. now apply subst_nodup. }
    assert (has_masks a = false -> w_F w1 = []) as hm1.
    { intros e. unfold w1. cbn [w_F]. rewrite e. auto. }
    pose proof (IH (sane_tail _ _ hs) w1 w' hw1 hm1 h) as [s1 s2 s3 s4 s5 s6 s7].
    split.
    + intros k0. rewrite s1. unfold w1. cbn [w_vars]. rewrite in_add, in_remove. cbn [keys map fst In tgts snd]. fold (keys sk). fold (tgts sk).
      split.
      * intros [[[->|(q1 & q2)] q3]|q]; [right; now left| |right; now right]. left. split; [assumption|]. intros [e|e]; [congruence|contradiction].
      * intros [(q1 & q2)|[<-|q]]; [|left; split; [now left|assumption]|now right]. left. split; [right; split; [assumption|]|]; intros e; apply q2; [now left|now right].
    + assumption.
    + intros k0 [<-|h0]; [exact E|]. pose proof h0 as h0'. apply s3 in h0. unfold w1 in h0. cbn [w_vars] in h0. apply in_add in h0 as [->|h0].
      * contradiction.
      * now apply in_remove in h0.
    + intros i j. specialize (s4 i j). destruct (has_masks a) eqn:Em.
      * apply (same_step k c k2); [now rewrite keys_Fent|assumption|assumption|]. rewrite <- subst_Fent. exact s4.
      * unfold w1 in s4. cbn [w_F] in s4. rewrite (hm eq_refl) in *. cbn in *.
        destruct s4 as [q1 q2 q3 q4]. split; auto.
        -- intros x hx. apply q2. intros k0 c0 k3 hin. apply hx. now right.
        -- intros k0 hk0. destruct (q3 k0 hk0) as [(e & _)|e]; [destruct e|right; now right].
        -- intros k0 hk0 ht0. apply q4; intros e; [apply hk0|apply ht0]; now right.
    + destruct (feas_as_optim a) eqn:Ef.
      * rewrite s5. unfold w1. cbn [w_obj]. destruct (w_obj w); reflexivity.
      * unfold w1 in s5. cbn [w_obj] in s5. destruct (w_obj w) as [|o os] eqn:Eo.
        -- destruct s5 as [q1 q2 q3 q4]. split; auto.
           ++ intros x hx. apply q2. intros k0 c0 k3 hin. apply hx. now right.
           ++ intros k0 hk0. destruct (q3 k0 hk0) as [(e & _)|e]; [destruct e|right; now right].
           ++ intros k0 hk0 ht0. apply q4; intros e; [apply hk0|apply ht0]; now right.
        -- rewrite <- Eo in *. apply (same_step k c k2); assumption.
    + unfold w1 in s6. cbn [w_eqs] in s6. apply forall2_map_l in s6. revert s6. apply forall2_impl_in. intros d d' hd hs'. apply (same_step k c k2); auto.
    + unfold w1 in s7. cbn [w_ineqs] in s7. apply forall2_map_l in s7. revert s7. apply forall2_impl_in. intros d d' hd hs'. apply (same_step k c k2); auto.
Qed.
