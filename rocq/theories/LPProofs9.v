(** Proofs about the atomic monomials of the linear programme. *)
From Coq Require Import Permutation Sorted.
From Verif Require Import LPModel LPSpec LPProofs LPProofs4.
From Verif Require ScenarioProofs.
Close Scope Q_scope. Close Scope Qc_scope. Open Scope nat_scope.

Definition ble (a b : bvec) := bcompare a b <> Gt.
Lemma bcompare_refl a : bcompare a a = Eq.
Proof. induction a as [|[] a IH]; cbn; auto. Qed.
Lemma bcompare_anti a b : bcompare b a = CompOpp (bcompare a b).
Proof. revert b. induction a as [|[] a IH]; intros [|[] b]; cbn; auto. Qed.
Lemma bcompare_eq a b : bcompare a b = Eq -> a = b.
Proof. revert b. induction a as [|[] a IH]; intros [|[] b]; cbn; intros H; try discriminate; auto; f_equal; auto. Qed.
Lemma ble_trans a b c : ble a b -> ble b c -> ble a c.
Proof.
  unfold ble. revert b c. induction a as [|[] a IH]; intros [|[] b] [|[] c]; cbn; intros H1 H2; try congruence; eauto.
Qed.
Lemma ble_refl a : ble a a.
Proof. unfold ble. rewrite bcompare_refl. discriminate. Qed.
Lemma ble_antisym a b : ble a b -> ble b a -> a = b.
Proof. unfold ble. rewrite (bcompare_anti a b). intros H1 H2. destruct (bcompare a b) eqn:E; cbn in *; try congruence. apply bcompare_eq, E. Qed.
Lemma ble_blank n v : length v = n -> ble v (blank n) -> v = blank n.
Proof.
  intros L H. apply ble_antisym; [exact H|]. clear H. unfold blank, ble. rewrite <- L. clear L. induction v as [|[] v IH]; cbn; [discriminate|discriminate|exact IH].
Qed.
Definition bmax (l : list bvec) (m0 : bvec) := fold_left (fun m y => match bcompare y m with Lt => m | _ => y end) l m0.
Lemma bmax_spec l : forall m0, In (bmax l m0) (m0 :: l) /\ forall y, In y (m0 :: l) -> ble y (bmax l m0).
Proof.
  unfold bmax. induction l as [|x l IH]; intros m0; cbn [fold_left].
  - split; [left; reflexivity|]. intros y [<-|[]]. apply ble_refl.
  - destruct (IH (match bcompare x m0 with Lt => m0 | _ => x end)) as [I1 I2]. set (m1 := match bcompare x m0 with Lt => m0 | _ => x end) in *.
    assert (K : ble m0 m1 /\ ble x m1 /\ (m1 = m0 \/ m1 = x)).
    { unfold m1. destruct (bcompare x m0) eqn:E.
      - apply bcompare_eq in E. subst. split; [apply ble_refl|]. split; [apply ble_refl|auto].
      - split; [apply ble_refl|]. split; [unfold ble; rewrite E; discriminate|auto].
      - split; [unfold ble; rewrite bcompare_anti, E; discriminate|]. split; [apply ble_refl|auto]. }
    destruct K as (K1 & K2 & K3). split.
    + destruct I1 as [I1|I1]; [rewrite <- I1; destruct K3 as [-> | ->]; cbn; auto|right; right; exact I1].
    + assert (ble m1 (fold_left (fun m y => match bcompare y m with Lt => m | _ => y end) l m1)) by (apply I2; left; reflexivity).
      intros y [<-|[<-|Hy]]; [eapply ble_trans; eassumption|eapply ble_trans; eassumption|apply I2; right; exact Hy].
Qed.
Lemma bmax_same l l' m0 : (forall y, In y l <-> In y l') -> bmax l m0 = bmax l' m0.
Proof.
  intros H. destruct (bmax_spec l m0) as [A1 A2], (bmax_spec l' m0) as [B1 B2]. apply ble_antisym; [apply B2|apply A2].
  - destruct A1 as [A1|A1]; [left; exact A1|right; apply H, A1].
  - destruct B1 as [B1|B1]; [left; exact B1|right; apply H, B1].
Qed.

Lemma afind_app_not (c : acache) k m k' : afind ((k, m) :: c) k' = if bvec_eqb k k' then Some m else afind c k'.
Proof. reflexivity. Qed.
Lemma bvec_eqb_spec a b : reflect (a = b) (bvec_eqb a b).
Proof. unfold bvec_eqb. destruct (list_eq_dec Bool.bool_dec a b); constructor; assumption. Qed.
Lemma afind_in c k m : afind c k = Some m -> In (k, m) c.
Proof.
  induction c as [|[k' m'] c IH]; cbn; [discriminate|]. destruct (bvec_eqb_spec k' k) as [->|]; [intros [= ->]; left; reflexivity|]. intros H. right. apply IH, H.
Qed.
Lemma flat_key n v : length v = n -> key_of n (flatnonzero v) = v.
Proof.
  intros L. unfold key_of. apply (bvec_ext n); [rewrite map_length, seq_length; reflexivity|exact L|]. intros j Hj.
  rewrite (nth_indep _ false (memb 0 (flatnonzero v))) by (rewrite map_length, seq_length; exact Hj). rewrite (map_nth (fun i => memb i (flatnonzero v))), seq_nth by exact Hj.
  apply eq_true_iff_eq. rewrite ScenarioProofs.memb_in. unfold flatnonzero. rewrite filter_In, in_seq. intuition lia.
Qed.

Section Atomic.
Variables (n : nat) (syms : list (list nat)).
Hypothesis Hhead : hd [] syms = seq 0 n.
Hypothesis Hsyms : syms <> [].
Hypothesis Hrange : forall g, In g syms -> length g = n /\ (forall i, In i g -> i < n) /\ NoDup g.
Hypothesis Hcomp : forall g h, In g syms -> In h syms -> In (map (fun k => nth k g 0) h) syms.
Hypothesis Hinv : forall g, In g syms -> exists h, In h syms /\ map (fun k => nth k g 0) h = seq 0 n.

Lemma idin : In (seq 0 n) syms.
Proof. rewrite <- Hhead. destruct syms; [congruence|left; reflexivity]. Qed.
Definition top (key : bvec) := lex_last n (map (vtake key) syms).
Lemma top_related key : length key = n -> related syms key (top key).
Proof.
  intros L. unfold top, lex_last. fold (bmax (map (vtake key) syms) (blank n)). destruct (bmax_spec (map (vtake key) syms) (blank n)) as [[E|E] M].
  - rewrite <- E. exists (seq 0 n). split; [apply idin|]. rewrite (vtake_id n) by exact L.
    apply ble_blank; [exact L|]. rewrite E. apply M. right. apply in_map_iff. exists (seq 0 n). split; [apply (vtake_id n), L|apply idin].
  - apply in_map_iff in E as (g & E & Hg). exists g. auto.
Qed.
Lemma top_same a b : length a = n -> length b = n -> related syms a b -> top a = top b.
Proof.
  intros La Lb R. unfold top, lex_last. apply bmax_same. intros y. rewrite !in_map_iff. 
  assert (K : forall a b, length a = n -> length b = n -> related syms a b -> forall y, (exists g, vtake b g = y /\ In g syms) -> exists g, vtake a g = y /\ In g syms).
  { intros a' b' La' Lb' R' z (g & E & Hg). destruct (related_trans n syms Hrange Hcomp a' b' z) as (h & Hh & Eh); [exact R'|exists g; auto|]. exists h. auto. }
  split; intros H; [|apply (K a b); auto]. apply (K b a); auto. apply (related_sym n syms Hrange Hinv); auto.
Qed.
Lemma key_length l : length (key_of n l) = n.
Proof. unfold key_of. rewrite map_length, seq_length. reflexivity. Qed.

Definition acache_ok (c : acache) := forall k m, In (k, m) c -> if length syms =? 1 then key_of n m = k else length k = n /\ m = flatnonzero (top k).
Theorem atomic_step l c : acache_ok c -> (forall i, In i l -> i < n) ->
  acache_ok (snd (atomic_monomial n syms l c)) /\
  if length syms =? 1 then key_of n (fst (atomic_monomial n syms l c)) = key_of n l
  else fst (atomic_monomial n syms l c) = flatnonzero (top (key_of n l)).
Proof.
  intros C Hl. unfold atomic_monomial. destruct (afind c (key_of n l)) as [m|] eqn:E.
  - apply afind_in in E. cbn [fst snd]. split; [exact C|]. specialize (C _ _ E). destruct (length syms =? 1); [exact C|apply C].
  - destruct (length syms =? 1) eqn:E1; cbn [fst snd].
    + split; [|reflexivity]. intros k m [[= <- <-]|H]; [rewrite E1; reflexivity|]. apply C, H.
    + fold (top (key_of n l)). split; [|reflexivity]. set (mon := flatnonzero (top (key_of n l))).
      assert (G : forall vs c, acache_ok c -> (forall v, In v vs -> length v = n /\ mon = flatnonzero (top v)) -> acache_ok (fold_left (fun c k => (k, mon) :: c) vs c)).
      { induction vs as [|v vs IH]; intros c' C' Hv; cbn [fold_left]; [exact C'|]. apply IH; [|intros u Hu; apply Hv; right; exact Hu].
        intros k m [[= <- <-]|H]; [rewrite E1; apply Hv; left; reflexivity|apply C', H]. }
      apply G; [exact C|]. intros v Hv. apply in_map_iff in Hv as (g & <- & Hg). assert (L : length (vtake (key_of n l) g) = n) by (unfold vtake; rewrite map_length; apply Hrange, Hg).
      split; [exact L|]. unfold mon. f_equal. apply top_same; [apply key_length|exact L|]. exists g. auto.
Qed.
(** caches reachable by earlier calls *)
Fixpoint reach (calls : list (list nat)) (c : acache) : acache :=
  match calls with [] => c | l :: r => reach r (snd (atomic_monomial n syms l c)) end.
Lemma reach_ok calls : forall c, acache_ok c -> (forall l i, In l calls -> In i l -> i < n) -> acache_ok (reach calls c).
Proof.
  induction calls as [|l r IH]; intros c C H; [exact C|]. cbn [reach]. apply IH; [|intros l' i Hl; apply H; right; exact Hl].
  apply atomic_step; [exact C|]. intros i. apply H. left. reflexivity.
Qed.
End Atomic.
