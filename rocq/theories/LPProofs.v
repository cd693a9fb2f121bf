(** Proofs about the generated linear programme: boolean vectors, cliques and expansions. *)
From Coq Require Import Permutation Sorted.
From Verif Require Import MargModel QcSum LPModel LPSpec CliqueSpec CliqueProofs.
From Verif Require ScenarioProofs OrbitProofs UniqueProofs.
Close Scope Q_scope. Close Scope Qc_scope. Open Scope nat_scope.

(** * Vectors *)
Lemma nth_vor : forall a b i, length a = length b -> nth i (vor a b) false = nth i a false || nth i b false.
Proof. induction a as [|x a IH]; destruct b as [|y b], i; cbn; intros H; try discriminate; auto. apply IH. lia. Qed.
Lemma nth_vand : forall a b i, length a = length b -> nth i (vand a b) false = nth i a false && nth i b false.
Proof. induction a as [|x a IH]; destruct b as [|y b], i; cbn; intros H; try discriminate; auto. apply IH. lia. Qed.
Lemma nth_vclear : forall a b i, length a = length b -> nth i (vclear a b) false = nth i a false && negb (nth i b false).
Proof. induction a as [|x a IH]; destruct b as [|y b], i; cbn; intros H; try discriminate; auto. apply IH. lia. Qed.
Lemma vor_length a b : length (vor a b) = Nat.min (length a) (length b).
Proof. unfold vor. rewrite map_length, combine_length. reflexivity. Qed.
Lemma vand_length a b : length (vand a b) = Nat.min (length a) (length b).
Proof. unfold vand. rewrite map_length, combine_length. reflexivity. Qed.
Lemma vclear_length a b : length (vclear a b) = Nat.min (length a) (length b).
Proof. unfold vclear. rewrite map_length, combine_length. reflexivity. Qed.
Lemma vor_assoc : forall a b c, vor a (vor b c) = vor (vor a b) c.
Proof. induction a as [|x a IH]; destruct b as [|y b], c as [|z c]; cbn; auto. f_equal; [apply orb_assoc|apply IH]. Qed.
Lemma vor_comm : forall a b, vor a b = vor b a.
Proof. induction a as [|x a IH]; destruct b as [|y b]; cbn; auto. f_equal; [apply orb_comm|apply IH]. Qed.
Lemma eye_length n i : length (eye n i) = n.
Proof. unfold eye. rewrite map_length, seq_length. reflexivity. Qed.
Lemma blank_length n : length (blank n) = n.
Proof. apply repeat_length. Qed.
Lemma nth_eye n i j : nth j (eye n i) false = (i =? j) && (j <? n).
Proof.
  unfold eye. destruct (j <? n) eqn:E.
  - apply Nat.ltb_lt in E. rewrite (nth_indep _ false (i =? 0)) by (rewrite map_length, seq_length; exact E).
    rewrite (map_nth (Nat.eqb i) (seq 0 n) 0 j), seq_nth by exact E. rewrite andb_true_r. reflexivity.
  - apply Nat.ltb_ge in E. rewrite nth_overflow by (rewrite map_length, seq_length; exact E). rewrite andb_false_r. reflexivity.
Qed.
Lemma nth_blank n j : nth j (blank n) false = false.
Proof. unfold blank. destruct (Nat.lt_ge_cases j n). - apply nth_repeat. - apply nth_overflow. rewrite repeat_length. exact H. Qed.
Lemma vor_blank n a : length a = n -> vor a (blank n) = a.
Proof. revert n. induction a as [|x a IH]; intros n H; cbn in *; subst; cbn; [reflexivity|]. rewrite orb_false_r. f_equal. apply IH. reflexivity. Qed.
Lemma bvec_ext n (a b : list bool) : length a = n -> length b = n -> (forall i, i < n -> nth i a false = nth i b false) -> a = b.
Proof. intros Ha Hb H. apply (nth_ext a b false false); [congruence|]. intros i Hi. apply H. lia. Qed.
Lemma bvec_eqb_spec a b : bvec_eqb a b = true <-> a = b.
Proof. unfold bvec_eqb. destruct (list_eq_dec Bool.bool_dec a b); split; congruence. Qed.
Lemma nth_true_lt (v : list bool) i : nth i v false = true -> i < length v.
Proof. intros H. destruct (Nat.lt_ge_cases i (length v)) as [L|L]; [exact L|]. rewrite nth_overflow in H by exact L. discriminate. Qed.
Lemma flatnonzero_in v i : In i (flatnonzero v) <-> nth i v false = true.
Proof.
  unfold flatnonzero. rewrite filter_In, in_seq. split; [tauto|]. intros H. split; [|exact H]. pose proof (nth_true_lt _ _ H). lia.
Qed.
Lemma flatnonzero_SS v : StronglySorted lt (flatnonzero v).
Proof. apply SS_filter, SS_seq. Qed.
Lemma vany_iff v : vany v = true <-> exists i, nth i v false = true.
Proof. apply ScenarioProofs.existsb_id. Qed.
Lemma vany_false v : vany v = false <-> forall i, nth i v false = false.
Proof.
  split.
  - intros H i. destruct (nth i v false) eqn:E; [|reflexivity]. rewrite (proj2 (vany_iff v) (ex_intro _ i E)) in H. discriminate.
  - intros H. destruct (vany v) eqn:E; [|reflexivity]. apply vany_iff in E as [i Hi]. rewrite H in Hi. discriminate.
Qed.
Lemma vtake_length v g : length (vtake v g) = length g.
Proof. apply map_length. Qed.
Lemma nth_vtake v g i : i < length g -> nth i (vtake v g) false = nth (nth i g 0) v false.
Proof.
  intros H. unfold vtake. rewrite (nth_indep _ false (nth 0 v false)) by (rewrite map_length; exact H).
  rewrite (map_nth (fun k => nth k v false) g 0 i). reflexivity.
Qed.

(** * reduce of outer products as nested lists of terms *)
Fixpoint nested (alts : list (list bvec)) (acc : bvec) (s : bool) : list (bvec * bool) :=
  match alts with
  | [] => [(acc, s)]
  | r :: alts' => flat_map (fun row => nested alts' (vor acc row) (xorb s (vany row))) r
  end.

Lemma flat_map_flat_map {A B C} (f : B -> list C) (g : A -> list B) l : flat_map f (flat_map g l) = flat_map (fun x => flat_map f (g x)) l.
Proof. induction l as [|x l IH]; cbn; [reflexivity|]. rewrite flat_map_app, IH. reflexivity. Qed.
Lemma flat_map_map {A B C} (f : B -> list C) (g : A -> B) l : flat_map f (map g l) = flat_map (fun x => f (g x)) l.
Proof. induction l as [|x l IH]; cbn; [reflexivity|]. rewrite IH. reflexivity. Qed.
Lemma combine_app {A B} (a a' : list A) (b b' : list B) : length a = length b -> combine (a ++ a') (b ++ b') = combine a b ++ combine a' b'.
Proof. revert b. induction a as [|x a IH]; destruct b as [|y b]; cbn; intros H; try discriminate; [reflexivity|]. f_equal. apply IH. lia. Qed.
Lemma outer_length {A B C} (f : A -> B -> C) a b : length (flat_map (fun x => map (f x) b) a) = length a * length b.
Proof. induction a as [|x a IH]; cbn; [reflexivity|]. rewrite app_length, map_length, IH. reflexivity. Qed.
Lemma combine_map_both {A B C D} (f : A -> C) (g : B -> D) l l' : combine (map f l) (map g l') = map (fun p => (f (fst p), g (snd p))) (combine l l').
Proof. revert l'. induction l as [|x l IH]; destruct l' as [|y l']; cbn; auto. f_equal. apply IH. Qed.
Lemma combine_diag {A} (l : list A) : combine l l = map (fun x => (x, x)) l.
Proof. induction l as [|x l IH]; cbn; [reflexivity|]. f_equal. exact IH. Qed.

Lemma outer_terms r0 s0 r : length r0 = length s0 ->
  combine (outer_or r0 r) (outer_xor s0 (signs_of r)) =
  flat_map (fun p => map (fun row => (vor (fst p) row, xorb (snd p) (vany row))) r) (combine r0 s0).
Proof.
  revert s0. induction r0 as [|x r0 IH]; destruct s0 as [|s s0]; cbn; intros H; try discriminate; [reflexivity|].
  rewrite combine_app by (unfold signs_of; rewrite !map_length; reflexivity). f_equal; [|apply IH; lia].
  unfold signs_of. rewrite combine_map_both.
  replace (combine r (map vany r)) with (map (fun row => (row, vany row)) r) by (clear; induction r as [|y r IH]; cbn; congruence).
  rewrite map_map. reflexivity.
Qed.
Lemma expand_nested a : forall rs r0 s0, length r0 = length s0 ->
  combine (map (vor a) (fold_left outer_or rs r0)) (fold_left outer_xor (map signs_of rs) s0) =
  flat_map (fun p => nested rs (vor a (fst p)) (snd p)) (combine r0 s0).
Proof.
  induction rs as [|r rs IH]; intros r0 s0 H; cbn [fold_left map nested].
  - clear - H. revert s0 H. induction r0 as [|x r0 IH]; destruct s0 as [|s s0]; cbn; intros H; try discriminate; [reflexivity|]. f_equal. apply IH. lia.
  - rewrite IH.
    + rewrite outer_terms by exact H. rewrite flat_map_flat_map. apply flat_map_ext. intros [u s]. rewrite flat_map_map. cbn [fst snd].
      apply flat_map_ext. intros row. rewrite vor_assoc. reflexivity.
    + unfold outer_or, outer_xor, signs_of. rewrite !outer_length, map_length, H. reflexivity.
Qed.
Lemma reduce_nested a r rs : combine (map (vor a) (reduce outer_or [] (r :: rs))) (reduce outer_xor [] (map signs_of (r :: rs))) = nested (r :: rs) a false.
Proof.
  cbn [reduce map nested]. rewrite expand_nested by (unfold signs_of; rewrite map_length; reflexivity).
  unfold signs_of.
  replace (combine r (map vany r)) with (map (fun row => (row, vany row)) r) by (clear; induction r as [|y r IH]; cbn; congruence).
  rewrite flat_map_map. apply flat_map_ext. intros row. rewrite xorb_false_l. reflexivity.
Qed.

(** * template_to_event *)
Fixpoint products (alts : list (list bvec)) (acc : bvec) : list bvec :=
  match alts with [] => [acc] | r :: alts' => flat_map (fun row => products alts' (vor acc row)) r end.
Lemma fold_products : forall rs r0, fold_left outer_or rs r0 = flat_map (products rs) r0.
Proof.
  induction rs as [|r rs IH]; intros r0; cbn [fold_left].
  - cbn. induction r0; cbn; congruence.
  - rewrite IH. unfold outer_or. rewrite flat_map_flat_map. apply flat_map_ext. intros u. cbn [products]. apply flat_map_map.
Qed.

Section Sums.
Variable X : bvec -> Qc.
(** signed sum over the terms *)
Definition tsum (terms : list (bvec * bool)) : Qc := sumQ (map (fun p => sgn (snd p) * X (fst p))%Qc terms).
Lemma sgn_xor a b : sgn (xorb a b) = (sgn a * sgn b)%Qc.
Proof. destruct a, b; cbn [xorb sgn]; ring. Qed.
Lemma tsum_app a b : tsum (a ++ b) = (tsum a + tsum b)%Qc.
Proof. unfold tsum. rewrite map_app, sumQ_app. reflexivity. Qed.
Lemma tsum_flat_map {A} (f : A -> list (bvec * bool)) l : tsum (flat_map f l) = sumQ (map (fun x => tsum (f x)) l).
Proof. induction l as [|x l IH]; [reflexivity|]. cbn [flat_map map]. rewrite tsum_app, sumQ_cons, IH. reflexivity. Qed.
Lemma nested_sign alts : forall acc s, tsum (nested alts acc s) = (sgn s * tsum (nested alts acc false))%Qc.
Proof.
  induction alts as [|r alts IH]; intros acc s; cbn [nested].
  - unfold tsum. cbn [map]. rewrite !sumQ_cons, sumQ_nil. cbn [fst snd sgn]. ring.
  - rewrite !tsum_flat_map, <- sumQ_scale. apply sumQ_ext. intros row _. rewrite IH, (IH _ (xorb false (vany row))), !sgn_xor.
    cbn [sgn]. ring.
Qed.
(** value of the nested sum *)
Definition nsum alts acc := tsum (nested alts acc false).
Lemma nsum_nil acc : nsum [] acc = X acc.
Proof. unfold nsum, tsum. cbn [nested map]. rewrite sumQ_cons, sumQ_nil. cbn [fst snd sgn]. ring. Qed.
Lemma nsum_cons r alts acc : nsum (r :: alts) acc = sumQ (map (fun row => sgn (vany row) * nsum alts (vor acc row))%Qc r).
Proof. unfold nsum. cbn [nested]. rewrite tsum_flat_map. apply sumQ_ext. intros row _. rewrite nested_sign, xorb_false_l. reflexivity. Qed.
Lemma nsum_swap r r' alts acc : nsum (r :: r' :: alts) acc = nsum (r' :: r :: alts) acc.
Proof.
  rewrite !nsum_cons.
  transitivity (sumQ (map (fun row => sumQ (map (fun row' => sgn (vany row) * (sgn (vany row') * nsum alts (vor (vor acc row) row')))%Qc r')) r)).
  - apply sumQ_ext. intros row _. rewrite nsum_cons, <- sumQ_scale. reflexivity.
  - rewrite sumQ_swap. apply sumQ_ext. intros row' _. rewrite nsum_cons, <- sumQ_scale. apply sumQ_ext. intros row _.
    rewrite <- !vor_assoc, (vor_comm row row'). ring.
Qed.
Lemma nsum_perm alts alts' : Permutation alts alts' -> forall acc, nsum alts acc = nsum alts' acc.
Proof.
  induction 1 as [|r a b _ IH|r r' a|a b c _ IH1 _ IH2]; intros acc; [reflexivity| | |rewrite IH1; apply IH2].
  - rewrite !nsum_cons. apply sumQ_ext. intros row _. rewrite IH. reflexivity.
  - apply nsum_swap.
Qed.
End Sums.
