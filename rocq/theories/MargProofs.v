From Coq Require Import Permutation Sorted.
From Verif Require Import MargModel ScenarioSpec ScenarioProofs SymProofs UniqueProofs QcSum.

(** ** compute_marginal *)
Definition is_none {A} (x : option A) : bool := match x with None => true | _ => false end.
Fixpoint agreeb (reqs : list (option nat)) (o : list nat) : bool :=
  match reqs, o with
  | [], _ => true
  | None :: reqs', _ :: o' => agreeb reqs' o'
  | Some a :: reqs', b :: o' => (a =? b) && agreeb reqs' o'
  | _ :: _, [] => false
  end.

Lemma filter_flat_map {A B} (p : B -> bool) (f : A -> list B) l : filter p (flat_map f l) = flat_map (fun x => filter p (f x)) l.
Proof. induction l as [|x l IH]; [reflexivity|]. cbn [flat_map]. rewrite filter_app, IH. reflexivity. Qed.
Lemma map_flat_map {A B C} (g : B -> C) (f : A -> list B) l : map g (flat_map f l) = flat_map (fun x => map g (f x)) l.
Proof. induction l as [|x l IH]; [reflexivity|]. cbn [flat_map]. rewrite map_app, IH. reflexivity. Qed.
Lemma filter_map {A B} (p : B -> bool) (f : A -> B) l : filter p (map f l) = map f (filter (fun x => p (f x)) l).
Proof. induction l as [|x l IH]; [reflexivity|]. cbn. rewrite IH. destruct (p (f x)); reflexivity. Qed.

Lemma sum_at_spec : forall reqs outs sh f rest, length reqs = length outs ->
  Forall2 (fun r n => match r with Some a => a < n | None => True end) reqs outs ->
  sum_at (map (@is_none nat) reqs) (outs ++ sh) f (keep_some reqs ++ rest)
  = sumQ (map (fun o => f (o ++ rest)) (filter (agreeb reqs) (ndindex outs))).
Proof.
  induction reqs as [|r reqs IH]; intros [|n outs] sh f rest L F; try discriminate.
  - cbn. destruct (sh) ; cbn; ring.
  - inversion F as [|? ? ? ? H1 F']; subst. injection L as L. destruct r as [a|]; cbn [map is_none keep_some app sum_at ndindex].
    + rewrite IH by assumption. rewrite filter_flat_map, map_flat_map, sumQ_flat_map.
      rewrite (sumQ_single Nat.eq_dec _ a).
      * rewrite filter_map, map_map. cbn [agreeb app]. rewrite Nat.eqb_refl. cbn [andb]. reflexivity.
      * apply seq_NoDup.
      * apply in_seq. lia.
      * intros x _ Hx. rewrite filter_map. cbn [agreeb]. rewrite (proj2 (Nat.eqb_neq a x)) by congruence. cbn [andb].
        replace (filter (fun _ => false) (ndindex outs)) with (@nil (list nat)); [reflexivity|]. induction (ndindex outs); auto.
    + rewrite filter_flat_map, map_flat_map, sumQ_flat_map. apply sumQ_ext. intros i _.
      rewrite IH by assumption. rewrite filter_map, map_map. reflexivity.
Qed.
Lemma in_range_spec : forall sh idx, in_range sh idx = true <-> Forall2 lt idx sh.
Proof.
  induction sh as [|n sh IH]; intros [|i ix]; cbn [in_range]; try (split; [discriminate|intros H; inversion H]).
  - split; auto.
  - rewrite andb_true_iff, Nat.ltb_lt, IH. split; [intros []; constructor; auto|intros H; inversion H; subst; auto].
Qed.
Lemma drop_axes_spec : forall reqs outs sh, length reqs = length outs ->
  drop_axes (map (@is_none nat) reqs) (outs ++ sh) = drop_axes (map (@is_none nat) reqs) outs ++ sh.
Proof.
  induction reqs as [|[a|] reqs IH]; intros [|n outs] sh L; try discriminate; cbn in *.
  - reflexivity.
  - f_equal. apply IH. lia.
  - apply IH. lia.
Qed.
Lemma kept_in_range : forall reqs outs, length reqs = length outs ->
  (Forall2 lt (keep_some reqs) (drop_axes (map (@is_none nat) reqs) outs) <->
   Forall2 (fun r n => match r with Some a => a < n | None => True end) reqs outs).
Proof.
  induction reqs as [|[a|] reqs IH]; intros [|n outs] L; try discriminate; cbn [map is_none keep_some drop_axes].
  - split; constructor.
  - injection L as L. specialize (IH outs L). split; intros H; inversion H; subst; constructor; auto; apply IH; assumption.
  - injection L as L. specialize (IH outs L). rewrite IH. split; intros H; [constructor; auto|inversion H; auto].
Qed.

(** rows of the atom *)
Definition req (atom : list (list nat)) (p : nat) : option nat :=
  match find (fun r => nth 0 r 0 - 1 =? p) atom with Some r => Some (nth 2 r 0) | None => None end.
Definition rows_ok (atom : list (list nat)) := forall r, In r atom -> exists p x a, r = [p + 1; x; a].

Lemma hd_lt_of_SS r atom : StronglySorted lt (map (hd 0) (r :: atom)) -> forall r', In r' atom -> hd 0 r < hd 0 r'.
Proof. intros H r' Hr'. inversion H as [|? ? _ F]; subst. rewrite Forall_forall in F. apply F. apply in_map, Hr'. Qed.

Lemma outputs_reqs : forall n lo atom, rows_ok atom -> StronglySorted lt (map (hd 0) atom) ->
  (forall r, In r atom -> lo + 1 <= hd 0 r < lo + n + 1) ->
  map (fun r => nth 2 r 0) atom = keep_some (map (req atom) (seq lo n)).
Proof.
  induction n as [|n IH]; intros lo atom R S B.
  - destruct atom as [|r atom]; [reflexivity|]. specialize (B r (or_introl eq_refl)). lia.
  - cbn [seq map]. destruct atom as [|r atom].
    { clear. generalize (seq (S lo) n). intros l. change (req [] lo) with (@None nat). cbn [keep_some]. induction l; cbn; auto. }
    destruct (R r (or_introl eq_refl)) as (p & x & a & E).
    pose proof (B r (or_introl eq_refl)) as Br. rewrite E in Br. cbn in Br.
    destruct (Nat.eq_dec p lo) as [->|Hp].
    + assert (Hreq : req (r :: atom) lo = Some a).
      { unfold req. cbn [find]. rewrite E. cbn [nth]. replace (lo + 1 - 1 =? lo) with true by (symmetry; apply Nat.eqb_eq; lia). reflexivity. }
      rewrite Hreq. cbn [keep_some map]. f_equal; [rewrite E; reflexivity|].
      rewrite (IH (Datatypes.S lo) atom).
      * f_equal. apply map_ext_in. intros q Hq. apply in_seq in Hq. unfold req. cbn [find]. rewrite E. cbn [nth].
        replace (lo + 1 - 1 =? q) with false by (symmetry; apply Nat.eqb_neq; lia). reflexivity.
      * intros r' Hr'; apply R; right; exact Hr'.
      * cbn in S. inversion S; assumption.
      * intros r' Hr'. pose proof (hd_lt_of_SS _ _ S r' Hr') as L. rewrite E in L. cbn [hd] in L. specialize (B r' (or_intror Hr')). lia.
    + assert (Hreq : req (r :: atom) lo = None).
      { unfold req. destruct (find _ _) as [r'|] eqn:F; [|reflexivity]. exfalso. apply find_some in F as [F1 F2]. apply Nat.eqb_eq in F2.
        destruct (R r' F1) as (p' & x' & a' & E'). rewrite E' in F2. cbn in F2.
        destruct F1 as [<-|F1]; [rewrite E in E'; injection E'; intros; lia|].
        pose proof (hd_lt_of_SS _ _ S r' F1) as L. rewrite E, E' in L. cbn in L. lia. }
      rewrite Hreq. cbn [keep_some]. apply IH; [exact R|exact S|].
      intros r' [<-|Hr']; [rewrite E; cbn; lia|]. pose proof (hd_lt_of_SS _ _ S r' Hr') as L. rewrite E in L. cbn [hd] in L.
      specialize (B r' (or_intror Hr')). lia.
Qed.

Lemma req_spec atom p : rows_ok atom -> StronglySorted lt (map (hd 0) atom) ->
  match req atom p with
  | Some a => exists x, In [p + 1; x; a] atom
  | None => forall x a, ~ In [p + 1; x; a] atom
  end.
Proof.
  intros R S. unfold req. destruct (find _ atom) as [r|] eqn:F.
  - apply find_some in F as [F1 F2]. apply Nat.eqb_eq in F2. destruct (R r F1) as (q & x & a & ->). cbn in F2. assert (q = p) as -> by lia. exists x. exact F1.
  - intros x a Hin. pose proof (find_none _ _ F _ Hin) as N. cbn in N. rewrite Nat.eqb_neq in N. lia.
Qed.
Lemma SS_unique atom p x a x' a' : StronglySorted lt (map (hd 0) atom) ->
  In [p; x; a] atom -> In [p; x'; a'] atom -> x = x' /\ a = a'.
Proof.
  induction atom as [|r atom IH]; intros S H H'; [destruct H|].
  destruct H as [->|H], H' as [H'|H'].
  - injection H'. auto.
  - pose proof (hd_lt_of_SS _ _ S _ H') as L. cbn in L. lia.
  - subst r. pose proof (hd_lt_of_SS _ _ S _ H) as L. cbn in L. lia.
  - apply IH; auto. cbn in S. inversion S; assumption.
Qed.
Lemma nth_upd {A} (f : A -> A) d : forall l n k, n < length l -> nth k (upd n f l) d = if k =? n then f (nth k l d) else nth k l d.
Proof.
  induction l as [|x l IH]; intros n k H; [cbn in H; lia|]. destruct n, k; cbn; try reflexivity. apply IH. cbn in H. lia.
Qed.
Lemma upd_length {A} (f : A -> A) l n : length (upd n f l) = length l.
Proof. revert n; induction l as [|x l IH]; intros [|n]; cbn; auto. Qed.
Lemma input_list_spec n atom : rows_ok atom -> StronglySorted lt (map (hd 0) atom) ->
  (forall p x a, In [p + 1; x; a] atom -> p < n) -> forall acc, length acc = n ->
  let il := fold_left (fun acc px => upd (fst px) (fun _ => snd px) acc)
      (combine (map (fun r => nth 0 r 0 - 1) atom) (map (fun r => nth 1 r 0) atom)) acc in
  length il = n /\
  (forall p, p < n -> (forall x a, In [p + 1; x; a] atom -> nth p il 0 = x) /\
                      ((forall x a, ~ In [p + 1; x; a] atom) -> nth p il 0 = nth p acc 0)).
Proof.
  intros R S B. induction atom as [|r atom IH]; intros acc L; cbn zeta.
  - cbn. split; [exact L|]. intros p Hp. split; [intros x a []|reflexivity].
  - cbn [map combine fold_left fst snd].
    destruct (R r (or_introl eq_refl)) as (q & y & b & E). assert (Hq : q < n) by (apply (B q y b); left; exact E).
    assert (R' : rows_ok atom) by (intros r' Hr'; apply R; right; exact Hr').
    assert (S' : StronglySorted lt (map (hd 0) atom)) by (cbn in S; inversion S; assumption).
    replace (nth 0 r 0 - 1) with q by (rewrite E; cbn; lia). replace (nth 1 r 0) with y by (rewrite E; reflexivity).
    destruct (IH R' S' (fun p x a Hin => B p x a (or_intror Hin)) (upd q (fun _ => y) acc)) as (IL & IP); [rewrite upd_length; exact L|].
    split; [exact IL|]. intros p Hp. destruct (IP p Hp) as [I1 I2]. split.
    + intros x a [Hin|Hin]; [|eapply I1, Hin]. rewrite E in Hin. injection Hin as H1 H2 H3. assert (q = p) as -> by lia.
      rewrite I2.
      * rewrite nth_upd by lia. rewrite Nat.eqb_refl. exact H2.
      * intros x' a' Hin. pose proof (hd_lt_of_SS _ _ S _ Hin) as L'. rewrite E in L'. cbn in L'. lia.
    + intros Hn. rewrite I2; [|intros x a Hin; apply (Hn x a); right; exact Hin]. rewrite nth_upd by lia.
      destruct (Nat.eqb_spec p q) as [->|_]; [|reflexivity]. exfalso. apply (Hn y b). left. rewrite E. f_equal; lia.
Qed.

Lemma agreeb_spec : forall reqs o, length o = length reqs ->
  (agreeb reqs o = true <-> forall p a, nth_error reqs p = Some (Some a) -> nth p o 0 = a).
Proof.
  induction reqs as [|r reqs IH]; intros [|b o] L; try discriminate.
  - split; [|reflexivity]. intros _ [|p] a; discriminate.
  - injection L as L. specialize (IH o L). destruct r as [a|]; cbn [agreeb].
    + rewrite andb_true_iff, Nat.eqb_eq, IH. split.
      * intros [-> H] [|p] a'; cbn; [intros [= ->]; reflexivity|]. apply H.
      * intros H. split; [symmetry; apply (H 0); reflexivity|]. intros p a' Hp. apply (H (S p)). exact Hp.
    + rewrite IH. split.
      * intros H [|p] a'; cbn; [discriminate|]. apply H.
      * intros H p a' Hp. apply (H (S p)). exact Hp.
Qed.
Lemma nth_error_seq lo n k : k < n -> nth_error (seq lo n) k = Some (lo + k).
Proof.
  revert lo k. induction n as [|n IH]; intros lo k H; [lia|]. destruct k as [|k]; cbn; [f_equal; lia|]. rewrite IH by lia. f_equal; lia.
Qed.
Lemma Forall2_nth_iff {A B} (P : A -> B -> Prop) l l' da db : Forall2 P l l' <-> length l = length l' /\ forall k, k < length l -> P (nth k l da) (nth k l' db).
Proof.
  split.
  - induction 1 as [|x y l l' H _ [IH1 IH2]]; [split; [reflexivity|cbn; lia]|]. split; [cbn; lia|].
    intros [|k] Hk; cbn in *; [exact H|apply IH2; lia].
  - revert l'. induction l as [|x l IH]; intros [|y l'] [L H]; try discriminate; constructor.
    + apply (H 0). cbn; lia.
    + apply IH. split; [cbn in L; lia|]. intros k Hk. apply (H (S k)). cbn; lia.
Qed.

Lemma compute_marginal_nonempty a atom : atom <> [] -> compute_marginal a atom =
  if forallb (fun p => p <? length (nd_shape a) / 2) (map (fun r => nth 0 r 0 - 1) atom) then
    nd_get (np_sum a (map (fun p => negb (memb p (map (fun r => nth 0 r 0 - 1) atom))) (seq 0 (length (nd_shape a) / 2))))
      (map (fun r => nth 2 r 0) atom ++
       fold_left (fun acc px => upd (fst px) (fun _ => snd px) acc)
         (combine (map (fun r => nth 0 r 0 - 1) atom) (map (fun r => nth 1 r 0) atom)) (repeat 0 (length (nd_shape a) / 2)))
  else None.
Proof. destruct atom; [congruence|reflexivity]. Qed.

Theorem compute_marginal_correct outs sets P atom :
  length sets = length outs -> (forall n, In n sets -> 1 <= n) -> atom <> [] ->
  (forall r, In r atom -> exists p x a, r = [p + 1; x; a] /\ p < length outs /\ x < nth p sets 0 /\ a < nth p outs 0) ->
  StronglySorted lt (map (hd 0) atom) ->
  exists v, compute_marginal {| nd_shape := outs ++ sets; nd_at := P |} atom = Some v /\
  forall l xs, NoDup l ->
    (forall o, In o l <-> Forall2 lt o outs /\ forall p x a, In [p + 1; x; a] atom -> nth p o 0 = a) ->
    length xs = length outs ->
    (forall p, p < length outs ->
       (forall x a, In [p + 1; x; a] atom -> nth p xs 0 = x) /\
       ((forall x a, ~ In [p + 1; x; a] atom) -> nth p xs 0 = 0)) ->
    v = sumQ (map (fun o => P (o ++ xs)) l).
Proof.
  intros LS Pos NE V S. set (n := length outs).
  assert (R : rows_ok atom) by (intros r Hr; destruct (V r Hr) as (p & x & a & -> & _); eauto).
  set (reqs := map (req atom) (seq 0 n)).
  assert (Hn : length (outs ++ sets) / 2 = n).
  { rewrite app_length, LS. fold n. replace (n + n) with (n * 2) by lia. apply Nat.div_mul. lia. }
  set (part := map (fun r => nth 0 r 0 - 1) atom).
  assert (Hmask : map (fun p => negb (memb p part)) (seq 0 n) = map is_none reqs).
  { unfold reqs. rewrite map_map. apply map_ext. intros p. pose proof (req_spec atom p R S) as Q.
    destruct (req atom p) as [a|] eqn:E; cbn [is_none].
    - destruct Q as [x Q]. apply negb_false_iff, memb_in. apply in_map_iff. exists [p + 1; x; a]. split; [cbn; lia|exact Q].
    - apply negb_true_iff. apply not_true_iff_false. intros M. apply memb_in in M. apply in_map_iff in M as (r & Er & Hr).
      destruct (R r Hr) as (q & x & a & ->). cbn in Er. assert (q = p) as -> by lia. apply (Q x a Hr). }
  assert (Hout : map (fun r => nth 2 r 0) atom = keep_some reqs).
  { apply outputs_reqs; [exact R|exact S|]. intros r Hr. destruct (V r Hr) as (p & x & a & -> & Hp & _). cbn. unfold n. lia. }
  assert (Hrange : Forall2 (fun r m => match r with Some a => a < m | None => True end) reqs outs).
  { apply (Forall2_nth_iff _ _ _ None 0). split; [unfold reqs; rewrite map_length, seq_length; reflexivity|].
    unfold reqs. rewrite map_length, seq_length. intros k Hk.
    rewrite (nth_indep _ None (req atom 0)) by (rewrite map_length, seq_length; exact Hk).
    rewrite map_nth, seq_nth by exact Hk. cbn [Nat.add]. pose proof (req_spec atom k R S) as Q. destruct (req atom k) as [a|]; [|exact I].
    destruct Q as [x Q]. destruct (V _ Q) as (p & x' & a' & E & Hp & Hx & Ha). injection E as E1 _ ->. assert (p = k) as -> by lia. exact Ha. }
  assert (LR : length reqs = length outs) by (unfold reqs; rewrite map_length, seq_length; reflexivity).
  assert (B : forall p x a, In [p + 1; x; a] atom -> p < n).
  { intros p x a Hin. destruct (V _ Hin) as (p' & x' & a' & E & Hp & _). injection E as E _ _. unfold n. lia. }
  destruct (input_list_spec n atom R S B (repeat 0 n) (repeat_length _ _)) as (IL & IP).
  set (il := fold_left _ _ _) in IL, IP.
  assert (ILr : Forall2 lt il sets).
  { apply (Forall2_nth_iff _ _ _ 0 0). split; [rewrite IL, LS; reflexivity|]. rewrite IL. intros k Hk. destruct (IP k Hk) as [I1 I2].
    pose proof (req_spec atom k R S) as Q. destruct (req atom k) as [a|].
    - destruct Q as [x Q]. rewrite (I1 x a Q). destruct (V _ Q) as (p & x' & a' & E & Hp & Hx & Ha). injection E as E1 -> _. assert (p = k) as -> by lia. exact Hx.
    - rewrite (I2 Q). rewrite nth_repeat. assert (In (nth k sets 0) sets) by (apply nth_In; unfold n in Hk; lia). specialize (Pos _ H). lia. }
  exists (sumQ (map (fun o => P (o ++ il)) (filter (agreeb reqs) (ndindex outs)))). split.
  - rewrite (compute_marginal_nonempty _ _ NE).
    cbn [nd_shape]. rewrite Hn. fold part. rewrite Hmask, Hout.
    replace (forallb (fun p => p <? n) part) with true.
    2:{ symmetry. apply forallb_forall. intros p Hp. apply Nat.ltb_lt. apply in_map_iff in Hp as (r & <- & Hr).
        destruct (V r Hr) as (p & x & a & -> & Hp' & _). cbn. unfold n. lia. }
    unfold part. fold il. unfold nd_get, np_sum. cbn [nd_shape nd_at].
    rewrite drop_axes_spec by exact LR.
    replace (in_range _ _) with true.
    + rewrite sum_at_spec by (exact LR || exact Hrange). reflexivity.
    + symmetry. apply in_range_spec. apply Forall2_app; [apply kept_in_range; assumption|exact ILr].
  - intros l xs ND HL Lxs HX.
    assert (xs = il) as ->.
    { apply (nth_ext _ _ 0 0); [rewrite IL, Lxs; reflexivity|]. intros k Hk. rewrite Lxs in Hk. fold n in Hk. destruct (HX k Hk) as [X1 X2]. destruct (IP k Hk) as [I1 I2].
      pose proof (req_spec atom k R S) as Q. destruct (req atom k) as [a|].
      - destruct Q as [x Q]. rewrite (X1 x a Q), (I1 x a Q). reflexivity.
      - rewrite (X2 Q), (I2 Q), nth_repeat. reflexivity. }
    apply sumQ_perm, Permutation_map, perm_of_same_elements; [apply NoDup_filter, ndindex_NoDup|exact ND|].
    intros o. rewrite HL, filter_In, ndindex_in. split; intros [H1 H2]; (split; [exact H1|]).
    + pose proof (Forall2_len _ _ _ H1) as Lo. rewrite agreeb_spec in H2 by (rewrite LR; exact Lo).
      intros p x a Hin. apply H2. unfold reqs. rewrite nth_error_map, nth_error_seq by (eapply B, Hin). cbn [option_map Nat.add].
      pose proof (req_spec atom p R S) as Q. destruct (req atom p) as [a'|]; [|exfalso; apply (Q x a Hin)].
      destruct Q as [x' Q]. destruct (SS_unique atom _ _ _ _ _ S Hin Q) as [_ ->]. reflexivity.
    + pose proof (Forall2_len _ _ _ H1) as Lo. apply agreeb_spec; [rewrite LR; exact Lo|]. intros p a Hp.
      assert (p < n) by (fold n in LR; rewrite <- LR; apply nth_error_Some; congruence).
      unfold reqs in Hp. rewrite nth_error_map, nth_error_seq in Hp by assumption. cbn in Hp. injection Hp as Hp.
      pose proof (req_spec atom p R S) as Q. rewrite Hp in Q. destruct Q as [x Q]. eapply H2, Q.
Qed.

(** ** compound moments *)
Lemma word_eqb_spec a b : word_eqb a b = true <-> a = b.
Proof. unfold word_eqb. destruct (list_eq_dec Nat.eq_dec a b); split; congruence. Qed.
Lemma elements_add x c : Permutation (elements (counter_add x c)) (x :: elements c).
Proof.
  induction c as [|[y k] c IH]; cbn [counter_add]; [cbn; auto|].
  destruct (word_eqb y x) eqn:E.
  - apply word_eqb_spec in E as ->. unfold elements. cbn. reflexivity.
  - unfold elements in *. cbn [flat_map fst snd]. rewrite IH. symmetry. apply Permutation_middle.
Qed.
Lemma elements_counter_gen l : forall c, Permutation (elements (fold_left (fun c x => counter_add x c) l c)) (l ++ elements c).
Proof.
  induction l as [|x l IH]; intros c; [reflexivity|]. cbn [fold_left app]. rewrite IH, elements_add. symmetry. apply Permutation_middle.
Qed.
Lemma elements_counter l : Permutation (elements (as_counter l)) l.
Proof. unfold as_counter. rewrite elements_counter_gen. rewrite app_nil_r. reflexivity. Qed.
Lemma counter_add_keys x c : map fst (counter_add x c) = if existsb (fun y => word_eqb y x) (map fst c) then map fst c else map fst c ++ [x].
Proof.
  induction c as [|[y k] c IH]; [reflexivity|]. cbn [counter_add map fst existsb]. destruct (word_eqb y x); [reflexivity|]. cbn [map fst orb]. rewrite IH.
  destruct (existsb _ _); reflexivity.
Qed.
Lemma counter_NoDup_gen l : forall c, NoDup (map fst c) -> NoDup (map fst (fold_left (fun c x => counter_add x c) l c)).
Proof.
  induction l as [|x l IH]; intros c H; [exact H|]. cbn [fold_left]. apply IH. rewrite counter_add_keys.
  destruct (existsb _ _) eqn:E; [exact H|]. apply Permutation_NoDup with (x :: map fst c); [apply Permutation_cons_append|].
  constructor; [|exact H]. intros Hin. apply not_true_iff_false in E. apply E. apply existsb_exists. exists x. split; [exact Hin|]. apply word_eqb_spec. reflexivity.
Qed.
Lemma counter_NoDup l : NoDup (map fst (as_counter l)).
Proof. apply counter_NoDup_gen. constructor. Qed.
Lemma counter_pos l : forall q, In q (as_counter l) -> 1 <= snd q.
Proof.
  assert (G : forall l c, (forall q, In q c -> 1 <= snd q) -> forall q, In q (fold_left (fun c x => counter_add x c) l c) -> 1 <= snd q).
  { clear l. induction l as [|x l' IH]; intros c H; [exact H|]. cbn [fold_left]. apply IH. clear IH.
    induction c as [|[y k] c IHc]; cbn [counter_add].
    - intros q [<-|[]]. cbn. lia.
    - destruct (word_eqb y x).
      + intros q [<-|Hq]; [cbn; lia|apply H; right; exact Hq].
      + intros q [<-|Hq]; [apply H; left; reflexivity|]. apply IHc; [intros q' Hq'; apply H; right; exact Hq'|exact Hq]. }
  apply G. intros q [].
Qed.
Lemma filter_elements (p : atom -> bool) c : elements (filter (fun q => p (fst q)) c) = filter p (elements c).
Proof.
  induction c as [|[y k] c IH]; [reflexivity|]. cbn [filter fst]. unfold elements in *. cbn [flat_map fst snd]. rewrite filter_app, <- IH.
  assert (E : filter p (repeat y k) = if p y then repeat y k else []).
  { clear. induction k; cbn; [destruct (p y); reflexivity|]. rewrite IHk. destruct (p y); reflexivity. }
  rewrite E. destruct (p y); reflexivity.
Qed.
Lemma Permutation_filter {A} (p : A -> bool) l l' : Permutation l l' -> Permutation (filter p l) (filter p l').
Proof.
  induction 1 as [|x l l' _ IH|x y l|l1 l2 l3 _ IH1 _ IH2]; cbn; auto.
  - destruct (p x); auto.
  - destruct (p x), (p y); auto using perm_swap.
  - etransitivity; eassumption.
Qed.
Lemma prodQ_elements (val : atom -> Qc) c : prodQ (map val (elements c)) = prodQ (map (fun q => Qcpower (val (fst q)) (snd q)) c).
Proof.
  induction c as [|[y k] c IH]; [reflexivity|]. unfold elements in *. cbn [flat_map fst snd map]. rewrite map_app, prodQ_app, prodQ_cons, IH, Qcpower_repeat.
  f_equal. f_equal. clear. induction k; cbn; [reflexivity|]. rewrite IHk. reflexivity.
Qed.

Lemma evaluate_fold known c : forall v u,
  fold_left (fun st q => match known (fst q) with
                           | Some v => (Qcmult (fst st) (Qcpower v (snd q)), snd st)
                           | None => (fst st, snd st ++ [q])
                           end) c (v, u)
  = ((v * prodQ (map (fun q => Qcpower (match known (fst q) with Some x => x | None => 1%Qc end) (snd q)) (filter (fun q => negb (is_none (known (fst q)))) c)))%Qc,
     u ++ filter (fun q : atom * nat => is_none (known (fst q))) c).
Proof.
  induction c as [|q c IH]; intros v u.
  - cbn. rewrite app_nil_r. f_equal. ring.
  - cbn [fold_left filter]. destruct (known (fst q)) as [x|] eqn:E; cbn [is_none negb fst snd]; rewrite IH.
    + f_equal. cbn [map]. rewrite prodQ_cons, E. ring.
    + rewrite <- app_assoc. reflexivity.
Qed.

Lemma filter_partition {A} (p : A -> bool) l : Permutation (filter p l ++ filter (fun x => negb (p x)) l) l.
Proof.
  induction l as [|x l IH]; [reflexivity|]. cbn. destruct (p x); cbn; [constructor; exact IH|].
  rewrite <- Permutation_middle. constructor. exact IH.
Qed.

Theorem evaluate_correct known use_lpi factors : forall v unk st,
  evaluate known use_lpi factors = (v, unk, st) ->
  (* the unknown factors, with multiplicity *)
  Permutation unk (filter (fun f => is_none (known f)) factors) /\
  (* exactness *)
  (forall val : atom -> Qc, (forall f x, known f = Some x -> val f = x) ->
     prodQ (map val factors) = (v * prodQ (map val unk))%Qc) /\
  (st = Known <-> unk = [] \/ (use_lpi = true /\ length unk <> length factors /\ isclose0 v = true)) /\
  (st = Semi <-> use_lpi = true /\ unk <> [] /\ length unk <> length factors /\ isclose0 v = false).
Proof.
  intros v unk st H. unfold evaluate in H. rewrite evaluate_fold in H. cbn [app] in H. injection H as <- <- <-.
  set (c := as_counter factors) in *.
  assert (PU : Permutation (elements (filter (fun q : atom * nat => is_none (known (fst q))) c)) (filter (fun f => is_none (known f)) factors)).
  { rewrite (filter_elements (fun f => is_none (known f))). apply Permutation_filter, elements_counter. }
  split; [exact PU|]. split.
  - intros val HV.
    transitivity (prodQ (map val (elements c))).
    { apply prodQ_perm, Permutation_map. symmetry. apply elements_counter. }
    rewrite !prodQ_elements.
    rewrite (prodQ_perm _ _ (Permutation_map _ (Permutation_sym (filter_partition (fun q : atom * nat => negb (is_none (known (fst q)))) c)))).
    rewrite map_app, prodQ_app. rewrite Qcmult_1_l. f_equal.
    + f_equal. apply map_ext_in. intros q Hq. apply filter_In in Hq as [_ Hq]. destruct (known (fst q)) as [x|] eqn:E; [|discriminate].
      rewrite (HV _ _ E). reflexivity.
    + f_equal. f_equal. apply filter_ext. intros q. apply negb_involutive.
  - set (u := elements _) in *. set (val := (1 * _)%Qc).
    destruct (Nat.eqb_spec (length u) 0) as [E0|E0].
    + apply length_zero_iff_nil in E0. split; split; intros H; try discriminate; auto. destruct H as (_ & H & _). contradiction.
    + assert (u <> []) by (intros ->; apply E0; reflexivity).
      destruct (Nat.eqb_spec (length u) (length factors)) as [E1|E1]; cbn [orb].
      * split; split; intros H1; try discriminate; [destruct H1 as [H1|(_ & H1 & _)]|destruct H1 as (_ & _ & H1 & _)]; contradiction.
      * destruct use_lpi; cbn [negb].
        -- destruct (isclose0 val) eqn:EC; split; split; intros H1; try discriminate; auto; intuition congruence.
        -- split; split; intros H1; try discriminate; intuition congruence.
Qed.

Theorem compound_marginal_correct marg factors : cm_compute_marginal marg factors = prodQ (map marg factors).
Proof.
  unfold cm_compute_marginal. rewrite <- (prodQ_perm _ _ (Permutation_map marg (elements_counter factors))), prodQ_elements.
  assert (G : forall c v, fold_left (fun v q => (v * Qcpower (marg (fst q)) (snd q))%Qc) c v = (v * prodQ (map (fun q : atom * nat => Qcpower (marg (fst q)) (snd q)) c))%Qc).
  { induction c as [|q c IH]; intros v; [cbn; ring|]. cbn [fold_left map]. rewrite IH, prodQ_cons. ring. }
  rewrite G. ring.
Qed.

Theorem split_factors_correct knowable factors :
  Permutation (fst (split_factors knowable factors)) (filter knowable factors) /\
  Permutation (snd (split_factors knowable factors)) (filter (fun f => negb (knowable f)) factors).
Proof.
  unfold split_factors. cbn [fst snd]. rewrite filter_elements, (filter_elements (fun f => negb (knowable f))).
  split; apply Permutation_filter, elements_counter.
Qed.
