From Coq Require Import List Arith Bool ZArith QArith Qcanon Lia.
From Verif Require Import MargModel QcSum QcArith SearchModel ProgramModel ProgramSpec.
Import ListNotations.
Open Scope nat_scope.

(** ** Dictionaries *)
Section DictFacts.
Context {K V : Type} (eqd : forall x y : K, {x = y} + {x <> y}).
Notation get := (@get K V eqd). Notation set := (@set K V eqd). Notation del := (@del K V eqd). Notation update := (@update K V eqd).
Notation keys := (@keys K V).

Lemma get_set k k' v d : get k (set k' v d) = if eqd k k' then Some v else get k d.
Proof.
  induction d as [|(k0, v0) d IH]; cbn [ProgramModel.set ProgramModel.get].
  - reflexivity.
  - destruct (eqd k' k0) as [E|E]; cbn [ProgramModel.get].
    + subst k0. destruct (eqd k k'); reflexivity.
    + rewrite IH. destruct (eqd k k0) as [E1|E1], (eqd k k') as [E2|E2]; try reflexivity. congruence. Qed.
Lemma keys_set k v d k' : In k' (keys (set k v d)) <-> k' = k \/ In k' (keys d).
Proof.
  unfold ProgramModel.keys. induction d as [|(k0, v0) d IH]; cbn [ProgramModel.set map fst].
  - cbn. intuition.
  - destruct (eqd k k0) as [E|E]; cbn [map fst In].
    + subst. intuition.
    + rewrite IH. intuition. Qed.
Lemma nodup_set k v d : NoDup (keys d) -> NoDup (keys (set k v d)).
Proof.
  unfold ProgramModel.keys. induction d as [|(k0, v0) d IH]; cbn [ProgramModel.set map fst]; intros N.
  - constructor; [intros []|constructor].
  - inversion N; subst. destruct (eqd k k0) as [E|E]; cbn [map fst].
    + constructor; auto.
    + constructor; [|auto]. change (~ In k0 (keys (set k v d))). rewrite keys_set. intros [I|I]; [congruence|auto]. Qed.
Lemma get_none k d : get k d = None <-> ~ In k (keys d).
Proof.
  unfold ProgramModel.keys. induction d as [|(k0, v0) d IH]; cbn [ProgramModel.get map fst In].
  - intuition.
  - destruct (eqd k k0) as [E|E].
    + subst. split; [discriminate|]. intros H. exfalso. auto.
    + rewrite IH. intuition. Qed.
Lemma get_some_in k v d : get k d = Some v -> In (k, v) d.
Proof.
  induction d as [|(k0, v0) d IH]; cbn [ProgramModel.get In]; [discriminate|].
  destruct (eqd k k0) as [E|E]; intros H; [left; congruence|auto]. Qed.
Lemma in_get k v d : NoDup (keys d) -> In (k, v) d -> get k d = Some v.
Proof.
  unfold ProgramModel.keys. induction d as [|(k0, v0) d IH]; cbn [ProgramModel.get In map fst]; intros N I; [contradiction|].
  inversion N; subst. destruct I as [I|I].
  - assert (k0 = k /\ v0 = v) as (-> & ->) by (split; congruence). destruct (eqd k k); [reflexivity|contradiction].
  - destruct (eqd k k0) as [E|E]; [|auto]. subst. exfalso. apply H1. apply in_map_iff. exists (k0, v). auto. Qed.
Lemma in_keys_get k d : In k (keys d) <-> exists v, get k d = Some v.
Proof.
  pose proof (get_none k d) as G. destruct (get k d) as [v|].
  - split; [eauto|]. intros _. destruct (in_dec eqd k (keys d)); auto. assert (Some v = None) by (apply G; auto). discriminate.
  - split; [intros I; exfalso; apply G; auto|intros (v & E); discriminate]. Qed.
Lemma is_some_get k d : is_some (get k d) = true <-> In k (keys d).
Proof. rewrite in_keys_get. destruct (get k d); cbn; split; try congruence; eauto. intros (v & E); discriminate. Qed.
Lemma get_filter f k d : get k (filter (fun p => f (fst p)) d) = if f k then get k d else None.
Proof.
  induction d as [|(k0, v0) d IH]; cbn [filter ProgramModel.get fst].
  - destruct (f k); reflexivity.
  - destruct (f k0) eqn:F; cbn [ProgramModel.get]; destruct (eqd k k0) as [E|E]; try exact IH.
    + subst. rewrite F. reflexivity.
    + subst. rewrite IH, F. reflexivity. Qed.
Lemma get_del k k' d : get k (del k' d) = if eqd k k' then None else get k d.
Proof.
  unfold ProgramModel.del. pose proof (get_filter (fun x => if eqd k' x then false else true) k d) as G. cbn beta in G. rewrite G.
  destruct (eqd k' k), (eqd k k'); congruence. Qed.
Lemma nodup_filter_keys f d : NoDup (keys d) -> NoDup (keys (filter f d)).
Proof.
  unfold ProgramModel.keys. induction d as [|(k0, v0) d IH]; cbn [filter map fst]; intros N; [constructor|].
  inversion N; subst. destruct (f (k0, v0)); cbn [map fst]; auto. constructor; auto.
  intros I. apply H1. apply in_map_iff in I as (p & E & I). apply filter_In in I as (I & _). apply in_map_iff. eauto. Qed.
Lemma nodup_del k d : NoDup (keys d) -> NoDup (keys (del k d)).
Proof. apply nodup_filter_keys. Qed.
Lemma nodup_update d e : NoDup (keys d) -> NoDup (keys (update d e)).
Proof. unfold ProgramModel.update. revert d. induction e as [|p e IH]; cbn [fold_left]; intros d N; [assumption|]. apply IH, nodup_set, N. Qed.
Lemma get_update d e k : NoDup (keys e) -> get k (update d e) = match get k e with Some v => Some v | None => get k d end.
Proof.
  unfold ProgramModel.update. revert d. induction e as [|(k0, v0) e IH]; cbn [fold_left fst snd ProgramModel.get]; intros d N; [reflexivity|].
  unfold ProgramModel.keys in N. cbn [map fst] in N. inversion N; subst. rewrite IH by assumption. rewrite get_set.
  destruct (eqd k k0) as [E|E]; [|reflexivity]. subst.
  assert (G : get k0 e = None) by (apply get_none; assumption). rewrite G. reflexivity. Qed.
Lemma update_in_keys d e k : In k (keys (update d e)) <-> In k (keys e) \/ In k (keys d).
Proof.
  unfold ProgramModel.update. revert d. induction e as [|(k0, v0) e IH]; cbn [fold_left fst snd]; intros d.
  - unfold ProgramModel.keys at 2. cbn. intuition.
  - rewrite IH, keys_set. unfold ProgramModel.keys. cbn [map fst In]. intuition. Qed.
End DictFacts.

Lemma get_pop_all {V} ks (d : mdict V) k : get meq k (pop_all ks d) = if mmem k ks then None else get meq k d.
Proof.
  unfold pop_all. revert d. induction ks as [|k0 ks IH]; cbn [fold_left]; intros d.
  - reflexivity.
  - rewrite IH, get_del. unfold mmem. destruct (in_dec meq k (k0 :: ks)) as [I|I], (in_dec meq k ks) as [I'|I'], (meq k k0) as [E|E]; try reflexivity; exfalso; cbn in I; intuition. Qed.
Lemma nodup_pop_all {V} ks (d : mdict V) : NoDup (keys d) -> NoDup (keys (pop_all ks d)).
Proof. unfold pop_all. revert d. induction ks as [|k0 ks IH]; cbn [fold_left]; intros d N; [assumption|]. apply IH, nodup_del, N. Qed.
Lemma mmem_iff m l : mmem m l = true <-> In m l.
Proof. unfold mmem. destruct (in_dec meq m l); intuition; congruence. Qed.
Lemma mmem_keys {V} m (d : mdict V) : mmem m (keys d) = is_some (get meq m d).
Proof.
  destruct (is_some (get meq m d)) eqn:E.
  - apply mmem_iff. apply (is_some_get meq). assumption.
  - destruct (mmem m (keys d)) eqn:M; [|reflexivity]. apply mmem_iff in M. apply (is_some_get meq) in M. congruence. Qed.

(** ** Assigned values *)
Lemma find_app {A} (f : A -> bool) l l' : find f (l ++ l') = match find f l with Some x => Some x | None => find f l' end.
Proof. induction l as [|a l IH]; cbn; [reflexivity|]. destruct (f a); auto. Qed.
Lemma given_cons p values m : given (p :: values) m =
  match given values m with Some v => Some v | None => if meq (fst p) m then snd p else None end.
Proof.
  unfold given. cbn [rev]. rewrite find_app.
  destruct (find _ (rev values)) as [(m', o)|] eqn:F.
  - apply find_some in F as (_ & F). cbn [fst snd] in F. apply andb_prop in F as (_ & F). destruct o; [reflexivity|discriminate].
  - cbn [find]. destruct p as (m', o). cbn [fst snd]. destruct (meq m' m); cbn [andb]; [|reflexivity]. destruct o; reflexivity. Qed.
Lemma get_assign d values m : get meq m (assign d values) = match given values m with Some v => Some v | None => get meq m d end.
Proof.
  unfold assign. revert d. induction values as [|p values IH]; cbn [fold_left]; intros d.
  - reflexivity.
  - rewrite IH, given_cons. destruct (given values m); [reflexivity|]. destruct p as (m', [v|]); cbn [fst snd].
    + rewrite get_set. destruct (meq m m'), (meq m' m); congruence.
    + destruct (meq m' m); reflexivity. Qed.
Lemma nodup_assign d values : NoDup (keys d) -> NoDup (keys (assign d values)).
Proof.
  unfold assign. revert d. induction values as [|p values IH]; cbn [fold_left]; intros d N; [assumption|].
  apply IH. destruct (snd p); [apply nodup_set|]; assumption. Qed.
Lemma get_initial t c m : get meq m (initial_values t c) =
  if meq m One then Some 1%Qc else match t, zero_moment c with sdp, Some z => if meq m z then Some 0%Qc else None | _, _ => None end.
Proof.
  unfold initial_values. destruct t; [destruct (zero_moment c) as [z|]|]; cbn [get]; try reflexivity.
  rewrite get_set. cbn [get]. reflexivity. Qed.
Lemma nodup_initial t c : NoDup (keys (initial_values t c)).
Proof.
  assert (N : forall k (v : Qc), NoDup (keys [(k : moment, v)])) by (intros k v; unfold keys; cbn; constructor; [intros []|constructor]).
  unfold initial_values. destruct t; [destruct (zero_moment c)|]; try apply N. apply nodup_set, N. Qed.
Lemma get_base t c values m : get meq m (assign (initial_values t c) values) = base t c values m.
Proof. rewrite get_assign, get_initial. reflexivity. Qed.

Definition dagger_involutive (c : context) : Prop := forall a, dagger c (dagger c a) = a.
Definition singles (d : mdict Qc) : list (nat * Qc) :=
  fold_left (fun e p => match fst p with [x] => set Nat.eq_dec x (snd p) e | _ => e end) d [].
Lemma singles_nodup_aux d e : NoDup (keys e) -> NoDup (keys (fold_left (fun e (p : moment * Qc) => match fst p with [x] => set Nat.eq_dec x (snd p) e | _ => e end) d e)).
Proof.
  revert e. induction d as [|([|x [|y l]], v) d IH]; cbn [fold_left fst snd]; intros e N; auto.
  apply IH, nodup_set, N. Qed.
Lemma singles_get_aux d e a : NoDup (keys d) ->
  get Nat.eq_dec a (fold_left (fun e (p : moment * Qc) => match fst p with [x] => set Nat.eq_dec x (snd p) e | _ => e end) d e) =
  match get meq [a] d with Some v => Some v | None => get Nat.eq_dec a e end.
Proof.
  revert e. induction d as [|(m, v) d IH]; cbn [fold_left fst snd get]; intros e N; [reflexivity|].
  unfold keys in N. cbn [map fst] in N. inversion N; subst. rewrite IH by assumption.
  destruct (meq [a] m) as [E|E].
  - subst m. assert (G : get meq [a] d = None) by (apply get_none; assumption). rewrite G. rewrite get_set. destruct (Nat.eq_dec a a); congruence.
  - destruct (get meq [a] d); [reflexivity|]. destruct m as [|x [|y l]]; try reflexivity. rewrite get_set. destruct (Nat.eq_dec a x); congruence. Qed.
Lemma get_map_dagger c (a : list (nat * Qc)) x : dagger_involutive c ->
  get Nat.eq_dec x (map (fun p => (dagger c (fst p), snd p)) a) = get Nat.eq_dec (dagger c x) a.
Proof.
  intros DI. induction a as [|(k, v) a IH]; cbn [map fst snd get]; [reflexivity|]. rewrite IH.
  destruct (Nat.eq_dec x (dagger c k)) as [E|E], (Nat.eq_dec (dagger c x) k) as [E'|E']; try reflexivity; exfalso.
  - apply E'. rewrite E. apply DI.
  - apply E. rewrite <- E'. symmetry. apply DI. Qed.
Lemma get_atomic c d x : dagger_involutive c -> NoDup (keys d) ->
  get Nat.eq_dec x (atomic_knowns c d) = match get meq [dagger c x] d with Some v => Some v | None => get meq [x] d end.
Proof.
  intros DI N. unfold atomic_knowns. fold (singles d).
  assert (NS : NoDup (keys (singles d))) by (apply singles_nodup_aux; constructor).
  assert (G : forall y, get Nat.eq_dec y (singles d) = get meq [y] d).
  { intros y. unfold singles. rewrite singles_get_aux by assumption. cbn [get]. destruct (get meq [y] d); reflexivity. }
  rewrite get_update.
  - rewrite get_map_dagger by assumption. rewrite !G. reflexivity.
  - unfold keys. rewrite map_map. cbn [fst]. revert NS. unfold keys. generalize (singles d). intros l. induction l as [|(k, v) l IH]; cbn [map fst]; intros NS; [constructor|].
    inversion NS; subst. constructor; [|auto]. intros I. apply in_map_iff in I as (p & E & I). apply H1. apply in_map_iff. exists p. split; [|assumption].
    rewrite <- (DI (fst p)), E. apply DI. Qed.

Definition the_atoms t c values := atomic_knowns c (assign (initial_values t c) values).
Lemma get_the_atoms t c values a : dagger_involutive c -> get Nat.eq_dec a (the_atoms t c values) = atom_value t c values a.
Proof.
  intros DI. unfold the_atoms. rewrite get_atomic by (try assumption; apply nodup_assign, nodup_initial). rewrite !get_base. reflexivity. Qed.

(** ** evaluate *)
Lemma filter_shorter {A} (f : A -> bool) l : length (filter f l) <= length l.
Proof. induction l as [|x l IH]; cbn; [lia|]. destruct (f x); cbn; lia. Qed.
Lemma evaluate_spec t c values lpi m : dagger_involutive c ->
  evaluate (the_atoms t c values) m lpi =
  (coefficient t c values m, unvalued t c values m,
   if forallb (valued t c values) m then Known
   else if existsb (valued t c values) m && lpi then if isclose0 (coefficient t c values m) then Known else Semi else Unknown).
Proof.
  intros DI. unfold evaluate.
  assert (P : product (flat_map (fun a => match get Nat.eq_dec a (the_atoms t c values) with Some v => [v] | None => [] end) m) = coefficient t c values m).
  { unfold coefficient, product. induction m as [|a m IH]; cbn [flat_map map fold_right]; [reflexivity|].
    rewrite get_the_atoms by assumption. destruct (atom_value t c values a); cbn [app fold_right]; rewrite IH; ring. }
  assert (U : filter (fun a => negb (is_some (get Nat.eq_dec a (the_atoms t c values)))) m = unvalued t c values m).
  { unfold unvalued, valued. apply filter_ext. intros a. rewrite get_the_atoms by assumption. reflexivity. }
  rewrite P, U. f_equal.
  assert (F : forallb (valued t c values) m = match unvalued t c values m with [] => true | _ => false end).
  { unfold unvalued. clear. induction m as [|a m IH]; cbn [forallb filter]; [reflexivity|]. destruct (valued t c values a); cbn [andb negb]; [exact IH|reflexivity]. }
  assert (X : existsb (valued t c values) m = negb (length (unvalued t c values m) =? length m)).
  { unfold unvalued. clear. induction m as [|a m IH]; cbn [existsb filter length]; [reflexivity|].
    pose proof (filter_shorter (fun a => negb (valued t c values a)) m) as L.
    destruct (valued t c values a); cbn [orb negb length].
    - symmetry. apply negb_true_iff, Nat.eqb_neq. lia.
    - rewrite IH. reflexivity. }
  rewrite F, X. destruct (unvalued t c values m) as [|b u] eqn:UE; [reflexivity|].
  destruct (length (b :: u) =? length m), lpi; cbn [orb andb negb]; reflexivity. Qed.

(** ** evaluate_all *)
Section Evaluated.
Variables (c : context) (lpi : bool) (a : list (nat * Qc)).
Notation ev m := (evaluate a m lpi).
Definition known_status (m : moment) : option Qc := let '(v, _, st) := ev m in match st with Known => Some v | _ => None end.
Definition semi_status (m : moment) : option (Qc * moment) :=
  let '(v, u, st) := ev m in match st with Semi => if lpi then Some (v, monomial_from_atoms c u) else None | _ => None end.
Definition ev_step (q : mdict Qc * mdict (Qc * moment)) (m : moment) : mdict Qc * mdict (Qc * moment) :=
    let '(v, u, st) := ev m in
    match st with
    | Known => (set meq m v (fst q), snd q)
    | Semi => if lpi then (fst q, set meq m (v, monomial_from_atoms c u) (snd q)) else q
    | Unknown => q
    end.
Lemma get_ev_fold ms q m :
  get meq m (fst (fold_left ev_step ms q)) = match (if mmem m ms then known_status m else None) with Some v => Some v | None => get meq m (fst q) end /\
  get meq m (snd (fold_left ev_step ms q)) = match (if mmem m ms then semi_status m else None) with Some v => Some v | None => get meq m (snd q) end.
Proof.
  revert q. induction ms as [|m0 ms IH]; cbn [fold_left]; intros q; [split; reflexivity|].
  destruct (IH (ev_step q m0)) as (I1 & I2). rewrite I1, I2; clear IH I1 I2. set (q0 := ev_step q m0).
  assert (M : mmem m (m0 :: ms) = (if meq m m0 then true else false) || mmem m ms).
  { unfold mmem. destruct (in_dec meq m (m0 :: ms)) as [I|I], (in_dec meq m ms) as [I'|I'], (meq m m0) as [E|E]; try reflexivity; exfalso; cbn in I; intuition. }
  assert (Q1 : get meq m (fst q0) = match (if meq m m0 then known_status m else None) with Some v => Some v | None => get meq m (fst q) end).
  { subst q0. unfold known_status, ev_step. destruct (meq m m0) as [->|E].
    - destruct (ev m0) as ((v, u), st). destruct st; cbn [fst snd]; rewrite ?get_set; try (destruct (meq m0 m0); congruence); try reflexivity. destruct lpi; reflexivity.
    - destruct (ev m0) as ((v, u), st). destruct st; cbn [fst snd]; rewrite ?get_set; try (destruct (meq m m0); congruence); try reflexivity. destruct lpi; reflexivity. }
  assert (Q2 : get meq m (snd q0) = match (if meq m m0 then semi_status m else None) with Some v => Some v | None => get meq m (snd q) end).
  { subst q0. unfold semi_status, ev_step. destruct (meq m m0) as [->|E].
    - destruct (ev m0) as ((v, u), st). destruct st; cbn [fst snd]; try reflexivity. destruct lpi; cbn [fst snd]; rewrite ?get_set; try reflexivity. destruct (meq m0 m0); congruence.
    - destruct (ev m0) as ((v, u), st). destruct st; cbn [fst snd]; try reflexivity. destruct lpi; cbn [fst snd]; rewrite ?get_set; try reflexivity. destruct (meq m m0); congruence. }
  rewrite Q1, Q2, M. destruct (meq m m0), (mmem m ms); cbn [orb]; split; destruct (known_status m), (semi_status m); reflexivity. Qed.
Lemma get_evaluate_all ms d sk m :
  get meq m (fst (evaluate_all c lpi a ms d sk)) = match (if mmem m ms then known_status m else None) with Some v => Some v | None => get meq m d end /\
  get meq m (snd (evaluate_all c lpi a ms d sk)) = match (if mmem m ms then semi_status m else None) with Some v => Some v | None => get meq m sk end.
Proof. exact (get_ev_fold ms (d, sk) m). Qed.
Lemma nodup_evaluate_all ms d sk : NoDup (keys d) -> NoDup (keys sk) ->
  NoDup (keys (fst (evaluate_all c lpi a ms d sk))) /\ NoDup (keys (snd (evaluate_all c lpi a ms d sk))).
Proof.
  unfold evaluate_all. revert d sk. induction ms as [|m0 ms IH]; cbn [fold_left]; intros d sk N1 N2; [split; assumption|].
  destruct (ev m0) as ((v, u), st). destruct st; [|destruct lpi|]; cbn [fst snd]; apply IH; try assumption; apply nodup_set; assumption. Qed.
End Evaluated.
