From Coq Require Import List Arith Bool ZArith QArith Qcanon Lia.
From Verif Require Import MargModel QcSum QcArith SearchModel SearchProofs ProgramModel ProgramSpec ProgramProofs ProgramProofs2.
Import ListNotations.
Open Scope nat_scope.

(** ** Bounds *)
Lemma isclose_refl x : isclose x x = true.
Proof.
  unfold isclose. apply qleb_true. replace (x - x)%Qc with 0%Qc by ring.
  assert (A : (0 <= atol)%Qc) by (apply (proj1 (qleb_true 0%Qc atol)); vm_compute; reflexivity).
  assert (R : (0 <= rtol)%Qc) by (apply (proj1 (qleb_true 0%Qc rtol)); vm_compute; reflexivity).
  pose proof (qabs_nonneg x) as N. assert (Z : qabs 0 = 0%Qc) by (apply Qc_is_canon; vm_compute; reflexivity). rewrite Z.
  generalize dependent (qabs x). intros y N. revert A R. generalize atol rtol. intros p q A R. qcnra. Qed.
Section Bounds.
Variable ok : Qc -> Qc -> bool.
Definition ub_step (o : option (mdict Qc)) (p : moment * Qc) : option (mdict Qc) :=
    match o with
    | None => None
    | Some b => match get meq (fst p) b with
                | None => Some b
                | Some x => if ok x (snd p) then Some (del meq (fst p) b) else None
                end
    end.
Lemma ub_none d : fold_left ub_step d None = None. Proof. induction d; [reflexivity|assumption]. Qed.
Lemma update_bounds_get d b b' : update_bounds ok d b = Some b' -> forall m, get meq m b' = if mmem m (keys d) then None else get meq m b.
Proof.
  unfold update_bounds. change (fold_left ub_step d (Some b) = Some b' -> forall m, get meq m b' = if mmem m (keys d) then None else get meq m b).
  revert b. induction d as [|(k, v) d IH]; cbn [fold_left]; intros b E m; [injection E as <-; reflexivity|].
  assert (M : mmem m (keys ((k, v) :: d)) = (if meq m k then true else false) || mmem m (keys d)).
  { unfold mmem, keys. cbn [map fst]. destruct (in_dec meq m (k :: map fst d)) as [I|I], (in_dec meq m (map fst d)) as [I'|I'], (meq m k) as [E'|E']; try reflexivity; exfalso; cbn in I; intuition. }
  rewrite M. cbn [ub_step fst snd] in E. destruct (get meq k b) as [x|] eqn:G.
  - destruct (ok x v); [|rewrite ub_none in E; discriminate]. rewrite (IH _ E m), get_del. destruct (meq m k), (mmem m (keys d)); reflexivity.
  - rewrite (IH _ E m). destruct (meq m k) as [->|]; cbn [orb]; [|reflexivity]. rewrite G. destruct (mmem k (keys d)); reflexivity. Qed.
Lemma update_bounds_nodup d b b' : NoDup (keys b) -> update_bounds ok d b = Some b' -> NoDup (keys b').
Proof.
  unfold update_bounds. change (NoDup (keys b) -> fold_left ub_step d (Some b) = Some b' -> NoDup (keys b')).
  revert b. induction d as [|(k, v) d IH]; cbn [fold_left]; intros b N E; [injection E as <-; assumption|].
  cbn [ub_step fst snd] in E. destruct (get meq k b) as [x|] eqn:G; [|eauto].
  destruct (ok x v); [|rewrite ub_none in E; discriminate]. eapply IH; [|exact E]. apply nodup_del. assumption. Qed.
Lemma update_bounds_iff d b : NoDup (keys d) ->
  (exists b', update_bounds ok d b = Some b') <-> (forall m v x, get meq m d = Some v -> get meq m b = Some x -> ok x v = true).
Proof.
  unfold update_bounds. change (NoDup (keys d) -> (exists b', fold_left ub_step d (Some b) = Some b') <-> (forall m v x, get meq m d = Some v -> get meq m b = Some x -> ok x v = true)).
  revert b. induction d as [|(k, v) d IH]; intros b N.
  - cbn [fold_left]. split; [intros _ m v x E; discriminate|eauto].
  - unfold keys in N. cbn [map fst] in N. inversion N; subst. assert (K : get meq k d = None) by (apply get_none; assumption).
    cbn [fold_left ub_step fst snd]. destruct (get meq k b) as [x|] eqn:G.
    + destruct (ok x v) eqn:OK.
      * rewrite IH by assumption. split; intros H m v' x'; cbn [get].
        -- destruct (meq m k) as [->|NE]; [congruence|]. intros E1 E2. apply (H m v' x' E1). rewrite get_del. destruct (meq m k); congruence.
        -- rewrite get_del. destruct (meq m k) as [->|NE]; [congruence|]. intros E1 E2. apply (H m v' x'); [|assumption]. cbn [get]. destruct (meq m k); congruence.
      * split; [intros (b' & E); rewrite ub_none in E; discriminate|]. intros H. exfalso. specialize (H k v x). cbn [get] in H. destruct (meq k k); [|congruence].
        rewrite H in OK by auto. discriminate.
    + rewrite IH by assumption. split; intros H m v' x'; cbn [get].
      * destruct (meq m k) as [->|NE]; [congruence|]. intros E1 E2. exact (H m v' x' E1 E2).
      * intros E1 E2. apply (H m v' x'); [|assumption]. cbn [get]. destruct (meq m k); congruence. Qed.
End Bounds.

Lemma requested_cons k b bounds m : requested ((k, b) :: bounds) m = if meq k m then Some b else requested bounds m.
Proof. unfold requested. cbn [find fst]. destruct (meq k m); reflexivity. Qed.
Definition sb_step (o : option (mdict Qc)) (p : moment * Qc) : option (mdict Qc) :=
    match o with
    | None => None
    | Some d => match get meq (fst p) d with
                | None => Some (set meq (fst p) (snd p) d)
                | Some old => if isclose old (snd p) then Some d else None
                end
    end.
Lemma sb_none l : fold_left sb_step l None = None. Proof. induction l; [reflexivity|assumption]. Qed.
Lemma sb_get l d d' : fold_left sb_step l (Some d) = Some d' -> forall m, get meq m d' = match get meq m d with Some b => Some b | None => requested l m end.
Proof.
  revert d. induction l as [|(k, b) l IH]; cbn [fold_left sb_step fst snd]; intros d E m; [injection E as <-; destruct (get meq m d); reflexivity|].
  rewrite requested_cons. destruct (get meq k d) as [old|] eqn:G.
  - destruct (isclose old b); [|rewrite sb_none in E; discriminate]. rewrite (IH _ E m). destruct (meq k m) as [EE|]; [subst m; rewrite G|]; reflexivity.
  - rewrite (IH _ E m), get_set. destruct (meq m k) as [EE|NE], (meq k m) as [E'|NE']; try congruence. subst m. rewrite G. reflexivity. Qed.
Lemma sb_iff l d : (exists d', fold_left sb_step l (Some d) = Some d') <->
  (forall m b b', match get meq m d with Some b => Some b | None => requested l m end = Some b -> In (m, b') l -> isclose b b' = true).
Proof.
  revert d. induction l as [|(k, b) l IH]; intros d.
  - cbn. split; [intros _ m b b' _ []|eauto].
  - cbn [fold_left sb_step fst snd]. destruct (get meq k d) as [old|] eqn:G.
    + destruct (isclose old b) eqn:C.
      * rewrite IH. split; intros H m x x'.
        -- rewrite requested_cons. intros E [I|I].
           ++ assert (k = m /\ b = x') as (-> & ->) by (split; congruence). rewrite G in E. assert (old = x) as -> by congruence. assumption.
           ++ apply (H m x x'); [|assumption]. destruct (get meq m d) eqn:G'; [assumption|]. destruct (meq k m); congruence.
        -- intros E I. apply (H m x x'); [|right; assumption]. rewrite requested_cons. destruct (get meq m d) eqn:G'; [assumption|]. destruct (meq k m); congruence.
      * split; [intros (d' & E); rewrite sb_none in E; discriminate|]. intros H. exfalso. specialize (H k old b). rewrite G in H. rewrite H in C; [discriminate|reflexivity|left; reflexivity].
    + rewrite IH. split; intros H m x x'.
      * rewrite requested_cons. intros E [I|I].
        -- assert (k = m /\ b = x') as (-> & ->) by (split; congruence). rewrite G in E. destruct (meq m m); [|congruence]. assert (x' = x) as -> by congruence.
           apply isclose_refl.
        -- apply (H m x x'); [|assumption]. rewrite get_set. destruct (get meq m d) eqn:G'; [destruct (meq m k); [congruence|assumption]|]. destruct (meq k m), (meq m k); congruence.
      * rewrite get_set. intros E I. apply (H m x x'); [|right; assumption]. rewrite requested_cons. destruct (get meq m d) eqn:G'; destruct (meq m k), (meq k m); congruence. Qed.

Lemma sanitised_get l d : sanitised_bounds l = Some d -> forall m, get meq m d = requested l m.
Proof. intros E m. change (fold_left sb_step l (Some []) = Some d) in E. rewrite (sb_get l [] d E m). reflexivity. Qed.
Lemma sanitised_iff l : (exists d, sanitised_bounds l = Some d) <-> consistent_request l.
Proof. exact (sb_iff l []). Qed.
Lemma sb_nodup l d d' : NoDup (keys d) -> fold_left sb_step l (Some d) = Some d' -> NoDup (keys d').
Proof.
  revert d. induction l as [|(k, b) l IH]; cbn [fold_left sb_step fst snd]; intros d N E; [injection E as <-; assumption|].
  destruct (get meq k d) as [old|]; [destruct (isclose old b); [eauto|rewrite sb_none in E; discriminate]|].
  eapply IH; [|exact E]. apply nodup_set. assumption. Qed.
Lemma sanitised_nodup l d : sanitised_bounds l = Some d -> NoDup (keys d).
Proof. intros E. eapply (sb_nodup l [] d); [constructor|exact E]. Qed.
Lemma default_aux l d m : get meq m (fold_left (fun d m => set meq m 0%Qc d) l d) = if mmem m l then Some 0%Qc else get meq m d.
Proof.
  revert d. induction l as [|k l IH]; cbn [fold_left]; intros d; [reflexivity|]. rewrite IH, get_set.
  unfold mmem. destruct (in_dec meq m (k :: l)) as [I|I], (in_dec meq m l) as [I'|I'], (meq m k) as [E'|E']; try reflexivity; exfalso; cbn in I; intuition. Qed.
Lemma default_get c m : get meq m (default_lower c) = if mmem m (hermitian_moments c) then Some 0%Qc else None.
Proof. apply default_aux. Qed.

(** bounds of the states of a semidefinite programme *)
Lemma supports_known c s : forall m, In m (keys (known (supports_step c s))) -> In m (keys (known s)).
Proof.
  intros m. unfold supports_step. destruct (supports_problem c); [|auto]. cbn [with_bounds with_values known].
  intros I. apply (in_keys_get meq) in I as (v & I). rewrite get_pop_all in I. destruct (mmem m _); [discriminate|]. apply (in_keys_get meq). eauto. Qed.
Definition unbounded_known (s : state) : Prop := forall m, In m (keys (known s)) -> get meq m (lower s) = None /\ get meq m (upper s) = None.
Lemma cleanup_unbounded c s s' : cleanup_sdp c s = Some s' -> unbounded_known s'.
Proof.
  unfold cleanup_sdp. destruct (update_bounds lo_ok _ _) as [l|] eqn:L; [|discriminate]. destruct (update_bounds up_ok _ _) as [u|] eqn:U; [|discriminate].
  destruct (update_objective _ _ _) as [p0|]; [|discriminate]. intros E. injection E as <-. intros m I. cbn [with_values with_objective with_bounds known lower upper] in *.
  pose proof (update_bounds_get _ _ _ _ L m) as GL. pose proof (update_bounds_get _ _ _ _ U m) as GU. apply mmem_iff in I. rewrite I in GL, GU. auto. Qed.
Lemma bounds_unbounded c b bt s s' : unbounded_known s -> set_bounds sdp c b bt s = Some s' -> unbounded_known s'.
Proof.
  intros UK. unfold set_bounds. destruct (sanitised_bounds b) as [d|]; [|discriminate]. destruct bt.
  - destruct (update_bounds up_ok _ _) as [u|] eqn:U; [|discriminate]. intros E. injection E as <-. intros m I. cbn [with_bounds known lower upper] in *.
    split; [apply UK; assumption|]. rewrite (update_bounds_get _ _ _ _ U m). apply mmem_iff in I. rewrite I. reflexivity.
  - destruct (update_bounds lo_ok _ (default_lower c)) as [l0|]; [|discriminate]. destruct (update_bounds lo_ok _ _) as [l|] eqn:L; [|discriminate].
    intros E. injection E as <-. intros m I. cbn [with_bounds known lower upper] in *.
    split; [|apply UK; assumption]. rewrite (update_bounds_get _ _ _ _ L m). apply mmem_iff in I. rewrite I. reflexivity. Qed.
Lemma reachable_unbounded c s : reachable sdp c s -> unbounded_known s.
Proof.
  apply reachable_invariant; [intros m []|]. intros o s0 s1 UK. destruct o; cbn [step].
  - rewrite set_values_is. apply cleanup_unbounded.
  - unfold update_values. destruct values as [|p values]; [intros E; injection E as <-; assumption|]. destruct (assign_values _ _ _ _ _ _) as (d, sk). apply cleanup_unbounded.
  - apply bounds_unbounded. assumption.
  - intros E. apply objective_values in E as (K & _ & L & U & _). unfold unbounded_known. rewrite K, L, U. assumption.
  - intros E. injection E as <-. assumption.
  - intros E. injection E as <-. assumption. Qed.

(** ** Linear expressions *)
Section Expr.
Variable x : moment -> Qc.
Lemma expr_nil : expr_at x ([] : mdict Qc) = 0%Qc. Proof. reflexivity. Qed.
Lemma expr_cons k v d : expr_at x ((k, v) :: d : mdict Qc) = (v * x k + expr_at x d)%Qc.
Proof. unfold expr_at. cbn [map fst snd]. apply sumQ_cons. Qed.
Lemma expr_oadd m v d : expr_at x (oadd m v d) = (expr_at x d + v * x m)%Qc.
Proof.
  unfold oadd. induction d as [|(k, w) d IH]; cbn [get set].
  - rewrite expr_cons, expr_nil. ring.
  - destruct (meq m k) as [E|E].
    + subst k. rewrite !expr_cons. ring.
    + rewrite !expr_cons, IH. ring. Qed.
Lemma expr_del_absent m (d : mdict Qc) : ~ In m (keys d) -> del meq m d = d.
Proof.
  unfold keys, del. induction d as [|(k, w) d IH]; cbn [map fst filter In]; intros N; [reflexivity|].
  destruct (meq m k) as [E|E]; [exfalso; auto|]. rewrite IH by tauto. reflexivity. Qed.
Lemma expr_del m v d : NoDup (keys d) -> get meq m d = Some v -> expr_at x (del meq m d) = (expr_at x d - v * x m)%Qc.
Proof.
  intros N. induction d as [|(k, w) d IH]; cbn [get]; intros G; [discriminate|].
  unfold keys in N. cbn [map fst] in N. inversion N; subst. unfold del. cbn [filter fst]. destruct (meq m k) as [E|E].
  - subst k. assert (w = v) as -> by congruence. change (expr_at x (del meq m d) = (expr_at x ((m, v) :: d) - v * x m)%Qc). rewrite expr_del_absent by assumption. rewrite expr_cons. ring.
  - change (expr_at x ((k, w) :: del meq m d) = (expr_at x ((k, w) :: d) - v * x m)%Qc). rewrite !expr_cons, IH by assumption. ring. Qed.
End Expr.
Lemma nodup_oadd m v d : NoDup (keys d) -> NoDup (keys (oadd m v d)).
Proof. apply nodup_set. Qed.

(** ** The objective *)
Definition uo_step (k : mdict Qc) (p : mdict Qc) (m : moment) : mdict Qc :=
      match get meq m p, get meq m k with
      | Some coeff, Some v => del meq m (oadd One (coeff * v)%Qc p)
      | _, _ => p
      end.
Definition todo (o k : mdict Qc) : list moment := filter (fun m => negb (if meq m One then true else false) && is_some (get meq m o)) (keys k).
Definition substituted (o k : mdict Qc) : mdict Qc := fold_left (uo_step k) (todo o k) o.
Lemma update_objective_is o k sk : update_objective o k sk = if existsb (fun m => is_some (get meq m (substituted o k))) (keys sk) then None else Some (substituted o k).
Proof. reflexivity. Qed.
Lemma uo_nodup k ms p : NoDup (keys p) -> NoDup (keys (fold_left (uo_step k) ms p)).
Proof.
  revert p. induction ms as [|m ms IH]; cbn [fold_left]; intros p N; [assumption|]. apply IH. unfold uo_step.
  destruct (get meq m p); [|assumption]. destruct (get meq m k); [|assumption]. apply nodup_del, nodup_oadd. assumption. Qed.
Lemma uo_value x k ms p : NoDup (keys p) -> x One = 1%Qc -> (forall m v, In m ms -> get meq m k = Some v -> m <> One /\ x m = v) ->
  expr_at x (fold_left (uo_step k) ms p) = expr_at x p.
Proof.
  intros N X1. revert p N. induction ms as [|m ms IH]; cbn [fold_left]; intros p N H; [reflexivity|].
  unfold uo_step at 2. destruct (get meq m p) as [coeff|] eqn:G; [|apply IH; [assumption|intros; apply H; [right|]; assumption]].
  destruct (get meq m k) as [v|] eqn:GK; [|apply IH; [assumption|intros; apply H; [right|]; assumption]].
  destruct (H m v (or_introl eq_refl) GK) as (NE & XM).
  rewrite IH; [|apply nodup_del, nodup_oadd; assumption|intros; apply H; [right|]; assumption].
  rewrite (expr_del x m coeff); [|apply nodup_oadd; assumption|].
  - rewrite expr_oadd, X1, XM. ring.
  - unfold oadd. rewrite get_set. destruct (meq m One); congruence. Qed.
Lemma uo_get k ms p m : (forall m', In m' ms -> exists v, get meq m' k = Some v) -> m <> One ->
  get meq m (fold_left (uo_step k) ms p) = if mmem m ms then None else get meq m p.
Proof.
  intros H NE. revert p H. induction ms as [|m0 ms IH]; cbn [fold_left]; intros p H; [reflexivity|].
  rewrite IH by (intros; apply H; right; assumption). unfold uo_step. destruct (H m0 (or_introl eq_refl)) as (v & ->).
  assert (M : mmem m (m0 :: ms) = (if meq m m0 then true else false) || mmem m ms).
  { unfold mmem. destruct (in_dec meq m (m0 :: ms)) as [I|I], (in_dec meq m ms) as [I'|I'], (meq m m0) as [E|E]; try reflexivity; exfalso; cbn in I; intuition. }
  rewrite M. destruct (mmem m ms); [rewrite orb_true_r; reflexivity|]. rewrite orb_false_r.
  destruct (get meq m0 p) as [coeff|] eqn:G.
  - rewrite get_del. destruct (meq m m0) as [E|E]; [reflexivity|]. unfold oadd. rewrite get_set. destruct (meq m One); congruence.
  - destruct (meq m m0) as [E|E]; [congruence|reflexivity]. Qed.
Lemma todo_in o k m : In m (todo o k) <-> m <> One /\ In m (keys o) /\ In m (keys k).
Proof.
  unfold todo. rewrite filter_In, andb_true_iff, (is_some_get meq). destruct (meq m One); cbn [negb]; intuition; congruence. Qed.
Lemma substituted_value o k x : NoDup (keys o) -> NoDup (keys k) -> x One = 1%Qc -> (forall m v, get meq m k = Some v -> x m = v) ->
  expr_at x (substituted o k) = expr_at x o.
Proof. intros N NK X1 H. apply uo_value; auto. intros m v I G. apply todo_in in I as (NE & _). auto. Qed.
Lemma substituted_get o k m : m <> One -> get meq m (substituted o k) = if mmem m (keys k) then None else get meq m o.
Proof.
  intros NE. unfold substituted. rewrite uo_get; auto.
  - destruct (mmem m (todo o k)) eqn:M.
    + apply mmem_iff, todo_in in M as (_ & _ & I). apply mmem_iff in I. rewrite I. reflexivity.
    + destruct (mmem m (keys k)) eqn:MK; [|reflexivity]. apply mmem_iff in MK. apply get_none. intros I.
      assert (T : In m (todo o k)) by (apply todo_in; auto). apply mmem_iff in T. congruence.
  - intros m' I. apply todo_in in I as (_ & _ & I). apply (in_keys_get meq) in I. assumption. Qed.

Record objective_wf (t : kind) (s : state) : Prop := {
  ow_nodup : NoDup (keys (objective s));
  ow_value : forall x, x One = 1%Qc -> (forall m v, get meq m (known s) = Some v -> x m = v) -> expr_at x (processed s) = expr_at x (objective s);
  ow_clean : t = sdp -> forall m, m <> One -> get meq m (processed s) = if mmem m (keys (known s)) then None else get meq m (objective s);
  ow_lp : t = lp -> processed s = objective s
}.
Lemma sanitise_nodup_aux {K} (san : K -> moment) items d : NoDup (keys d) ->
  NoDup (keys (fold_left (fun d p => if isclose0 (snd p) then d else oadd (san (fst p)) (snd p) d) items d)).
Proof. revert d. induction items as [|p items IH]; cbn [fold_left]; intros d N; [assumption|]. apply IH. destruct (isclose0 (snd p)); [assumption|apply nodup_oadd; assumption]. Qed.
Lemma sanitise_nodup {K} (san : K -> moment) items : NoDup (keys (sanitise_dict san items)).
Proof. apply sanitise_nodup_aux. constructor. Qed.
Lemma keys_map_snd (f : moment * Qc -> Qc) (d : mdict Qc) : keys (map (fun p => (fst p, f p)) d) = keys d.
Proof. unfold keys. rewrite map_map. reflexivity. Qed.
Lemma with_constant_nodup t o : NoDup (keys o) -> NoDup (keys (with_constant t o)).
Proof.
  destruct t; [|auto]. cbn. destruct (get meq One o) eqn:G; [auto|]. intros N. unfold keys. rewrite map_app. cbn [map fst].
  apply get_none in G. revert N G. unfold keys. generalize (map fst o). intros l N G. induction l as [|a l IH]; cbn [app].
  - constructor; [intros []|constructor].
  - inversion N; subst. cbn in G. constructor; [|apply IH; tauto]. rewrite in_app_iff. cbn. intros [I|[I|[]]]; [auto|]. apply G. left. congruence. Qed.
Lemma reachable_objective t c s : reachable t c s -> objective_wf t s.
Proof.
  intros R. apply (reachable_invariant (fun s => wf s /\ objective_wf t s)) with (t := t) (c := c) (s := s); [| |exact R].
  - split; [constructor; cbn; try constructor; intros m []|]. constructor; cbn; try reflexivity; try constructor.
  - clear s R. intros o s s' (W & OW) E. assert (W' : wf s') by (eapply wf_step; eassumption). split; [exact W'|].
    assert (CL : forall s0 s1, objective s0 = objective s -> processed s0 = processed s -> cleanup t c s0 = Some s1 -> wf s1 -> objective_wf t s1).
    { intros s0 s1 EO EP EC W1. destruct t; cbn [cleanup] in EC.
      - unfold cleanup_sdp in EC. destruct (update_bounds lo_ok _ _) as [lb|]; [|discriminate]. destruct (update_bounds up_ok _ _) as [ub|]; [|discriminate].
        destruct (update_objective _ _ _) as [p|] eqn:EU; [|discriminate]. injection EC as <-. rewrite update_objective_is in EU.
        destruct (existsb _ _); [discriminate|]. injection EU as <-.
        assert (OS : objective (supports_step c s0) = objective s) by (rewrite <- EO; unfold supports_step; destruct (supports_problem c); reflexivity).
        constructor; cbn [with_values with_objective with_bounds known objective processed]; rewrite ?OS; try discriminate.
        + apply OW.
        + intros x X1 XK. apply substituted_value; auto; [apply OW|apply (wf_known _ W1)].
        + intros _ m NE. apply substituted_get. assumption.
      - unfold cleanup_lp in EC. injection EC as <-.
        assert (OS : objective (supports_step c s0) = objective s) by (rewrite <- EO; unfold supports_step; destruct (supports_problem c); reflexivity).
        assert (PS : processed (supports_step c s0) = processed s) by (rewrite <- EP; unfold supports_step; destruct (supports_problem c); reflexivity).
        constructor; cbn [with_values with_objective with_bounds known objective processed]; rewrite ?OS, ?PS; try discriminate.
        + apply OW.
        + rewrite (ow_lp _ _ OW eq_refl). reflexivity.
        + apply OW. }
    assert (SAME : forall s1, objective s1 = objective s -> processed s1 = processed s -> known s1 = known s -> objective_wf t s1).
    { intros s1 E1 E2 E3. destruct OW as [O1 O2 O3 O4]. constructor; rewrite ?E1, ?E2, ?E3; assumption. }
    destruct o; cbn [step] in E.
    + rewrite set_values_is in E. eapply CL; [| |exact E|exact W']; reflexivity.
    + unfold update_values in E. destruct values as [|p values]; [injection E as <-; assumption|].
      destruct (assign_values _ _ _ _ _ _) as (d, sk). eapply CL; [| |exact E|exact W']; reflexivity.
    + apply bounds_values in E as (K & _ & O & P). auto.
    + unfold set_objective in E. destruct items as [items|].
      * destruct (supports_problem c); [discriminate|]. 
        set (o := with_constant t _) in E. assert (NO : NoDup (keys o)) by (apply with_constant_nodup; rewrite keys_map_snd; apply sanitise_nodup).
        destruct (forallb _ _); [|discriminate]. destruct t.
        -- rewrite update_objective_is in E. destruct (existsb _ _); [discriminate|]. injection E as <-. constructor; cbn [with_objective known objective processed]; try discriminate; auto.
           ++ intros x X1 XK. apply substituted_value; auto. apply (wf_known _ W).
           ++ intros _ m NE. apply substituted_get. assumption.
        -- injection E as <-. constructor; cbn [with_objective known objective processed]; auto; discriminate.
      * injection E as <-. destruct t.
        -- constructor; cbn [with_objective known objective processed]; auto; try discriminate.
           ++ unfold keys. cbn. constructor; [intros []|constructor].
           ++ intros _ m NE. cbn [get]. destruct (meq m One); [contradiction|]. destruct (mmem m (keys (known s))); reflexivity.
        -- constructor; cbn [with_objective known objective processed]; auto; try discriminate. constructor.
    + injection E as <-. apply SAME; reflexivity.
    + injection E as <-. apply SAME; reflexivity. Qed.

(** semi-known moments are products *)
Lemma reachable_semi_products t c s : reachable t c s -> forall m, In m (keys (semiknown s)) -> 2 <= length m /\ In m (moments c).
Proof.
  intros R. revert s R. apply (reachable_invariant (fun s => forall m, In m (keys (semiknown s)) -> 2 <= length m /\ In m (moments c)) t c); [intros m []|]. intros o s0 s1 H.
  assert (CL : forall s2 s3, (forall m, In m (keys (semiknown s2)) -> 2 <= length m /\ In m (moments c)) -> cleanup t c s2 = Some s3 -> forall m, In m (keys (semiknown s3)) -> 2 <= length m /\ In m (moments c)).
  { intros s2 s3 H2 E m I. apply cleanup_values in E as (_ & SK & _). rewrite SK in I. apply (in_keys_get meq) in I as (v & I). rewrite get_pop_all in I.
    destruct (mmem m _); [discriminate|]. apply H2. unfold supports_step in I. destruct (supports_problem c); cbn [with_bounds with_values semiknown] in I; [discriminate|].
    apply (in_keys_get meq). eauto. }
  assert (AV : forall values lpi only d sk, (forall m, In m (keys sk) -> 2 <= length m /\ In m (moments c)) -> forall m, In m (keys (snd (assign_values c values lpi only d sk))) -> 2 <= length m /\ In m (moments c)).
  { intros values lpi only d sk H2 m I. unfold assign_values in I. destruct only; [auto|]. apply (in_keys_get meq) in I as (v & I).
    rewrite (proj2 (get_evaluate_all _ _ _ _ _ _ _)) in I. destruct (mmem m (remaining _ _ _)) eqn:M; [apply remaining_in in M as (? & ?); split; assumption|].
    apply H2. apply (in_keys_get meq). eauto. }
  destruct o; cbn [step].
  - rewrite set_values_is. apply CL. cbn [with_values semiknown]. unfold result_values. destruct values; [intros m []|]. apply AV. intros m [].
  - unfold update_values. destruct values as [|p values]; [intros E; injection E as <-; assumption|].
    pose proof (AV (p :: values) lpi only (known s0) (semiknown s0) H) as A. destruct (assign_values _ _ _ _ _ _) as (d, sk). apply CL. exact A.
  - intros E. apply bounds_values in E as (_ & SK & _). rewrite SK. assumption.
  - intros E. apply objective_values in E as (_ & SK & _). rewrite SK. assumption.
  - intros E. injection E as <-. assumption.
  - intros E. injection E as <-. assumption. Qed.

(** ** Dictionaries given by the user *)
Lemma sanitise_value_aux {K} (san : K -> moment) (x : moment -> Qc) items d :
  expr_at x (fold_left (fun d p => if isclose0 (snd p) then d else oadd (san (fst p)) (snd p) d) items d) =
  (expr_at x d + expr_at (fun k => x (san k)) (filter (fun p => negb (isclose0 (snd p))) items))%Qc.
Proof.
  revert d. induction items as [|p items IH]; cbn [fold_left filter]; intros d; [unfold expr_at at 3; cbn; ring|].
  rewrite IH. destruct (isclose0 (snd p)); cbn [negb]; [reflexivity|]. rewrite expr_oadd.
  unfold expr_at at 4. cbn [map]. rewrite sumQ_cons. fold (expr_at (fun k => x (san k)) (filter (fun p => negb (isclose0 (snd p))) items)). ring. Qed.
Lemma sanitise_value {K} (san : K -> moment) (x : moment -> Qc) items :
  expr_at x (sanitise_dict san items) = expr_at (fun k => x (san k)) (filter (fun p => negb (isclose0 (snd p))) items).
Proof. unfold sanitise_dict. rewrite sanitise_value_aux. unfold expr_at at 1. cbn [map]. rewrite sumQ_nil. ring. Qed.
Lemma sanitise_key_aux {K} (san : K -> moment) items d m :
  In m (keys (fold_left (fun d p => if isclose0 (snd p) then d else oadd (san (fst p)) (snd p) d) items d)) <->
  In m (keys d) \/ exists k v, In (k, v) items /\ san k = m /\ isclose0 v = false.
Proof.
  revert d. induction items as [|(k, v) items IH]; cbn [fold_left fst snd]; intros d.
  - split; [auto|]. intros [I|(k & v & [] & _)]. assumption.
  - rewrite IH. destruct (isclose0 v) eqn:C.
    + split; (intros [I|(k' & v' & I & E & C')]; [left; assumption|right; exists k', v'; split; [|auto]]); [right; assumption|]. destruct I as [I|I]; [|assumption]. congruence.
    + unfold oadd. rewrite keys_set. split.
      * intros [[->|I]|(k' & v' & I & E & C')]; [right; exists k, v; cbn; auto|left; assumption|right; exists k', v'; cbn; auto].
      * intros [I|(k' & v' & [I|I] & E & C')]; [auto| |right; exists k', v'; auto]. left. left. congruence. Qed.
Lemma sanitise_key {K} (san : K -> moment) items m : In m (keys (sanitise_dict san items)) <-> exists k v, In (k, v) items /\ san k = m /\ isclose0 v = false.
Proof. unfold sanitise_dict. rewrite sanitise_key_aux. cbn. intuition. Qed.
