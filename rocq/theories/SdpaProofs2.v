(** Bounds, equalities, inequalities and the objective in the SDPA file. *)
From Coq Require Import List Arith Bool Lia QArith Qcanon Permutation.
From Verif Require Import MargModel QcSum QcArith Duality SearchModel ProgramModel ProgramProofs SDPSolveModel SDPSolveSpec SdpaModel SdpaSpec SdpaProofs.
From Coq Require Import ZArith.
Import ListNotations.
Open Scope nat_scope.

Lemma bounded_here_iff p k : bounded_here p k = true <-> free p k.
Proof.
  unfold bounded_here, free. rewrite !andb_true_iff, !negb_true_iff, Nat.eqb_neq.
  pose proof (imem_iff k (keys (known_moments p))) as h1. pose proof (imem_iff k (keys (semiknown_moments p))) as h2.
  destruct (imem k (keys (known_moments p))), (imem k (keys (semiknown_moments p))); intuition congruence.
Qed.

Section Rows.
Variable p : problem.
Variable ms : list nat.
Hypothesis hms : NoDup ms.
Variable v : nat -> Qc.
Notation corresp := (number_from 1 ms).
Notation pt := (point ms v).

Definition rest_of (wrap : Qc -> text) (b : Qc) : Qc := if not_tiny b then num (wrap b) else 0%Qc.
Lemma sel_diag b r i t r' : sel b r r {| l_var := i; l_block := b; l_row := r'; l_col := r'; l_text := t |} = (r' =? r).
Proof. unfold sel. cbn [l_block l_row l_col]. rewrite Nat.eqb_refl. cbn [andb]. destruct (r' =? r); reflexivity. Qed.

Lemma bound_lines_shape b coeff wrap bounds : forall ii ls, bound_lines p corresp b ii coeff wrap bounds = Some ls ->
  forall l, In l ls -> l_block l = b /\ ii <= l_row l < ii + number_bounded p bounds /\ l_row l = l_col l /\ l_var l <= length ms /\
    (l_text l = Plain coeff \/ exists m bd, In (m, bd) bounds /\ bounded_here p m = true /\ l_text l = wrap bd).
Proof.
  induction bounds as [|[k bd] bounds IH]; intros ii ls; cbn [bound_lines].
  - intros e; injection e as <-. intros l [].
  - unfold number_bounded. cbn [keys map fst filter]. destruct (bounded_here p k) eqn:Eb.
    + destruct (iget k corresp) as [i|] eqn:Ei; [|discriminate].
      destruct (bound_lines p corresp b (S ii) coeff wrap bounds) as [ls'|] eqn:El; [|discriminate].
      intros e; injection e as <-. destruct (point_get ms hms v k i Ei) as (_ & hi).
      intros l [<-|hl]; cbn [l_block l_row l_col l_var l_text length].
      * repeat split; try lia. now left.
      * apply in_app_or in hl. destruct hl as [hl|hl].
        { destruct (not_tiny bd); [|destruct hl]. destruct hl as [<-|[]]. cbn [l_block l_row l_col l_var l_text].
          repeat split; try lia. right. exists k, bd. repeat split; auto. now left. }
        { destruct (IH _ _ El l hl) as (h1 & h2 & h3 & h4 & h5). unfold number_bounded in h2. unfold keys in h2.
          repeat split; try assumption; try lia. destruct h5 as [h5|(m & bd' & h5 & h6 & h7)]; [now left|]. right. exists m, bd'. repeat split; auto. now right. }
    + intros h l hl. destruct (IH _ _ h l hl) as (h1 & h2 & h3 & h4 & h5). repeat split; try assumption; try apply h2.
      destruct h5 as [h5|(m & bd' & h5 & h6 & h7)]; [now left|]. right. exists m, bd'. repeat split; auto. now right.
Qed.
Lemma bound_lines_hold b coeff wrap bounds : forall ii ls, bound_lines p corresp b ii coeff wrap bounds = Some ls ->
  (forall r, ii <= r < ii + number_bounded p bounds -> (0 <= bsum pt b r r ls)%Qc) <->
  (forall m bd, In (m, bd) bounds -> bounded_here p m = true -> (0 <= coeff * v m - rest_of wrap bd)%Qc).
Proof.
  induction bounds as [|[k bd] bounds IH]; intros ii ls; cbn [bound_lines].
  - intros e; injection e as <-. unfold number_bounded. cbn [keys map filter length]. split; [intros _ ? ? []|intros _ r hr; lia].
  - unfold number_bounded. cbn [keys map fst filter]. destruct (bounded_here p k) eqn:Eb.
    + destruct (iget k corresp) as [i|] eqn:Ei; [|discriminate].
      destruct (bound_lines p corresp b (S ii) coeff wrap bounds) as [ls'|] eqn:El; [|discriminate].
      intros e; injection e as <-. destruct (point_get ms hms v k i Ei) as (hp & hi).
      assert (forall r, S ii <= r -> bsum pt b r r ({| l_var := i; l_block := b; l_row := ii; l_col := ii; l_text := Plain coeff |}
                 :: (if not_tiny bd then [{| l_var := 0; l_block := b; l_row := ii; l_col := ii; l_text := wrap bd |}] else []) ++ ls') = bsum pt b r r ls') as hrest.
      { intros r hr. rewrite bsum_cons, bsum_app, sel_diag. destruct (Nat.eqb_spec ii r); [lia|].
        rewrite (bsum_none _ _ _ _ (if not_tiny bd then _ else _)); [ring|]. intros l hl. destruct (not_tiny bd); [|destruct hl].
        destruct hl as [<-|[]]. rewrite sel_diag. destruct (Nat.eqb_spec ii r); [lia|reflexivity]. }
      assert (bsum pt b ii ii ({| l_var := i; l_block := b; l_row := ii; l_col := ii; l_text := Plain coeff |}
                 :: (if not_tiny bd then [{| l_var := 0; l_block := b; l_row := ii; l_col := ii; l_text := wrap bd |}] else []) ++ ls') = (coeff * v k - rest_of wrap bd)%Qc) as hfirst.
      { rewrite bsum_cons, bsum_app, sel_diag, Nat.eqb_refl.
        rewrite (bsum_none _ _ _ _ ls').
        2:{ intros l hl. destruct (bound_lines_shape _ _ _ _ _ _ El l hl) as (_ & h2 & _). unfold sel. destruct (Nat.eqb_spec (l_row l) ii); [lia|]. now rewrite andb_false_r. }
        unfold coefficient at 1. cbn [l_var l_text num number]. destruct (Nat.eqb_spec i 0); [lia|]. rewrite hp.
        unfold rest_of. destruct (not_tiny bd); [|rewrite bsum_nil; ring].
        rewrite bsum_cons, sel_diag, Nat.eqb_refl, bsum_nil. unfold coefficient. cbn [l_var l_text Nat.eqb]. ring. }
      cbn [length]. specialize (IH _ _ El). split.
      * intros h m bd' [e|hin] hb.
        { injection e as -> ->. rewrite <- hfirst. apply h. lia. }
        { apply IH; [|assumption|assumption]. intros r hr. rewrite <- hrest by lia. apply h.
          unfold number_bounded, keys in hr. lia. }
      * intros h r hr. destruct (Nat.eq_dec r ii) as [->|hne].
        { rewrite hfirst. apply h; [now left|assumption]. }
        { rewrite hrest by lia. apply IH; [intros m bd' hin; apply h; now right|]. unfold number_bounded, keys. lia. }
    + intros h. rewrite (IH _ _ h). split.
      * intros h' m bd' [e|hin] hb; [injection e as -> ->; congruence|now apply h'].
      * intros h' m bd' hin. apply h'. now right.
Qed.

Hypothesis hv : respects p v.
Hypothesis hone : forall c, In (1, c) (known_moments p) -> c = 1%Qc.
Lemma known_zero_value k : not_known_zero p k = false -> v k = 0%Qc.
Proof.
  unfold not_known_zero. destruct (iget k (known_moments p)) as [c|] eqn:E; [|discriminate]. destruct (Qc_eq_dec c 0) as [->|]; [|discriminate].
  intros _. destruct hv as (_ & _ & h & _). apply h. eapply get_some_in; eassumption.
Qed.
Lemma combination_cons q d : combination (q :: d) v = (snd q * v (fst q) + combination d v)%Qc.
Proof. reflexivity. Qed.

Lemma equality_entries b ii d : forall a, sequence (map (equality_entry p corresp b ii) d) = Some a ->
  bsum pt b ii ii a = combination d v /\ bsum pt b (S ii) (S ii) a = (- combination d v)%Qc /\
  forall l, In l a -> l_block l = b /\ (l_row l = ii \/ l_row l = S ii) /\ l_row l = l_col l /\ l_var l <= length ms /\ number (l_text l) <> None.
Proof.
  induction d as [|[k c] d IH]; intros a; cbn [map sequence].
  - intros e; injection e as <-. rewrite !bsum_nil. change (combination [] v) with 0%Qc. repeat split; try ring. all: destruct H.
  - destruct (equality_entry p corresp b ii (k, c)) as [a1|] eqn:E1; [|discriminate].
    destruct (sequence (map (equality_entry p corresp b ii) d)) as [a2|] eqn:E2; [|discriminate].
    intros e; injection e as <-. destruct (IH _ eq_refl) as (h1 & h2 & h3). rewrite !bsum_app, h1, h2, combination_cons. cbn [fst snd].
    assert (bsum pt b ii ii a1 = (c * v k)%Qc /\ bsum pt b (S ii) (S ii) a1 = (- (c * v k))%Qc /\
      forall l, In l a1 -> l_block l = b /\ (l_row l = ii \/ l_row l = S ii) /\ l_row l = l_col l /\ l_var l <= length ms /\ number (l_text l) <> None) as (k1 & k2 & k3).
    { assert ((ii =? S ii) = false) as ne1 by (apply Nat.eqb_neq; lia). assert ((S ii =? ii) = false) as ne2 by (apply Nat.eqb_neq; lia).
      revert E1. unfold equality_entry. cbn [fst snd]. destruct (not_known_zero p k) eqn:Ez.
      - destruct (Nat.eqb_spec k 1) as [->|n1]; cbn [negb].
        + intros e; injection e as <-. destruct hv as (_ & v1 & _). rewrite v1.
          rewrite !bsum_cons, !sel_diag, !bsum_nil, !Nat.eqb_refl, ne1, ne2. unfold coefficient. cbn [l_var l_text num number Nat.eqb].
          split; [ring|]. split; [ring|]. intros l [<-|[<-|[]]]; cbn [l_block l_row l_col l_var l_text]; repeat split; auto; try lia; discriminate.
        + destruct (iget k corresp) as [i|] eqn:Ei; [|discriminate]. destruct (point_get ms hms v k i Ei) as (hp & hi).
          intros e; injection e as <-.
          rewrite !bsum_cons, !sel_diag, !bsum_nil, !Nat.eqb_refl, ne1, ne2. unfold coefficient. cbn [l_var l_text num number].
          destruct (Nat.eqb_spec i 0); [lia|]. rewrite hp.
          split; [ring|]. split; [ring|]. intros l [<-|[<-|[]]]; cbn [l_block l_row l_col l_var l_text]; repeat split; auto; try lia; discriminate.
      - intros e; injection e as <-. rewrite (known_zero_value k Ez), !bsum_nil. split; [ring|]. split; [ring|]. intros l []. }
    rewrite k1, k2. split; [ring|]. split; [ring|]. intros l hl. apply in_app_or in hl. destruct hl; [now apply k3|now apply h3].
Qed.
Lemma equality_lines_shape b eqs : forall ii ls, equality_lines p corresp b ii eqs = Some ls ->
  forall l, In l ls -> l_block l = b /\ ii <= l_row l < ii + 2 * length eqs /\ l_row l = l_col l /\ l_var l <= length ms /\ number (l_text l) <> None.
Proof.
  induction eqs as [|d eqs IH]; intros ii ls; cbn [equality_lines].
  - intros e; injection e as <-. intros l [].
  - destruct (sequence (map (equality_entry p corresp b ii) d)) as [a|] eqn:Ea; [|discriminate].
    destruct (equality_lines p corresp b (ii + 2) eqs) as [ls'|] eqn:El; [|discriminate].
    intros e; injection e as <-. destruct (equality_entries _ _ _ _ Ea) as (_ & _ & h3). cbn [length]. intros l hl. apply in_app_or in hl. destruct hl as [hl|hl].
    + destruct (h3 l hl) as (k1 & k2 & k3 & k4 & k5). repeat split; try assumption; destruct k2; lia.
    + destruct (IH _ _ El l hl) as (k1 & k2 & k3 & k4 & k5). repeat split; try assumption; lia.
Qed.
Lemma equality_lines_hold b eqs : forall ii ls, equality_lines p corresp b ii eqs = Some ls ->
  (forall r, ii <= r < ii + 2 * length eqs -> (0 <= bsum pt b r r ls)%Qc) <-> (forall d, In d eqs -> combination d v = 0%Qc).
Proof.
  induction eqs as [|d eqs IH]; intros ii ls; cbn [equality_lines].
  - intros e; injection e as <-. cbn [length]. split; [intros _ ? []|intros _ r hr; lia].
  - destruct (sequence (map (equality_entry p corresp b ii) d)) as [a|] eqn:Ea; [|discriminate].
    destruct (equality_lines p corresp b (ii + 2) eqs) as [ls'|] eqn:El; [|discriminate].
    intros e; injection e as <-. destruct (equality_entries _ _ _ _ Ea) as (h1 & h2 & h3). specialize (IH _ _ El).
    assert (forall r, r < ii + 2 -> bsum pt b r r ls' = 0%Qc) as hz.
    { intros r hr. apply bsum_none. intros l hl. destruct (equality_lines_shape _ _ _ _ El l hl) as (_ & k2 & _). unfold sel.
      destruct (Nat.eqb_spec (l_row l) r); [lia|]. now rewrite andb_false_r. }
    assert (forall r, ii + 2 <= r -> bsum pt b r r a = 0%Qc) as hz'.
    { intros r hr. apply bsum_none. intros l hl. destruct (h3 l hl) as (_ & k2 & _). unfold sel.
      destruct (Nat.eqb_spec (l_row l) r); [destruct k2; lia|]. now rewrite andb_false_r. }
    cbn [length]. split.
    + intros h d' [<-|hin].
      * pose proof (h ii ltac:(lia)) as g1. pose proof (h (S ii) ltac:(lia)) as g2. rewrite bsum_app, hz in g1, g2 by lia. rewrite h1 in g1. rewrite h2 in g2. qclra.
      * apply IH; [|assumption]. intros r hr. pose proof (h r ltac:(lia)) as g. rewrite bsum_app, hz' in g by lia.
        rewrite <- (Qcplus_0_l (bsum pt b r r ls')). exact g.
    + intros h r hr. rewrite bsum_app. destruct (le_lt_dec (ii + 2) r) as [hge|hlt].
      * rewrite hz', Qcplus_0_l by lia. apply IH; [intros d' hd; apply h; now right|lia].
      * rewrite hz by lia. assert (combination d v = 0%Qc) as hd by (apply h; now left).
        assert (r = ii \/ r = S ii) as [->| ->] by lia; [rewrite h1|rewrite h2]; rewrite hd; qclra.
Qed.

Lemma sumcoeffs_acc d : forall acc, fold_left (fun s q => if not_known_zero p (fst q) && (fst q =? 1) then (s + snd q)%Qc else s) d acc = (acc + sumcoeffs p d)%Qc.
Proof.
  unfold sumcoeffs. induction d as [|[k c] d IH]; intros acc; cbn [fold_left fst snd]; [ring|].
  destruct (not_known_zero p k && (k =? 1)); [rewrite (IH (acc + c)%Qc), (IH (0 + c)%Qc)|rewrite (IH acc), (IH 0%Qc)]; ring.
Qed.
Lemma inequality_entries b ii d : forall a, sequence (map (inequality_entry p corresp b ii) d) = Some a ->
  (bsum pt b ii ii a + sumcoeffs p d = combination d v)%Qc /\
  forall l, In l a -> l_block l = b /\ l_row l = ii /\ l_row l = l_col l /\ l_var l <= length ms /\ number (l_text l) <> None.
Proof.
  induction d as [|[k c] d IH]; intros a; cbn [map sequence].
  - intros e; injection e as <-. rewrite !bsum_nil. change (combination [] v) with 0%Qc. unfold sumcoeffs. cbn [fold_left]. split; [ring|intros l []].
  - destruct (inequality_entry p corresp b ii (k, c)) as [a1|] eqn:E1; [|discriminate].
    destruct (sequence (map (inequality_entry p corresp b ii) d)) as [a2|] eqn:E2; [|discriminate].
    intros e; injection e as <-. destruct (IH _ eq_refl) as (h1 & h3). rewrite !bsum_app, combination_cons, <- h1. cbn [fst snd].
    assert (sumcoeffs p ((k, c) :: d) = ((if not_known_zero p k && (k =? 1) then c else 0) + sumcoeffs p d)%Qc) as ->.
    { unfold sumcoeffs at 1. cbn [fold_left fst snd]. rewrite sumcoeffs_acc. destruct (not_known_zero p k && (k =? 1)); ring. }
    assert ((bsum pt b ii ii a1 + (if not_known_zero p k && (k =? 1) then c else 0))%Qc = (c * v k)%Qc /\
      forall l, In l a1 -> l_block l = b /\ l_row l = ii /\ l_row l = l_col l /\ l_var l <= length ms /\ number (l_text l) <> None) as (k1 & k3).
    { revert E1. unfold inequality_entry. cbn [fst snd]. destruct (not_known_zero p k) eqn:Ez; cbn [andb].
      - destruct (Nat.eqb_spec k 1) as [->|n1]; cbn [negb].
        + intros e; injection e as <-. destruct hv as (_ & v1 & _). rewrite v1, bsum_nil. split; [ring|intros l []].
        + destruct (iget k corresp) as [i|] eqn:Ei; [|discriminate]. destruct (point_get ms hms v k i Ei) as (hp & hi).
          intros e; injection e as <-.
          rewrite !bsum_cons, !sel_diag, !bsum_nil, Nat.eqb_refl. unfold coefficient. cbn [l_var l_text num number].
          destruct (Nat.eqb_spec i 0); [lia|]. rewrite hp.
          split; [ring|]. intros l [<-|[]]; cbn [l_block l_row l_col l_var l_text]; repeat split; auto; try lia; discriminate.
      - intros e; injection e as <-. rewrite (known_zero_value k Ez), !bsum_nil. split; [ring|]. intros l []. }
    split; [rewrite <- k1; ring|]. intros l hl. apply in_app_or in hl. destruct hl; [now apply k3|now apply h3].
Qed.
Lemma inequality_lines_one b d ls : inequality_lines p corresp b 1 [d] = Some ls ->
  bsum pt b 1 1 ls = combination d v /\
  forall l, In l ls -> l_block l = b /\ l_row l = 1 /\ l_row l = l_col l /\ l_var l <= length ms /\ number (l_text l) <> None.
Proof.
  cbn [inequality_lines]. destruct (sequence (map (inequality_entry p corresp b 1) d)) as [a|] eqn:Ea; [|discriminate].
  intros e; injection e as <-. destruct (inequality_entries _ _ _ _ Ea) as (h1 & h2). rewrite !bsum_app, bsum_nil, <- h1.
  destruct (Qc_eq_dec (sumcoeffs p d) 0) as [e0|n0].
  - split; [rewrite bsum_nil, e0; ring|]. cbn [app]. rewrite app_nil_r. exact h2.
  - split.
    + rewrite bsum_cons, sel_diag, bsum_nil. cbn [Nat.eqb]. unfold coefficient. cbn [l_var l_text num number Nat.eqb]. ring.
    + intros l hl. apply in_app_or in hl. destruct hl as [hl|[<-|[]]]; [now apply h2|].
      cbn [l_block l_row l_col l_var l_text]. repeat split; try lia. discriminate.
Qed.
End Rows.

(** ** The objective *)
Definition dotx (o : list Qc) (x : nat -> Qc) : Qc := sumn (length o) (fun k => (nth k o 0 * x (S k))%Qc).
Lemma dotx_cons c o x : dotx (c :: o) x = (c * x 1%nat + dotx o (fun k => x (S k)))%Qc.
Proof.
  unfold dotx, sumn. cbn [length seq map]. rewrite sumQ_cons. f_equal. rewrite <- seq_shift, map_map. reflexivity.
Qed.
Lemma set_nth_spec c : forall k o o', set_nth k c o = Some o' ->
  length o' = length o /\ k < length o /\ (forall j, nth j o' 0%Qc = if j =? k then c else nth j o 0%Qc) /\
  forall x, dotx o' x = (dotx o x + (c - nth k o 0) * x (S k))%Qc.
Proof.
  induction k as [|k IH]; intros [|a o] o' h; cbn [set_nth] in h; try discriminate.
  - injection h as <-. cbn [length]. repeat split; try lia. 
    + intros [|j]; reflexivity.
    + intros x. rewrite !dotx_cons. cbn [nth]. ring.
  - destruct (set_nth k c o) as [o''|] eqn:E; [|discriminate]. cbn [option_map] in h. injection h as <-.
    destruct (IH _ _ E) as (h1 & h2 & h3 & h4). cbn [length]. split; [lia|]. split; [lia|]. split.
    + intros [|j]; [reflexivity|]. cbn [nth Nat.eqb]. apply h3.
    + intros x. rewrite !dotx_cons, h4. cbn [nth]. ring.
Qed.
Lemma set_nth_total c k o : k < length o -> exists o', set_nth k c o = Some o'.
Proof.
  revert k; induction o as [|a o IH]; intros [|k] h; cbn [length] in h; try lia; cbn [set_nth]; [eauto|].
  destruct (IH k) as (o' & ->); [lia|]. eexists; reflexivity.
Qed.
Lemma fold_objective_none corresp l : fold_left (objective_entry corresp) l None = None.
Proof. induction l; [reflexivity|assumption]. Qed.
Lemma objective_fold ms v (hms : NoDup ms) (v1 : v 1 = 1%Qc) l : NoDup (keys l) ->
  forall o o', fold_left (objective_entry (number_from 1 ms)) l (Some o) = Some o' ->
  (forall m i, In m (keys l) -> iget m (number_from 1 ms) = Some i -> nth (i - 1) o 0%Qc = 0%Qc) ->
  length o' = length o /\
  dotx o' (point ms v) = (dotx o (point ms v) + combination l v - match iget 1 l with Some c => c | None => 0 end)%Qc.
Proof.
  induction l as [|[k c] l IH]; intros hn o o' h hz.
  - cbn [fold_left] in h. injection h as <-. split; [reflexivity|]. change (combination [] v) with 0%Qc. change (iget 1 ([] : idict Qc)) with (@None Qc). cbv iota. ring.
  - cbn [keys map fst] in hn. apply NoDup_cons_iff in hn. destruct hn as [hk hn]. cbn [fold_left objective_entry fst snd] in h.
    rewrite combination_cons. cbn [fst snd]. destruct (Nat.eqb_spec k 1) as [->|n1].
    + destruct (IH hn _ _ h) as (h1 & h2); [intros m i hm; apply hz; now right|]. split; [assumption|]. rewrite h2, v1.
      unfold iget. cbn [get]. destruct (Nat.eq_dec 1 1) as [_|]; [|lia].
      destruct (get Nat.eq_dec 1 l) as [c'|] eqn:E; [|ring]. exfalso. apply hk. apply (get_some_in Nat.eq_dec) in E. apply in_map_iff. exists (1, c'). auto.
    + destruct (iget k (number_from 1 ms)) as [i|] eqn:Ei; [|rewrite fold_objective_none in h; discriminate].
      destruct (set_nth (i - 1) c o) as [o1|] eqn:Eo; [|rewrite fold_objective_none in h; discriminate].
      destruct (set_nth_spec _ _ _ _ Eo) as (e1 & e2 & e3 & e4). destruct (point_get ms hms v k i Ei) as (hp & hi).
      destruct (IH hn _ _ h) as (h1 & h2).
      { intros m i' hm hi'. rewrite e3. destruct (Nat.eqb_spec (i' - 1) (i - 1)) as [e|_]; [|apply (hz m i'); [now right|assumption]].
        exfalso. destruct (point_get ms hms v m i' hi') as (_ & hi2). assert (i' = i) by lia. subst i'.
        apply (number_get 1 ms m i hms) in hi'. apply (number_get 1 ms k i hms) in Ei. destruct hi' as (j & a1 & ->), Ei as (j' & a2 & e').
        assert (j = j') by lia. subst j'. assert (m = k) by congruence. subst m. contradiction. }
      split; [lia|]. rewrite h2, e4. rewrite (hz k i (or_introl eq_refl) Ei). replace (S (i - 1)) with i by lia. rewrite hp.
      unfold iget. cbn [get]. destruct (Nat.eq_dec 1 k) as [e|_]; [lia|]. ring.
Qed.
