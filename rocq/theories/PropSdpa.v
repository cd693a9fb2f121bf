(** C28: the SDPA file describes the same programme. *)
From Coq Require Import List Arith Bool Lia QArith Qcanon Permutation.
From Verif Require Import MargModel QcSum QcArith Duality SearchModel ProgramModel ProgramProofs SDPSolveModel SDPSolveSpec PSD SdpaModel SdpaSpec SdpaProofs SdpaProofs2 SdpaProofs3 SdpaProofs4.
From Coq Require Import ZArith.
Import ListNotations.
Open Scope nat_scope.

(** what the writer can express: known values and upper bounds are not negative, bounds are
    zero or larger than 1e-8, and there is at most one inequality *)
Definition expressible (p : problem) : Prop :=
  (forall m c, In (m, c) (known_moments p) -> (0 <= c)%Qc) /\
  (forall m b, In (m, b) (moment_upperbounds p) -> free p m -> exact_bound b /\ (0 <= b)%Qc) /\
  (forall m b, In (m, b) (moment_lowerbounds p) -> free p m -> exact_bound b) /\
  length (moment_inequalities p) <= 1.

(** The file can be read, its variables x1, x2, ... are the unknown moments of the programme
    (each once), and a point satisfies the file exactly when the corresponding values of
    the moments satisfy the programme (without the bounds on moments that are given); the
    objective is that of the programme without its constant. *)
Theorem C28_same_programme p f : wf p -> expressible p -> write_to_sdpa p = Some f ->
  well_formed f /\
  exists ms, NoDup ms /\ (forall m, In m ms <-> variable p m) /\ (Z.of_nat (length ms) <= f_nvars f)%Z /\
    (forall x, exists v, respects p v /\ forall k, k < length ms -> x (S k) = v (nth k ms 0)) /\
    forall v x, respects p v -> (forall k, k < length ms -> x (S k) = v (nth k ms 0)) ->
      (file_feasible f x <-> feasible_but_bounds p v) /\ file_value f x = (value p v - constant p)%Qc.
Proof.
  intros hwf (hpos & hup & hlo & hineq) h. destruct (scan_spec p hwf) as (ms & hc & hms & hvar & hl).
  unfold write_to_sdpa in h. rewrite hc, hl in h.
  destruct (objective_array p (number_from 1 ms)) as [o|] eqn:ho; [|discriminate].
  destruct (iget 1 (objective p)) as [c0|]; [|discriminate].
  destruct (bound_lines p (number_from 1 ms) _ 1 _ Minus _) as [up|] eqn:hU; [|discriminate].
  destruct (bound_lines p (number_from 1 ms) _ 1 _ Plain _) as [lo|] eqn:hL; [|discriminate].
  destruct (equality_lines p (number_from 1 ms) _ 1 _) as [eqs|] eqn:hE; [|discriminate].
  destruct (inequality_lines p (number_from 1 ms) _ 1 _) as [ineqs|] eqn:hI; [|discriminate].
  injection h as <-. fold (the_file p ms o up lo eqs ineqs).
  pose proof (file_well_formed p hwf hup hlo hineq ms hms hvar o up lo eqs ineqs ho hU hL hE hI) as hw.
  split; [exact hw|]. exists ms. split; [assumption|]. split; [assumption|].
  split; [apply (count_le p hwf ms hms hvar); apply hw|]. split.
  - intros x. exists (assignment p ms x). split; [now apply assignment_respects|]. intros k hk. now apply assignment_variables.
  - intros v x hv hx. split.
    + exact (feasible_iff p hwf hpos hup hlo hineq ms hms hvar o up lo eqs ineqs hU hL hE hI v x hv hx).
    + exact (proj1 (value_eq p hwf hineq ms hms o up lo eqs ineqs ho v x hv hx)).
Qed.

(** If the bounds concern unknown moments only, nothing is lost. *)
Theorem C28_bounds p v : (forall m, In m (keys (moment_upperbounds p)) \/ In m (keys (moment_lowerbounds p)) -> free p m) ->
  feasible_but_bounds p v <-> feasible p v.
Proof.
  intros h. unfold feasible_but_bounds, feasible, constraints. split; intros (h1 & h2 & h3 & h4 & h5); repeat split; try assumption; try apply h1.
  - intros m b hin _. apply h2; [assumption|]. apply h. left. apply in_map_iff. exists (m, b). auto.
  - intros m b hin _. apply h3; [assumption|]. apply h. right. apply in_map_iff. exists (m, b). auto.
  - intros m b hin _. now apply h2.
  - intros m b hin _. now apply h3.
Qed.

(** The number of variables in the header is the number of unknowns if the unit is in the
    matrix and known, zero is known if it is in the matrix, and no two moments are multiples
    of the same moment outside of the matrix. *)
Theorem C28_number_of_variables p f ms : wf p -> write_to_sdpa p = Some f -> NoDup ms -> (forall m, In m ms <-> variable p m) ->
  In 1 (entries p) -> In 1 (keys (known_moments p)) -> (In 0 (entries p) -> In 0 (keys (known_moments p))) ->
  NoDup (map (fun q => snd (snd q)) (filter (fun q => mm_max p <? snd (snd q)) (semiknown_moments p))) ->
  f_nvars f = Z.of_nat (length ms).
Proof.
  intros hwf h hms hvar h1 k1 k0 hn. rewrite <- (count_eq p hwf ms hms hvar h1 k1 k0 hn).
  revert h. unfold write_to_sdpa.
  destruct (objective_array p _) as [o|]; [|discriminate]. destruct (iget 1 (objective p)); [|discriminate].
  destruct (bound_lines p _ _ 1 _ Minus _); [|discriminate]. destruct (bound_lines p _ _ 1 _ Plain _); [|discriminate].
  destruct (equality_lines p _ _ 1 _); [|discriminate]. destruct (inequality_lines p _ _ 1 _); [|discriminate].
  intros e. injection e as <-. reflexivity.
Qed.

(** Nothing is raised if objective, bounds and constraints are about unknown moments, the
    unit, and (for the constraints) moments known to vanish. *)
Theorem C28_total p : wf p -> In 1 (entries p) -> In 1 (keys (objective p)) ->
  (forall m, In m (keys (objective p)) -> m = 1 \/ variable p m) ->
  (forall m, In m (keys (moment_upperbounds p)) \/ In m (keys (moment_lowerbounds p)) -> free p m -> variable p m) ->
  (forall d m, In d (moment_equalities p) \/ In d (moment_inequalities p) -> In m (keys d) ->
     m = 1 \/ In (m, 0%Qc) (known_moments p) \/ variable p m) ->
  exists f, write_to_sdpa p = Some f.
Proof.
  intros hwf h1 hobj1 hobj hb hc. destruct (scan_spec p hwf) as (ms & hcor & hms & hvar & hl).
  unfold write_to_sdpa. rewrite hcor.
  assert (forall m, variable p m -> exists i, iget m (number_from 1 ms) = Some i /\ 1 <= i <= length ms) as hnum.
  { intros m hm. destruct (variable_numbered p ms hvar m hm) as (i & hi). exists i. split; [assumption|].
    now destruct (point_get ms hms (fun _ => 0%Qc) m i hi). }
  assert (0 <= nvars p)%Z as hn.
  { pose proof (old_count p hwf) as a1. pose proof (known_count_le p hwf) as a3. unfold known2 in a3.
    apply in_le_max in h1. fold (mm_max p) in h1. unfold nvars. lia. }
  pose proof (count_le p hwf ms hms hvar hn) as hle.
  assert (exists o, objective_array p (number_from 1 ms) = Some o) as (o & ->).
  { unfold objective_array. destruct (Z.ltb_spec (nvars p) 0); [lia|]. clear hobj1.
    assert (length ms <= length (repeat 0%Qc (Z.to_nat (nvars p)))) as hlen by (rewrite repeat_length; lia).
    revert hlen. generalize (repeat 0%Qc (Z.to_nat (nvars p))). induction (objective p) as [|[k c] l IH]; intros o hlen; [eexists; reflexivity|].
    cbn [fold_left objective_entry fst snd]. assert (forall m, In m (keys l) -> m = 1 \/ variable p m) as hl' by (intros m hm; apply hobj; now right).
    destruct (Nat.eqb_spec k 1) as [->|n1]; [now apply IH|].
    destruct (hobj k (or_introl eq_refl)) as [->|hv]; [lia|]. destruct (hnum k hv) as (i & -> & hi).
    destruct (set_nth_total c (i - 1) o) as (o' & ho'); [lia|]. rewrite ho'. apply IH; [assumption|].
    destruct (set_nth_spec _ _ _ _ ho') as (e & _). lia. }
  assert (exists c, iget 1 (objective p) = Some c) as (c & ->).
  { apply (in_keys_get Nat.eq_dec) in hobj1. exact hobj1. }
  assert (forall b coeff wrap bounds, (forall m, In m (keys bounds) -> free p m -> variable p m) -> forall ii,
            exists ls, bound_lines p (number_from 1 ms) b ii coeff wrap bounds = Some ls) as hbt.
  { intros b coeff wrap bounds. induction bounds as [|[k bd] bounds IH]; intros hk ii; [eexists; reflexivity|]. cbn [bound_lines].
    assert (forall m, In m (keys bounds) -> free p m -> variable p m) as hk' by (intros m hm; apply hk; now right).
    destruct (bounded_here p k) eqn:E; [|now apply IH]. apply bounded_here_iff in E.
    destruct (hnum k (hk k (or_introl eq_refl) E)) as (i & -> & _). destruct (IH hk' (S ii)) as (ls & ->). eexists; reflexivity. }
  destruct (hbt (next_block 1 (moment_upperbounds p)) (- (1))%Qc Minus (moment_upperbounds p) ltac:(auto) 1) as (up & ->).
  destruct (hbt (next_block (next_block 1 (moment_upperbounds p)) (moment_lowerbounds p)) 1%Qc Plain (moment_lowerbounds p) ltac:(auto) 1) as (lo & ->).
  assert (forall m, m = 1 \/ In (m, 0%Qc) (known_moments p) \/ variable p m -> not_known_zero p m = true -> m <> 1 -> exists i, iget m (number_from 1 ms) = Some i) as hentry.
  { intros m [->|[hz|hv]] hnz n1; [congruence| |destruct (hnum m hv) as (i & hi & _); eauto].
    unfold not_known_zero, iget in hnz. rewrite (in_get Nat.eq_dec m _ _ (wf_known_keys _ hwf) hz) in hnz.
    destruct (Qc_eq_dec 0 0); [discriminate|congruence]. }
  assert (forall b eqs, (forall d m, In d eqs -> In m (keys d) -> m = 1 \/ In (m, 0%Qc) (known_moments p) \/ variable p m) -> forall ii,
            exists ls, equality_lines p (number_from 1 ms) b ii eqs = Some ls) as het.
  { intros b eqs. induction eqs as [|d eqs IH]; intros hk ii; [eexists; reflexivity|]. cbn [equality_lines].
    assert (exists a, sequence (map (equality_entry p (number_from 1 ms) b ii) d) = Some a) as (a & ->).
    { assert (forall m, In m (keys d) -> m = 1 \/ In (m, 0%Qc) (known_moments p) \/ variable p m) as hd by (intros m hm; apply (hk d); [now left|assumption]).
      clear hk. induction d as [|[k c'] d IHd]; [eexists; reflexivity|]. cbn [map sequence].
      destruct IHd as (a & ->); [intros m hm; apply hd; now right|].
      assert (exists a', equality_entry p (number_from 1 ms) b ii (k, c') = Some a') as (a' & ->); [|eexists; reflexivity].
      unfold equality_entry. cbn [fst snd]. destruct (not_known_zero p k) eqn:E; [|eexists; reflexivity].
      destruct (Nat.eqb_spec k 1) as [->|n1]; cbn [negb]; [eexists; reflexivity|].
      destruct (hentry k (hd k (or_introl eq_refl)) E n1) as (i & ->). eexists; reflexivity. }
    destruct (IH ltac:(intros d' m hd; apply hk; now right) (ii + 2)) as (ls & ->). eexists; reflexivity. }
  assert (forall b eqs, (forall d m, In d eqs -> In m (keys d) -> m = 1 \/ In (m, 0%Qc) (known_moments p) \/ variable p m) -> forall ii,
            exists ls, inequality_lines p (number_from 1 ms) b ii eqs = Some ls) as hit.
  { intros b eqs. induction eqs as [|d eqs IH]; intros hk ii; [eexists; reflexivity|]. cbn [inequality_lines].
    assert (exists a, sequence (map (inequality_entry p (number_from 1 ms) b ii) d) = Some a) as (a & ->).
    { assert (forall m, In m (keys d) -> m = 1 \/ In (m, 0%Qc) (known_moments p) \/ variable p m) as hd by (intros m hm; apply (hk d); [now left|assumption]).
      clear hk. induction d as [|[k c'] d IHd]; [eexists; reflexivity|]. cbn [map sequence].
      destruct IHd as (a & ->); [intros m hm; apply hd; now right|].
      assert (exists a', inequality_entry p (number_from 1 ms) b ii (k, c') = Some a') as (a' & ->); [|eexists; reflexivity].
      unfold inequality_entry. cbn [fst snd]. destruct (not_known_zero p k) eqn:E; [|eexists; reflexivity].
      destruct (Nat.eqb_spec k 1) as [->|n1]; cbn [negb]; [eexists; reflexivity|].
      destruct (hentry k (hd k (or_introl eq_refl)) E n1) as (i & ->). eexists; reflexivity. }
    destruct (IH ltac:(intros d' m hd; apply hk; now right) (ii + 2)) as (ls & ->). eexists; reflexivity. }
  destruct (het (next_block (next_block (next_block 1 (moment_upperbounds p)) (moment_lowerbounds p)) (moment_equalities p)) (moment_equalities p)
              ltac:(intros d m hd; apply hc; now left) 1) as (eqs & ->).
  destruct (hit (next_block (next_block (next_block (next_block 1 (moment_upperbounds p)) (moment_lowerbounds p)) (moment_equalities p)) (moment_inequalities p)) (moment_inequalities p)
              ltac:(intros d m hd; apply hc; now right) 1) as (ineqs & ->).
  eexists; reflexivity.
Qed.

(** ** An example: three columns, a known moment, a semi-known one relative to a moment
    outside of the matrix, bounds on either side, an equality and an inequality *)
Definition q (a : Z) (b : positive) : Qc := Q2Qc (a # b).
Definition case : problem :=
  {| momentmatrix := [[1; 2; 3]; [2; 2; 4]; [3; 4; 3]]; known_moments := [(1, q 1 1); (3, q 1 2)];
     semiknown_moments := [(4, (q 1 2, 5))]; objective := [(1, q 1 1); (2, q 3 1); (5, q (-2) 1)];
     moment_upperbounds := [(2, q 1 1)]; moment_lowerbounds := [(2, q 1 10); (3, q 0 1); (4, q 0 1)];
     moment_equalities := [[(1, q (-1) 4); (2, q 1 1)]]; moment_inequalities := [[(2, q 2 1); (1, q (-1) 3); (5, q 1 1)]] |}.

(** deciding the premises of concrete problems *)
Definition indices (k : nat) : list nat := seq 0 k.
Fixpoint nodupb (l : list nat) : bool := match l with [] => true | a :: l' => negb (imem a l') && nodupb l' end.
Lemma nodupb_ok l : nodupb l = true -> NoDup l.
Proof.
  induction l as [|a l IH]; cbn [nodupb]; [constructor|]. rewrite andb_true_iff, negb_true_iff. intros [h1 h2]. constructor; [|now apply IH].
  intros hin. apply imem_iff in hin. congruence.
Qed.
Definition freeb (p : problem) (m : nat) : bool := negb (m =? 1) && negb (imem m (keys (known_moments p))) && negb (imem m (keys (semiknown_moments p))).
Definition wfb (p : problem) : bool :=
  let n := length (momentmatrix p) in
  forallb (fun row => length row =? n) (momentmatrix p) &&
  forallb (fun i => forallb (fun j => entry p i j =? entry p j i) (indices n)) (indices n) &&
  forallb (fun m => imem m (entries p)) (seq 1 (mm_max p)) &&
  nodupb (keys (known_moments p)) && nodupb (keys (semiknown_moments p)) && nodupb (keys (objective p)) &&
  forallb (fun m => imem m (entries p)) (keys (known_moments p)) &&
  forallb (fun e => negb (fst e =? 1) || Qc_eq_bool (snd e) 1) (known_moments p) &&
  forallb (fun e => negb (fst e =? 0) || Qc_eq_bool (snd e) 0) (known_moments p) &&
  forallb (fun m => imem m (entries p) && (2 <=? m) && negb (imem m (keys (known_moments p)))) (keys (semiknown_moments p)) &&
  forallb (fun e => (2 <=? snd (snd e)) && freeb p (snd (snd e))) (semiknown_moments p).
Lemma freeb_iff p m : freeb p m = true <-> free p m. Proof. apply bounded_here_iff. Qed.
Lemma wfb_wf p : wfb p = true -> wf p.
Proof.
  unfold wfb. rewrite !andb_true_iff, !forallb_forall. intros ((((((((((h1 & h2) & h3) & h4) & h5) & h6) & h7) & h8) & h9) & h10) & h11).
  constructor; try (now apply nodupb_ok).
  - intros row hr. apply Nat.eqb_eq. now apply h1.
  - intros i j hi hj. apply Nat.eqb_eq. specialize (h2 i ltac:(apply in_seq; lia)). rewrite forallb_forall in h2. apply h2. apply in_seq. lia.
  - intros m hm. apply imem_iff, h3, in_seq. lia.
  - intros m hm. now apply imem_iff, h7.
  - intros c hc. specialize (h8 _ hc). cbn [fst snd Nat.eqb negb orb] in h8. now apply Qc_eq_bool_correct.
  - intros c hc. specialize (h9 _ hc). cbn [fst snd Nat.eqb negb orb] in h9. now apply Qc_eq_bool_correct.
  - intros m hm. specialize (h10 _ hm). rewrite !andb_true_iff, negb_true_iff in h10. destruct h10 as ((a & b) & c).
    split; [now apply imem_iff|]. split; [now apply Nat.leb_le|]. intros hin. apply imem_iff in hin. congruence.
  - intros k c m hm. specialize (h11 _ hm). cbn [snd] in h11. apply andb_true_iff in h11. destruct h11 as [a b].
    split; [now apply Nat.leb_le|now apply freeb_iff].
Qed.
Definition exactb (b : Qc) : bool := Qc_eq_bool b 0 || qltb atol (qabs b).
Definition expressibleb (p : problem) : bool :=
  forallb (fun e => negb (qltb (snd e) 0)) (known_moments p) &&
  forallb (fun e => negb (freeb p (fst e)) || (exactb (snd e) && negb (qltb (snd e) 0))) (moment_upperbounds p) &&
  forallb (fun e => negb (freeb p (fst e)) || exactb (snd e)) (moment_lowerbounds p) && (length (moment_inequalities p) <=? 1).
Lemma exactb_exact b : exactb b = true -> exact_bound b.
Proof.
  unfold exactb, exact_bound. intros h. apply orb_prop in h. destruct h as [h|h]; [left; now apply Qc_eq_bool_correct|right].
  unfold qltb in h. destruct (Qclt_le_dec atol (qabs b)); [assumption|discriminate].
Qed.
Lemma not_ltb b : negb (qltb b 0) = true -> (0 <= b)%Qc.
Proof. unfold qltb. destruct (Qclt_le_dec b 0); [discriminate|auto]. Qed.
Lemma expressibleb_ok p : expressibleb p = true -> expressible p.
Proof.
  unfold expressibleb. rewrite !andb_true_iff, !forallb_forall. intros (((h1 & h2) & h3) & h4).
  split; [|split; [|split]].
  - intros m c h. apply not_ltb. exact (h1 _ h).
  - intros m b h hf. specialize (h2 _ h). cbn [fst snd] in h2. apply freeb_iff in hf. rewrite hf in h2. cbn [negb orb] in h2.
    apply andb_true_iff in h2. destruct h2. split; [now apply exactb_exact|now apply not_ltb].
  - intros m b h hf. specialize (h3 _ h). cbn [fst snd] in h3. apply freeb_iff in hf. rewrite hf in h3. now apply exactb_exact.
  - now apply Nat.leb_le.
Qed.
Definition nothing : file := {| f_nvars := 0%Z; f_nblocks := 0; f_blockstruct := []; f_objective := []; f_lines := [] |}.
Definition written (p : problem) : file := match write_to_sdpa p with Some f => f | None => nothing end.
Definition writes (p : problem) : bool := match write_to_sdpa p with Some _ => true | None => false end.
Lemma written_ok p : writes p = true -> write_to_sdpa p = Some (written p).
Proof. unfold writes, written. destruct (write_to_sdpa p); [reflexivity|discriminate]. Qed.
Ltac decide_all := split; [apply wfb_wf; vm_compute; reflexivity|]; split; [apply expressibleb_ok; vm_compute; reflexivity|]; apply written_ok; vm_compute; reflexivity.

Example C28_case : wf case /\ expressible case /\ write_to_sdpa case = Some (written case).
Proof. decide_all. Qed.
Example C28_case_header : f_nvars (written case) = 2%Z /\ f_nblocks (written case) = 5 /\ f_blockstruct (written case) = [3; -1; -1; -2; -1]%Z.
Proof. vm_compute. repeat split. Qed.

(** ** What the file gets wrong *)
(** The format minimises; the programme is to be maximised, and its objective is written as
    it is: an optimal point of the programme is not one of the file. *)
Definition sense_case : problem :=
  {| momentmatrix := [[1; 2]; [2; 1]]; known_moments := [(1, q 1 1)]; semiknown_moments := []; objective := [(1, q 0 1); (2, q 1 1)];
     moment_upperbounds := []; moment_lowerbounds := []; moment_equalities := []; moment_inequalities := [] |}.
Lemma square_nonneg (x : Qc) : (0 <= x * x)%Qc. Proof. qcnra. Qed.
Lemma mult_nonneg (x y : Qc) : (0 <= x -> 0 <= y -> 0 <= x * y)%Qc. Proof. intros. qcnra. Qed.
Lemma psd2 M : M 0 0 = 1%Qc -> M 1 1 = 1%Qc -> M 0 1 = M 1 0 -> psd 2 M <-> (- (1) <= M 0%nat 1%nat)%Qc /\ (M 0%nat 1%nat <= 1)%Qc.
Proof.
  intros h0 h1 hs. split.
  - intros [_ h]. pose proof (h (fun _ => 1%Qc)) as a. pose proof (h (fun i => if i =? 0 then 1%Qc else (- (1))%Qc)) as b.
    unfold sumn in a, b. cbn [seq map sumQ fold_right Nat.eqb] in a, b. rewrite h0, h1, <- hs in a, b. split; qclra.
  - intros [h2 h3]. split.
    + intros i j hi hj. destruct i as [|[|i]], j as [|[|j]]; try lia; congruence.
    + intros v. unfold sumn. cbn [seq map sumQ fold_right]. rewrite h0, h1, <- hs. set (y := M 0 1) in *.
      replace (v 0%nat * 1 * v 0%nat + (v 0%nat * y * v 1%nat + 0) + (v 1%nat * y * v 0%nat + (v 1%nat * 1 * v 1%nat + 0) + 0))%Qc
        with (v 0%nat * 1 * v 0%nat + v 0%nat * y * v 1%nat + (v 1%nat * y * v 0%nat + v 1%nat * 1 * v 1%nat))%Qc by ring.
      set (a := v 0) in *. set (b := v 1) in *.
      assert (0 <= (1 + y) * ((a + b) * (a + b)) + (1 - y) * ((a - b) * (a - b)))%Qc as g.
      { assert (0 <= (a + b) * (a + b))%Qc by apply square_nonneg. assert (0 <= (a - b) * (a - b))%Qc by apply square_nonneg.
        assert (0 <= 1 + y)%Qc by qclra. assert (0 <= 1 - y)%Qc by qclra.
        assert (0 <= (1 + y) * ((a + b) * (a + b)))%Qc by (apply mult_nonneg; assumption).
        assert (0 <= (1 - y) * ((a - b) * (a - b)))%Qc by (apply mult_nonneg; assumption). qclra. }
      replace ((1 + y) * ((a + b) * (a + b)) + (1 - y) * ((a - b) * (a - b)))%Qc
        with ((1 + 1) * (a * 1 * a + a * y * b + (b * y * a + b * 1 * b)))%Qc in g by ring.
      qclra.
Qed.

Theorem C28_sense_refuted : exists p f v x, wf p /\ expressible p /\ write_to_sdpa p = Some f /\ respects p v /\ feasible p v /\
  (forall v', respects p v' -> feasible p v' -> (value p v' <= value p v)%Qc) /\ file_feasible f x /\
  file_value f x = (value p v - constant p)%Qc /\ exists x', file_feasible f x' /\ (file_value f x' < file_value f x)%Qc.
Proof.
  assert (wf sense_case /\ expressible sense_case /\ write_to_sdpa sense_case = Some (written sense_case)) as (h1 & h2 & h3) by decide_all.
  destruct (C28_same_programme _ _ h1 h2 h3) as (_ & ms & _ & hvar & _ & _ & h).
  pose (v := fun y k => if k =? 2 then y else if k =? 1 then 1%Qc else 0%Qc : Qc).
  assert (forall y, respects sense_case (v y)) as hr.
  { intros y. split; [reflexivity|]. split; [reflexivity|]. split.
    - intros m c [e|[]]. injection e as <- <-. apply Qc_eq_bool_correct. vm_compute. reflexivity.
    - intros m c m' []. }
  assert (forall w, w 1 = 1%Qc -> feasible_but_bounds sense_case w <-> (- (1) <= w 2%nat)%Qc /\ (w 2%nat <= 1)%Qc) as hf.
  { intros w hw. unfold feasible_but_bounds, constraints. change (length (momentmatrix sense_case)) with 2. rewrite psd2; try assumption; try reflexivity.
    change (entry sense_case 0 1) with 2. split; [tauto|]. intros h'. split; [assumption|]. split; [intros m b []|]. split; [intros m b []|]. split; [intros d []|intros d []]. }
  assert (forall w, feasible_but_bounds sense_case w <-> feasible sense_case w) as hb by (intros w; apply C28_bounds; intros m [[]|[]]).
  assert (forall w, w 1 = 1%Qc -> value sense_case w = w 2%nat) as hval.
  { intros w hw. unfold value, combination. cbn [sense_case objective map fst snd sumQ fold_right]. unfold q. change (Q2Qc (0 # 1)) with 0%Qc. change (Q2Qc (1 # 1)) with 1%Qc. ring. }
  assert (constant sense_case = 0%Qc) as hc by (apply Qc_eq_bool_correct; vm_compute; reflexivity).
  assert (forall y, exists x, forall k, k < length ms -> x (S k) = v y (nth k ms 0)) as hx by (intros y; exists (fun k => v y (nth (k - 1) ms 0)); intros k _; now rewrite Nat.sub_succ, Nat.sub_0_r).
  destruct (hx 1%Qc) as (x & hx1). destruct (hx (- (1))%Qc) as (x' & hx2).
  destruct (h _ _ (hr 1%Qc) hx1) as (f1 & e1). destruct (h _ _ (hr (- (1))%Qc) hx2) as (f2 & e2).
  exists sense_case, (written sense_case), (v 1%Qc), x. split; [assumption|]. split; [assumption|]. split; [assumption|]. split; [apply hr|].
  assert (feasible_but_bounds sense_case (v 1%Qc)) as g1 by (apply hf; [reflexivity|]; change (v 1%Qc 2) with 1%Qc; split; qclra).
  split; [now apply hb|]. split.
  - intros v' hr' hf'. pose proof (proj1 (proj2 hr')) as hw. rewrite (hval v' hw), (hval (v 1%Qc) eq_refl). apply hb in hf'. apply (proj1 (hf v' hw)) in hf'. exact (proj2 hf').
  - split; [now apply f1|]. split; [assumption|]. exists x'. split.
    + apply f2. apply hf; [reflexivity|]. change (v (- (1))%Qc 2) with (- (1))%Qc. split; qclra.
    + rewrite e1, e2, !hval by reflexivity. change (v 1%Qc 2) with 1%Qc. change (v (- (1))%Qc 2) with (- (1))%Qc. qclra.
Qed.

(** A known value loses its sign: the programme has no point, the file has one. *)
Definition negative_case : problem :=
  {| momentmatrix := [[1; 2; 2]; [2; 1; 2]; [2; 2; 1]]; known_moments := [(1, q 1 1); (2, q (-1) 1)]; semiknown_moments := [];
     objective := [(1, q 0 1)]; moment_upperbounds := []; moment_lowerbounds := []; moment_equalities := []; moment_inequalities := [] |}.
Theorem C28_negative_known_refuted : exists p f, wf p /\ write_to_sdpa p = Some f /\ well_formed f /\
  (forall v, respects p v -> ~ feasible p v) /\ exists x, file_feasible f x.
Proof.
  exists negative_case, (written negative_case). split; [apply wfb_wf; vm_compute; reflexivity|]. split; [apply written_ok; vm_compute; reflexivity|].
  split; [|split].
  - split; [vm_compute; discriminate|]. split; [reflexivity|]. split; [reflexivity|].
    assert (forallb (fun l => match number (l_text l) with Some _ => true | None => false end && (l_var l =? 0) && (l_block l =? 1) && (1 <=? l_row l) && (l_row l <=? l_col l) && (l_col l <=? 3)) (f_lines (written negative_case)) = true) as h by (vm_compute; reflexivity).
    rewrite forallb_forall in h. intros l hl. specialize (h l hl). rewrite !andb_true_iff, !Nat.leb_le, !Nat.eqb_eq in h. destruct h as (((((a & b) & c) & d) & e) & g).
    split; [destruct (number (l_text l)); [discriminate|discriminate a]|]. split; [rewrite b; vm_compute; discriminate|].
    exists 3%Z. rewrite c. split; [reflexivity|]. repeat split; try lia.
  - intros v (v0 & v1 & hk & _) ([_ hp] & _). pose proof (hp (fun _ => 1%Qc)) as g. change (length (momentmatrix negative_case)) with 3 in g.
    unfold sumn in g. cbn [seq map sumQ fold_right] in g.
    change (entry negative_case 0 0) with 1 in g. change (entry negative_case 0 1) with 2 in g. change (entry negative_case 0 2) with 2 in g.
    change (entry negative_case 1 0) with 2 in g. change (entry negative_case 1 1) with 1 in g. change (entry negative_case 1 2) with 2 in g.
    change (entry negative_case 2 0) with 2 in g. change (entry negative_case 2 1) with 2 in g. change (entry negative_case 2 2) with 1 in g.
    assert (v 2 = (- (1))%Qc) as v2 by (rewrite (hk 2 (q (-1) 1)); [apply Qc_eq_bool_correct; vm_compute; reflexivity|right; now left]).
    rewrite v1, v2 in g. revert g. clear. intros g. qclra.
  - exists (fun _ => 0%Qc). intros b s hb. assert (f_blockstruct (written negative_case) = [3%Z]) as e by (vm_compute; reflexivity). rewrite e in hb.
    destruct b as [|b]; cbn [nth_error] in hb; [|destruct b; discriminate]. injection hb as <-. change 3%Z with (Z.of_nat 3). apply block_holds_matrix.
    assert (forallb (fun i => forallb (fun j => Qc_eq_bool 1 (slack (written negative_case) (fun _ => 0%Qc) 1 i j)) (seq 0 3)) (seq 0 3) = true) as h by (vm_compute; reflexivity).
    apply (psd_ext 3 (fun _ _ => 1%Qc)).
    + intros i j hi hj. rewrite forallb_forall in h. specialize (h i ltac:(apply in_seq; lia)). rewrite forallb_forall in h. apply Qc_eq_bool_correct. apply h. apply in_seq. lia.
    + split; [intros i j _ _; reflexivity|]. intros v. unfold sumn. cbn [seq map sumQ fold_right].
      replace (v 0%nat * 1 * v 0%nat + (v 0%nat * 1 * v 1%nat + (v 0%nat * 1 * v 2%nat + 0)) + (v 1%nat * 1 * v 0%nat + (v 1%nat * 1 * v 1%nat + (v 1%nat * 1 * v 2%nat + 0)) + (v 2%nat * 1 * v 0%nat + (v 2%nat * 1 * v 1%nat + (v 2%nat * 1 * v 2%nat + 0)) + 0)))%Qc
        with ((v 0%nat + v 1%nat + v 2%nat) * (v 0%nat + v 1%nat + v 2%nat))%Qc by ring.
      apply square_nonneg.
Qed.

(** A bound on a semi-known moment is not written. *)
Definition semi_case : problem :=
  {| momentmatrix := [[1; 2]; [2; 1]]; known_moments := [(1, q 1 1)]; semiknown_moments := [(2, (q 1 2, 3))]; objective := [(1, q 0 1)];
     moment_upperbounds := [(2, q 1 4)]; moment_lowerbounds := []; moment_equalities := []; moment_inequalities := [] |}.
Theorem C28_semiknown_bound_refuted : exists p f v x ms, wf p /\ expressible p /\ write_to_sdpa p = Some f /\
  NoDup ms /\ (forall m, In m ms <-> variable p m) /\ respects p v /\ (forall k, k < length ms -> x (S k) = v (nth k ms 0)) /\
  file_feasible f x /\ ~ feasible p v.
Proof.
  assert (wf semi_case /\ expressible semi_case /\ write_to_sdpa semi_case = Some (written semi_case)) as (h1 & h2 & h3) by decide_all.
  destruct (C28_same_programme _ _ h1 h2 h3) as (_ & ms & hn & hvar & _ & _ & h).
  pose (v := fun k => nth k [0; 1; 1; q 2 1]%Qc 0%Qc).
  assert (respects semi_case v) as hr.
  { split; [reflexivity|]. split; [reflexivity|]. split.
    - intros m c [e|[]]. injection e as <- <-. apply Qc_eq_bool_correct. vm_compute. reflexivity.
    - intros m c m' [e|[]]. injection e as <- <- <-. apply Qc_eq_bool_correct. vm_compute. reflexivity. }
  exists semi_case, (written semi_case), v, (fun k => v (nth (k - 1) ms 0)), ms.
  assert (forall k, k < length ms -> (fun k => v (nth (k - 1) ms 0)) (S k) = v (nth k ms 0)) as hx by (intros k _; now rewrite Nat.sub_succ, Nat.sub_0_r).
  destruct (h _ _ hr hx) as (hf & _). do 7 (split; [assumption|]). split.
  - apply hf. split; [|split; [|split; [|split]]].
    + change (length (momentmatrix semi_case)) with 2. apply psd2; try reflexivity. change (entry semi_case 0 1) with 2. change (v 2) with 1%Qc. split; qclra.
    + intros m b [e|[]] hfree. injection e as <- <-. exfalso. apply hfree. now left.
    + intros m b [].
    + intros d [].
    + intros d [].
  - intros (_ & hu & _). specialize (hu 2 (q 1 4) (or_introl eq_refl) Logic.I). change (v 2) with 1%Qc in hu. revert hu. vm_compute. congruence.
Qed.

(** Two inequalities: the second row is outside of the declared block, the file cannot be
    read. *)
Definition two_case : problem :=
  {| momentmatrix := [[1; 2]; [2; 1]]; known_moments := [(1, q 1 1)]; semiknown_moments := []; objective := [(1, q 0 1)];
     moment_upperbounds := []; moment_lowerbounds := []; moment_equalities := []; moment_inequalities := [[(2, q 1 1)]; [(2, q 1 2)]] |}.
Theorem C28_two_inequalities_refuted : exists p f, wf p /\ length (moment_inequalities p) = 2 /\ write_to_sdpa p = Some f /\ ~ well_formed f.
Proof.
  exists two_case, (written two_case). split; [apply wfb_wf; vm_compute; reflexivity|]. split; [reflexivity|]. split; [apply written_ok; vm_compute; reflexivity|].
  intros (_ & _ & _ & h).
  assert (existsb (fun l => (l_block l =? 2) && (l_col l =? 3)) (f_lines (written two_case)) = true) as e by (vm_compute; reflexivity).
  apply existsb_exists in e. destruct e as (l & hl & e). apply andb_true_iff in e. destruct e as [e1 e2]. apply Nat.eqb_eq in e1. apply Nat.eqb_eq in e2.
  destruct (h l hl) as (_ & _ & s & hs & _ & _ & hc & _). rewrite e1 in hs. rewrite e2 in hc.
  assert (f_blockstruct (written two_case) = [2; -2]%Z) as hb by (vm_compute; reflexivity). rewrite hb in hs. cbn [nth_error Nat.sub] in hs. injection hs as <-. vm_compute in hc. apply hc. reflexivity.
Qed.

(** A negative upper bound is printed with two signs. *)
Definition minus_case : problem :=
  {| momentmatrix := [[1; 2]; [2; 1]]; known_moments := [(1, q 1 1)]; semiknown_moments := []; objective := [(1, q 0 1)];
     moment_upperbounds := [(2, q (-1) 2)]; moment_lowerbounds := []; moment_equalities := []; moment_inequalities := [] |}.
Theorem C28_negative_upperbound_refuted : exists p f, wf p /\ write_to_sdpa p = Some f /\ ~ well_formed f.
Proof.
  exists minus_case, (written minus_case). split; [apply wfb_wf; vm_compute; reflexivity|]. split; [apply written_ok; vm_compute; reflexivity|].
  intros (_ & _ & _ & h).
  assert (existsb (fun l => match number (l_text l) with None => true | _ => false end) (f_lines (written minus_case)) = true) as e by (vm_compute; reflexivity).
  apply existsb_exists in e. destruct e as (l & hl & e). destruct (h l hl) as (hn & _). destruct (number (l_text l)); [discriminate|congruence].
Qed.

(** An objective or an equality with a known moment that does not vanish cannot be written. *)
Definition known_case (o : list (nat * Qc)) (e : list (list (nat * Qc))) : problem :=
  {| momentmatrix := [[1; 2; 3]; [2; 2; 4]; [3; 4; 3]]; known_moments := [(1, q 1 1); (3, q 1 2)]; semiknown_moments := []; objective := o;
     moment_upperbounds := []; moment_lowerbounds := []; moment_equalities := e; moment_inequalities := [] |}.
Theorem C28_known_moments_refuted :
  (exists p, wf p /\ expressible p /\ moment_equalities p = [] /\ write_to_sdpa p = None) /\
  (exists p, wf p /\ expressible p /\ value p = value (known_case [(1, q 0 1)] []) /\ write_to_sdpa p = None).
Proof.
  split.
  - exists (known_case [(1, q 0 1); (3, q 1 1)] []). split; [apply wfb_wf; vm_compute; reflexivity|]. split; [apply expressibleb_ok; vm_compute; reflexivity|].
    split; [reflexivity|]. vm_compute. reflexivity.
  - exists (known_case [(1, q 0 1)] [[(2, q 1 1); (3, q (-1) 1)]]). split; [apply wfb_wf; vm_compute; reflexivity|].
    split; [apply expressibleb_ok; vm_compute; reflexivity|]. split; [reflexivity|]. vm_compute. reflexivity.
Qed.
