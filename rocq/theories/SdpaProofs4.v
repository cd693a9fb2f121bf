(** The SDPA file as a whole describes the programme. *)
From Coq Require Import List Arith Bool Lia QArith Qcanon Permutation.
From Verif Require Import MargModel QcSum QcArith Duality SearchModel ProgramModel ProgramProofs SDPSolveModel SDPSolveSpec PSD SdpaModel SdpaSpec SdpaProofs SdpaProofs2 SdpaProofs3.
From Coq Require Import ZArith.
Import ListNotations.
Open Scope nat_scope.

Lemma bsum_other x b b' r c ls : (forall l, In l ls -> l_block l = b') -> ls = [] \/ b <> b' -> bsum x b r c ls = 0%Qc.
Proof.
  intros h [->|hne]; [reflexivity|]. apply bsum_none. intros l hl. unfold sel. rewrite (h l hl). destruct (Nat.eqb_spec b' b); [lia|reflexivity].
Qed.
Lemma next_le {A} b (l : list A) : b <= next_block b l. Proof. destruct l; cbn; lia. Qed.
Lemma next_ne {A} b (l : list A) : l <> [] -> next_block b l = S b. Proof. destruct l; [congruence|reflexivity]. Qed.
Lemma nil_dec {A} (l : list A) : {l = []} + {l <> []}. Proof. destruct l; [now left|now right]. Qed.
Lemma psd_zero M : psd 0 M.
Proof. split; [intros i j h; lia|intros v; apply Qcle_refl]. Qed.
Lemma block_holds_matrix k M : block_holds (Z.of_nat k) M <-> psd k M.
Proof.
  unfold block_holds. destruct (Z.ltb_spec 0 (Z.of_nat k)) as [h|h].
  - now rewrite Nat2Z.id.
  - assert (k = 0) by lia. subst k. split; [intros _; apply psd_zero|]. intros _ i hi. cbn in hi. lia.
Qed.
Lemma block_holds_diagonal k M : block_holds (- Z.of_nat k) M <-> forall i, i < k -> (0 <= M i i)%Qc.
Proof.
  unfold block_holds. destruct (Z.ltb_spec 0 (- Z.of_nat k)); [lia|]. replace (Z.to_nat (- - Z.of_nat k)) with k by lia. reflexivity.
Qed.

Section Whole.
Variable p : problem.
Hypothesis hwf : wf p.
Hypothesis hpos : forall m c, In (m, c) (known_moments p) -> (0 <= c)%Qc.
Hypothesis hup : forall m b, In (m, b) (moment_upperbounds p) -> free p m -> exact_bound b /\ (0 <= b)%Qc.
Hypothesis hlo : forall m b, In (m, b) (moment_lowerbounds p) -> free p m -> exact_bound b.
Hypothesis hineq : length (moment_inequalities p) <= 1.
Variable ms : list nat.
Hypothesis hms : NoDup ms.
Hypothesis hvar : forall m, In m ms <-> variable p m.
Hypothesis hcorresp : s_corresp (scan_matrix p) = number_from 1 ms.
Hypothesis hlines : s_lines (scan_matrix p) = flat_map (lines_of p ms) (positions p).
Notation n := (length (momentmatrix p)).
Notation b2 := (next_block 1 (moment_upperbounds p)).
Notation b3 := (next_block b2 (moment_lowerbounds p)).
Notation b4 := (next_block b3 (moment_equalities p)).
Notation b5 := (next_block b4 (moment_inequalities p)).
Variables (o : list Qc) (up lo eqs ineqs : list line).
Hypothesis ho : objective_array p (number_from 1 ms) = Some o.
Hypothesis hU : bound_lines p (number_from 1 ms) b2 1 (- (1))%Qc Minus (moment_upperbounds p) = Some up.
Hypothesis hL : bound_lines p (number_from 1 ms) b3 1 1%Qc Plain (moment_lowerbounds p) = Some lo.
Hypothesis hE : equality_lines p (number_from 1 ms) b4 1 (moment_equalities p) = Some eqs.
Hypothesis hI : inequality_lines p (number_from 1 ms) b5 1 (moment_inequalities p) = Some ineqs.
Notation mat := (flat_map (lines_of p ms) (positions p)).
Notation all := (mat ++ up ++ lo ++ eqs ++ ineqs).

Lemma some_v : exists v, respects p v. Proof. exists (assignment p ms (fun _ => 0%Qc)). now apply assignment_respects. Qed.
Lemma mat_shape l : In l mat -> l_block l = 1 /\ 1 <= l_row l <= l_col l /\ l_col l <= n /\ l_var l <= length ms /\ number (l_text l) <> None.
Proof.
  intros h. apply in_flat_map in h. destruct h as ([[ii jj] var] & he & hl). apply (positions_in p ii jj var (wf_square _ hwf)) in he.
  destruct (lines_of_shape p ms hms (fun _ => 0%Qc) _ _ hl) as (h1 & h2 & h3 & h4 & h5 & h6). cbn [fst snd] in *. repeat split; try assumption; lia.
Qed.
Lemma up_shape l : In l up -> l_block l = b2 /\ 1 <= l_row l <= number_bounded p (moment_upperbounds p) /\ l_row l = l_col l /\ l_var l <= length ms /\ number (l_text l) <> None.
Proof.
  intros h. destruct (bound_lines_shape p ms hms (fun _ => 0%Qc) _ _ _ _ _ _ hU l h) as (h1 & h2 & h3 & h4 & h5). repeat split; try assumption; try lia.
  destruct h5 as [->|(m & bd & hin & hb & ->)]; [discriminate|]. apply bounded_here_iff in hb. destruct (hup _ _ hin hb) as (_ & h0).
  unfold number, qltb. destruct (Qclt_le_dec bd 0) as [l0|_]; [exfalso; exact (Qclt_not_le _ _ l0 h0)|discriminate].
Qed.
Lemma lo_shape l : In l lo -> l_block l = b3 /\ 1 <= l_row l <= number_bounded p (moment_lowerbounds p) /\ l_row l = l_col l /\ l_var l <= length ms /\ number (l_text l) <> None.
Proof.
  intros h. destruct (bound_lines_shape p ms hms (fun _ => 0%Qc) _ _ _ _ _ _ hL l h) as (h1 & h2 & h3 & h4 & h5). repeat split; try assumption; try lia.
  destruct h5 as [->|(m & bd & hin & hb & ->)]; discriminate.
Qed.
Lemma eqs_shape l : In l eqs -> l_block l = b4 /\ 1 <= l_row l <= 2 * length (moment_equalities p) /\ l_row l = l_col l /\ l_var l <= length ms /\ number (l_text l) <> None.
Proof.
  intros h. destruct some_v as (v & hv). destruct (equality_lines_shape p ms hms v hv _ _ _ _ hE l h) as (h1 & h2 & h3 & h4 & h5).
  repeat split; try assumption; lia.
Qed.
Lemma ineqs_shape l : In l ineqs -> l_block l = b5 /\ 1 <= l_row l <= length (moment_inequalities p) /\ l_row l = l_col l /\ l_var l <= length ms /\ number (l_text l) <> None.
Proof.
  intros h. destruct some_v as (v & hv). revert hI hineq. generalize b5. intros b. destruct (moment_inequalities p) as [|d [|d' r]]; cbn [length]; [| |lia].
  - cbn [inequality_lines]. intros e; injection e as <-. destruct h.
  - intros e _. destruct (inequality_lines_one p ms hms v hv _ _ _ e) as (_ & h'). destruct (h' l h) as (h1 & h2 & h3 & h4 & h5). repeat split; try assumption; lia.
Qed.
Lemma all_vars l : In l all -> l_var l <= length ms.
Proof.
  rewrite !in_app_iff. intros [h|[h|[h|[h|h]]]]; [apply mat_shape in h|apply up_shape in h|apply lo_shape in h|apply eqs_shape in h|apply ineqs_shape in h]; tauto.
Qed.
Lemma up_empty : moment_upperbounds p = [] -> up = []. Proof. intros e. revert hU. rewrite e. cbn [bound_lines]. congruence. Qed.
Lemma lo_empty : moment_lowerbounds p = [] -> lo = []. Proof. intros e. revert hL. rewrite e. cbn [bound_lines]. congruence. Qed.
Lemma eqs_empty : moment_equalities p = [] -> eqs = []. Proof. intros e. revert hE. rewrite e. cbn [equality_lines]. congruence. Qed.
Lemma ineqs_empty : moment_inequalities p = [] -> ineqs = []. Proof. intros e. revert hI. rewrite e. cbn [inequality_lines]. congruence. Qed.
Lemma up_or : up = [] \/ 1 < b2. Proof. destruct (nil_dec (moment_upperbounds p)) as [E|E]; [left; now apply up_empty|right; rewrite (next_ne 1) by assumption; lia]. Qed.
Lemma lo_or : lo = [] \/ b2 < b3. Proof. destruct (nil_dec (moment_lowerbounds p)) as [E|E]; [left; now apply lo_empty|right; rewrite (next_ne b2) by assumption; lia]. Qed.
Lemma eqs_or : eqs = [] \/ b3 < b4. Proof. destruct (nil_dec (moment_equalities p)) as [E|E]; [left; now apply eqs_empty|right; rewrite (next_ne b3) by assumption; lia]. Qed.
Lemma ineqs_or : ineqs = [] \/ b4 < b5. Proof. destruct (nil_dec (moment_inequalities p)) as [E|E]; [left; now apply ineqs_empty|right; rewrite (next_ne b4) by assumption; lia]. Qed.

Lemma isolate x b r c :
  bsum x b r c all = (bsum x b r c mat + (bsum x b r c up + (bsum x b r c lo + (bsum x b r c eqs + bsum x b r c ineqs))))%Qc.
Proof. now rewrite !bsum_app. Qed.
Lemma orders : (up = [] \/ 1 < b2) /\ (lo = [] \/ b2 < b3) /\ (eqs = [] \/ b3 < b4) /\ (ineqs = [] \/ b4 < b5) /\ 1 <= b2 /\ b2 <= b3 /\ b3 <= b4 /\ b4 <= b5.
Proof. repeat split; first [exact up_or|exact lo_or|exact eqs_or|exact ineqs_or|apply next_le]. Qed.
Lemma isolate_mat x r c : bsum x 1 r c all = bsum x 1 r c mat.
Proof.
  rewrite isolate. destruct orders as (h1 & h2 & h3 & h4 & h5 & h6 & h7 & h8).
  assert (bsum x 1 r c up = 0%Qc) as -> by (apply (bsum_other _ _ b2); [intros l hl; now apply up_shape|destruct h1; [now left|right; lia]]).
  assert (bsum x 1 r c lo = 0%Qc) as -> by (apply (bsum_other _ _ b3); [intros l hl; now apply lo_shape|destruct h2; [now left|right; lia]]).
  assert (bsum x 1 r c eqs = 0%Qc) as -> by (apply (bsum_other _ _ b4); [intros l hl; now apply eqs_shape|destruct h3; [now left|right; lia]]).
  assert (bsum x 1 r c ineqs = 0%Qc) as -> by (apply (bsum_other _ _ b5); [intros l hl; now apply ineqs_shape|destruct h4; [now left|right; lia]]).
  ring.
Qed.
Lemma isolate_up x r c : moment_upperbounds p <> [] -> bsum x b2 r c all = bsum x b2 r c up.
Proof.
  intros hne. rewrite isolate. destruct orders as (h1 & h2 & h3 & h4 & h5 & h6 & h7 & h8). pose proof (next_ne 1 _ hne).
  assert (bsum x b2 r c mat = 0%Qc) as -> by (apply (bsum_other _ _ 1); [intros l hl; now apply mat_shape|right; lia]).
  assert (bsum x b2 r c lo = 0%Qc) as -> by (apply (bsum_other _ _ b3); [intros l hl; now apply lo_shape|destruct h2; [now left|right; lia]]).
  assert (bsum x b2 r c eqs = 0%Qc) as -> by (apply (bsum_other _ _ b4); [intros l hl; now apply eqs_shape|destruct h3; [now left|right; lia]]).
  assert (bsum x b2 r c ineqs = 0%Qc) as -> by (apply (bsum_other _ _ b5); [intros l hl; now apply ineqs_shape|destruct h4; [now left|right; lia]]).
  ring.
Qed.
Lemma isolate_lo x r c : moment_lowerbounds p <> [] -> bsum x b3 r c all = bsum x b3 r c lo.
Proof.
  intros hne. rewrite isolate. destruct orders as (h1 & h2 & h3 & h4 & h5 & h6 & h7 & h8). pose proof (next_ne b2 _ hne).
  assert (bsum x b3 r c mat = 0%Qc) as -> by (apply (bsum_other _ _ 1); [intros l hl; now apply mat_shape|right; lia]).
  assert (bsum x b3 r c up = 0%Qc) as -> by (apply (bsum_other _ _ b2); [intros l hl; now apply up_shape|right; lia]).
  assert (bsum x b3 r c eqs = 0%Qc) as -> by (apply (bsum_other _ _ b4); [intros l hl; now apply eqs_shape|destruct h3; [now left|right; lia]]).
  assert (bsum x b3 r c ineqs = 0%Qc) as -> by (apply (bsum_other _ _ b5); [intros l hl; now apply ineqs_shape|destruct h4; [now left|right; lia]]).
  ring.
Qed.
Lemma isolate_eqs x r c : moment_equalities p <> [] -> bsum x b4 r c all = bsum x b4 r c eqs.
Proof.
  intros hne. rewrite isolate. destruct orders as (h1 & h2 & h3 & h4 & h5 & h6 & h7 & h8). pose proof (next_ne b3 _ hne).
  assert (bsum x b4 r c mat = 0%Qc) as -> by (apply (bsum_other _ _ 1); [intros l hl; now apply mat_shape|right; lia]).
  assert (bsum x b4 r c up = 0%Qc) as -> by (apply (bsum_other _ _ b2); [intros l hl; now apply up_shape|right; lia]).
  assert (bsum x b4 r c lo = 0%Qc) as -> by (apply (bsum_other _ _ b3); [intros l hl; now apply lo_shape|right; lia]).
  assert (bsum x b4 r c ineqs = 0%Qc) as -> by (apply (bsum_other _ _ b5); [intros l hl; now apply ineqs_shape|destruct h4; [now left|right; lia]]).
  ring.
Qed.
Lemma isolate_ineqs x r c : moment_inequalities p <> [] -> bsum x b5 r c all = bsum x b5 r c ineqs.
Proof.
  intros hne. rewrite isolate. destruct orders as (h1 & h2 & h3 & h4 & h5 & h6 & h7 & h8). pose proof (next_ne b4 _ hne).
  assert (bsum x b5 r c mat = 0%Qc) as -> by (apply (bsum_other _ _ 1); [intros l hl; now apply mat_shape|right; lia]).
  assert (bsum x b5 r c up = 0%Qc) as -> by (apply (bsum_other _ _ b2); [intros l hl; now apply up_shape|right; lia]).
  assert (bsum x b5 r c lo = 0%Qc) as -> by (apply (bsum_other _ _ b3); [intros l hl; now apply lo_shape|right; lia]).
  assert (bsum x b5 r c eqs = 0%Qc) as -> by (apply (bsum_other _ _ b4); [intros l hl; now apply eqs_shape|right; lia]).
  ring.
Qed.

Definition the_file : file :=
  {| f_nvars := nvars p; f_nblocks := b5;
     f_blockstruct :=
       Z.of_nat n
       :: block_entry (moment_upperbounds p) (number_bounded p (moment_upperbounds p))
       ++ block_entry (moment_lowerbounds p) (number_bounded p (moment_lowerbounds p))
       ++ block_entry (moment_equalities p) (2 * length (moment_equalities p))
       ++ block_entry (moment_inequalities p) (length (moment_inequalities p));
     f_objective := o;
     f_lines := sort_lines all |}.
Lemma slack_eq x b i j : slack the_file x b i j = bsum x b (S (Nat.min i j)) (S (Nat.max i j)) all.
Proof. unfold slack. cbn [f_lines the_file]. rewrite <- (bsum_perm _ _ _ _ _ _ (sort_perm all)). reflexivity. Qed.

(** the five blocks *)
Lemma blocks (P : nat -> Z -> Prop) :
  (forall b s, nth_error (f_blockstruct the_file) b = Some s -> P (S b) s) <->
  P 1 (Z.of_nat n) /\
  (moment_upperbounds p <> [] -> P b2 (- Z.of_nat (number_bounded p (moment_upperbounds p)))%Z) /\
  (moment_lowerbounds p <> [] -> P b3 (- Z.of_nat (number_bounded p (moment_lowerbounds p)))%Z) /\
  (moment_equalities p <> [] -> P b4 (- Z.of_nat (2 * length (moment_equalities p)))%Z) /\
  (moment_inequalities p <> [] -> P b5 (- Z.of_nat (length (moment_inequalities p)))%Z).
Proof.
  unfold the_file, block_entry. cbn [f_blockstruct].
  generalize (number_bounded p (moment_upperbounds p)) (number_bounded p (moment_lowerbounds p)) (2 * length (moment_equalities p)) (length (moment_inequalities p)).
  intros k1 k2 k3 k4.
  destruct (moment_upperbounds p) as [|u us], (moment_lowerbounds p) as [|l ls], (moment_equalities p) as [|e es], (moment_inequalities p) as [|i is];
    cbn [app next_block]; (split;
    [ intros h; split; [apply (h 0); reflexivity|]; repeat split; intros hne; try congruence;
      first [apply (h 1); reflexivity | apply (h 2); reflexivity | apply (h 3); reflexivity | apply (h 4); reflexivity]
    | intros (h0 & h1 & h2 & h3 & h4) b s hb; destruct b as [|[|[|[|[|b]]]]]; cbn [nth_error] in hb; try discriminate; try (destruct b; discriminate);
      injection hb as <-; first [exact h0 | apply h1; discriminate | apply h2; discriminate | apply h3; discriminate | apply h4; discriminate] ]).
Qed.

Section Point.
Variables (v x : nat -> Qc).
Hypothesis hv : respects p v.
Hypothesis hx : forall k, k < length ms -> x (S k) = v (nth k ms 0).
Lemma bsum_point b r c : bsum x b r c all = bsum (point ms v) b r c all.
Proof.
  apply bsum_ext. intros l hl hne. pose proof (all_vars l hl). unfold point.
  replace (l_var l) with (S (l_var l - 1)) at 1 by lia. apply hx. lia.
Qed.
Lemma rest_minus b : exact_bound b -> (0 <= b)%Qc -> rest_of Minus b = (- b)%Qc.
Proof.
  intros hb h0. unfold rest_of, not_tiny, qltb. destruct (Qclt_le_dec atol (qabs b)) as [h|h].
  - unfold num, number, qltb. destruct (Qclt_le_dec b 0) as [l0|_]; [exfalso; exact (Qclt_not_le _ _ l0 h0)|reflexivity].
  - destruct hb as [->|hb]; [ring|]. exfalso. exact (Qcle_not_lt _ _ h hb).
Qed.
Lemma rest_plain b : exact_bound b -> rest_of Plain b = b.
Proof.
  intros hb. unfold rest_of, not_tiny, qltb. destruct (Qclt_le_dec atol (qabs b)) as [h|h]; [reflexivity|].
  destruct hb as [->|hb]; [reflexivity|]. exfalso. exact (Qcle_not_lt _ _ h hb).
Qed.
Theorem feasible_iff : file_feasible the_file x <-> feasible_but_bounds p v.
Proof.
  unfold file_feasible. rewrite (blocks (fun b s => block_holds s (slack the_file x b))).
  unfold feasible_but_bounds, constraints. rewrite block_holds_matrix, !block_holds_diagonal.
  assert (psd n (slack the_file x 1) <-> psd n (fun i j => v (entry p i j))) as ->.
  { assert (forall i j, i < n -> j < n -> slack the_file x 1 i j = v (entry p i j)) as h.
    { intros i j hi hj. rewrite slack_eq, bsum_point, isolate_mat.
      rewrite (matrix_sum p hwf ms hms hvar v hv hpos); [|lia|lia|lia]. f_equal.
      destruct (Nat.min_spec i j) as [[h1 ->]|[h1 ->]], (Nat.max_spec i j) as [[h2 ->]|[h2 ->]]; try lia; try reflexivity. now apply (wf_symmetric _ hwf). }
    split; apply psd_ext; intros; [|symmetry]; now apply h. }
  assert (forall b i, slack the_file x b i i = bsum (point ms v) b (S i) (S i) all) as hd.
  { intros b i. rewrite slack_eq, Nat.min_id, Nat.max_id. apply bsum_point. }
  assert ((moment_upperbounds p <> [] -> forall i, i < number_bounded p (moment_upperbounds p) -> (0 <= slack the_file x b2 i i)%Qc) <->
          (forall m b, In (m, b) (moment_upperbounds p) -> free p m -> (v m <= b)%Qc)) as ->.
  { pose proof (bound_lines_hold p ms hms v _ _ _ _ _ _ hU) as h. split.
    - intros h' m b hin hf. assert (moment_upperbounds p <> []) as hne by (intros e; rewrite e in hin; destruct hin).
      assert (0 <= - (1) * v m - rest_of Minus b)%Qc as g.
      { apply (proj1 h); [|assumption|now apply bounded_here_iff]. intros r hr. rewrite <- isolate_up by assumption.
        replace r with (S (r - 1)) by lia. rewrite <- hd. apply h'; [assumption|lia]. }
      destruct (hup _ _ hin hf) as (e1 & e2). rewrite (rest_minus b e1 e2) in g. qclra.
    - intros h' hne i hi. rewrite hd, isolate_up by assumption. apply (proj2 h); [|lia]. intros m b hin hb. apply bounded_here_iff in hb.
      destruct (hup _ _ hin hb) as (e1 & e2). rewrite (rest_minus b e1 e2). specialize (h' _ _ hin hb). qclra. }
  assert ((moment_lowerbounds p <> [] -> forall i, i < number_bounded p (moment_lowerbounds p) -> (0 <= slack the_file x b3 i i)%Qc) <->
          (forall m b, In (m, b) (moment_lowerbounds p) -> free p m -> (b <= v m)%Qc)) as ->.
  { pose proof (bound_lines_hold p ms hms v _ _ _ _ _ _ hL) as h. split.
    - intros h' m b hin hf. assert (moment_lowerbounds p <> []) as hne by (intros e; rewrite e in hin; destruct hin).
      assert (0 <= 1 * v m - rest_of Plain b)%Qc as g.
      { apply (proj1 h); [|assumption|now apply bounded_here_iff]. intros r hr. rewrite <- isolate_lo by assumption.
        replace r with (S (r - 1)) by lia. rewrite <- hd. apply h'; [assumption|lia]. }
      rewrite (rest_plain b (hlo _ _ hin hf)) in g. qclra.
    - intros h' hne i hi. rewrite hd, isolate_lo by assumption. apply (proj2 h); [|lia]. intros m b hin hb. apply bounded_here_iff in hb.
      rewrite (rest_plain b (hlo _ _ hin hb)). specialize (h' _ _ hin hb). qclra. }
  assert ((moment_equalities p <> [] -> forall i, i < 2 * length (moment_equalities p) -> (0 <= slack the_file x b4 i i)%Qc) <->
          (forall d, In d (moment_equalities p) -> combination d v = 0%Qc)) as ->.
  { pose proof (equality_lines_hold p ms hms v hv _ _ _ _ hE) as h. split.
    - intros h' d hin. assert (moment_equalities p <> []) as hne by (intros e; rewrite e in hin; destruct hin).
      apply (proj1 h); [|assumption]. intros r hr. rewrite <- isolate_eqs by assumption. replace r with (S (r - 1)) by lia. rewrite <- hd. apply h'; [assumption|lia].
    - intros h' hne i hi. rewrite hd, isolate_eqs by assumption. apply (proj2 h); [assumption|lia]. }
  assert ((moment_inequalities p <> [] -> forall i, i < length (moment_inequalities p) -> (0 <= slack the_file x b5 i i)%Qc) <->
          (forall d, In d (moment_inequalities p) -> (0 <= combination d v)%Qc)) as ->.
  { split.
    - intros h' d hin. assert (moment_inequalities p <> []) as hne by (intros e; rewrite e in hin; destruct hin).
      assert (length (moment_inequalities p) = 1) as hl by (destruct (moment_inequalities p); [congruence|cbn [length] in *; lia]).
      pose proof (h' hne 0 ltac:(lia)) as g. rewrite hd, isolate_ineqs in g by assumption.
      revert hI g hin hl. generalize b5. intros b. destruct (moment_inequalities p) as [|d0 [|d1 r]]; cbn [length]; intros e g hin hl; try lia.
      destruct (inequality_lines_one p ms hms v hv _ _ _ e) as (h1 & _). rewrite h1 in g. destruct hin as [<-|[]]. exact g.
    - intros h' hne i hi. rewrite hd, isolate_ineqs by assumption.
      revert hI h' hi hineq. generalize b5. intros b. destruct (moment_inequalities p) as [|d0 [|d1 r]]; cbn [length]; intros e h' hi hl; try lia.
      replace i with 0 by lia. destruct (inequality_lines_one p ms hms v hv _ _ _ e) as (h1 & _). rewrite h1. apply h'. now left. }
  reflexivity.
Qed.

Lemma objective_beyond l : forall o1 o2, fold_left (objective_entry (number_from 1 ms)) l (Some o1) = Some o2 ->
  forall k, length ms <= k -> nth k o2 0%Qc = nth k o1 0%Qc.
Proof.
  induction l as [|[k c] l IH]; intros o1 o2 h j hj; cbn [fold_left objective_entry fst snd] in h; [congruence|].
  destruct (k =? 1); [now apply IH|].
  destruct (iget k (number_from 1 ms)) as [i|] eqn:Ei; [|rewrite fold_objective_none in h; discriminate].
  destruct (set_nth (i - 1) c o1) as [o1'|] eqn:Eo; [|rewrite fold_objective_none in h; discriminate].
  rewrite (IH _ _ h j hj). destruct (set_nth_spec _ _ _ _ Eo) as (_ & _ & e3 & _). rewrite e3.
  destruct (point_get ms hms v k i Ei) as (_ & hi). destruct (Nat.eqb_spec j (i - 1)); [lia|reflexivity].
Qed.
Theorem value_eq : file_value the_file x = (value p v - constant p)%Qc /\ Z.of_nat (length o) = nvars p /\ (0 <= nvars p)%Z.
Proof.
  revert ho. unfold objective_array. destruct (Z.ltb_spec (nvars p) 0) as [|hn]; [discriminate|]. intros h.
  assert (forall k j, nth j (repeat 0%Qc k) 0%Qc = 0%Qc) as hr.
  { induction k as [|k IH]; intros [|j]; try reflexivity. apply IH. }
  destruct (objective_fold ms v hms (proj1 (proj2 hv)) (objective p) (wf_objective_keys _ hwf) _ _ h) as (h1 & h2); [intros; apply hr|].
  rewrite repeat_length in h1. split; [|split; [lia|assumption]].
  unfold file_value. cbn [f_objective the_file]. fold (dotx o x).
  assert (dotx o x = dotx o (point ms v)) as ->.
  { unfold dotx. apply sumn_ext. intros k hk. destruct (le_lt_dec (length ms) k) as [hge|hlt].
    - rewrite (objective_beyond _ _ _ h k hge), hr. ring.
    - rewrite hx by assumption. unfold point. now replace (S k - 1) with k by lia. }
  rewrite h2. unfold value, constant.
  assert (dotx (repeat 0%Qc (Z.to_nat (nvars p))) (point ms v) = 0%Qc) as ->.
  { unfold dotx. rewrite (sumn_ext _ _ (fun _ => 0%Qc)); [apply sumn_0|]. intros k hk. rewrite hr. ring. }
  ring.
Qed.
End Point.

Theorem file_well_formed : well_formed the_file.
Proof.
  destruct some_v as (v & hv).
  destruct (value_eq v (point ms v) hv) as (_ & ho1 & ho2); [intros k hk; unfold point; now rewrite Nat.sub_1_r|].
  split; [exact ho2|]. split; [|split; [exact ho1|]].
  - unfold the_file, block_entry. cbn [f_blockstruct f_nblocks].
    destruct (moment_upperbounds p) as [|u us], (moment_lowerbounds p) as [|l ls], (moment_equalities p) as [|e es], (moment_inequalities p) as [|i is]; reflexivity.
  - intros l hl. cbn [f_lines the_file] in hl. apply (Permutation_in _ (sort_perm all)) in hl.
    pose proof (all_vars l hl) as hvars. pose proof (count_le p hwf ms hms hvar ho2) as hc.
    assert (number (l_text l) <> None /\ 1 <= l_block l /\ 1 <= l_row l <= l_col l /\
      ((l_block l = 1 /\ l_col l <= n) \/
       (l_block l = b2 /\ moment_upperbounds p <> [] /\ l_col l <= number_bounded p (moment_upperbounds p) /\ l_row l = l_col l) \/
       (l_block l = b3 /\ moment_lowerbounds p <> [] /\ l_col l <= number_bounded p (moment_lowerbounds p) /\ l_row l = l_col l) \/
       (l_block l = b4 /\ moment_equalities p <> [] /\ l_col l <= 2 * length (moment_equalities p) /\ l_row l = l_col l) \/
       (l_block l = b5 /\ moment_inequalities p <> [] /\ l_col l <= length (moment_inequalities p) /\ l_row l = l_col l))) as (a1 & a2 & a3 & a4).
    { destruct orders as (_ & _ & _ & _ & h5 & h6 & h7 & h8).
      rewrite !in_app_iff in hl. destruct hl as [h|[h|[h|[h|h]]]].
      - apply mat_shape in h. destruct h as (c1 & c2 & c3 & c4 & c5). repeat split; try assumption; try lia; tauto.
      - assert (moment_upperbounds p <> []) by (intros e; rewrite (up_empty e) in h; destruct h).
        apply up_shape in h. destruct h as (c1 & c2 & c3 & c4 & c5). repeat split; try assumption; try lia. right; left. repeat split; try assumption. lia.
      - assert (moment_lowerbounds p <> []) by (intros e; rewrite (lo_empty e) in h; destruct h).
        apply lo_shape in h. destruct h as (c1 & c2 & c3 & c4 & c5). repeat split; try assumption; try lia. right; right; left. repeat split; try assumption. lia.
      - assert (moment_equalities p <> []) by (intros e; rewrite (eqs_empty e) in h; destruct h).
        apply eqs_shape in h. destruct h as (c1 & c2 & c3 & c4 & c5). repeat split; try assumption; try lia. right; right; right; left. repeat split; try assumption. lia.
      - assert (moment_inequalities p <> []) by (intros e; rewrite (ineqs_empty e) in h; destruct h).
        apply ineqs_shape in h. destruct h as (c1 & c2 & c3 & c4 & c5). repeat split; try assumption; try lia. right; right; right; right. repeat split; try assumption. lia. }
    split; [assumption|]. cbn [f_nvars the_file]. split; [lia|].
    destruct (blocks (fun b s => nth_error (f_blockstruct the_file) (b - 1) = Some s)) as [hb _].
    destruct hb as (B1 & B2 & B3 & B4 & B5). { intros b s hb. replace (S b - 1) with b by lia. exact hb. }
    destruct a4 as [(e & c)|[(e & ne & c & d)|[(e & ne & c & d)|[(e & ne & c & d)|(e & ne & c & d)]]]]; rewrite e.
    + exists (Z.of_nat n). repeat split; try assumption; try lia.
    + exists (- Z.of_nat (number_bounded p (moment_upperbounds p)))%Z. split; [now apply B2|]. repeat split; try assumption; try lia.
    + exists (- Z.of_nat (number_bounded p (moment_lowerbounds p)))%Z. split; [now apply B3|]. repeat split; try assumption; try lia.
    + exists (- Z.of_nat (2 * length (moment_equalities p)))%Z. split; [now apply B4|]. repeat split; try assumption; try lia.
    + exists (- Z.of_nat (length (moment_inequalities p)))%Z. split; [now apply B5|]. repeat split; try assumption; try lia.
Qed.
End Whole.
