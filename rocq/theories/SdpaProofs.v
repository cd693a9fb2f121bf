(** The scan of the moment matrix by the SDPA writer. *)
From Coq Require Import List Arith Bool Lia QArith Qcanon Permutation.
From Verif Require Import MargModel QcSum QcArith Duality SearchModel ProgramModel ProgramProofs SDPSolveModel SDPSolveSpec SdpaModel SdpaSpec.
From Coq Require Import ZArith.
Import ListNotations.
Open Scope nat_scope.

Lemma imem_iff k l : imem k l = true <-> In k l.
Proof. unfold imem. destruct (in_dec Nat.eq_dec k l); intuition congruence. Qed.

(** ** Sums over the lines of an entry *)
Definition sel (b r c : nat) (l : line) : bool := (l_block l =? b) && (l_row l =? r) && (l_col l =? c).
Definition bsum (x : nat -> Qc) (b r c : nat) (ls : list line) : Qc := sumQ (map (coefficient x) (filter (sel b r c) ls)).
Lemma bsum_app x b r c l l' : bsum x b r c (l ++ l') = (bsum x b r c l + bsum x b r c l')%Qc.
Proof. unfold bsum. now rewrite filter_app, map_app, sumQ_app. Qed.
Lemma bsum_nil x b r c : bsum x b r c [] = 0%Qc. Proof. reflexivity. Qed.
Lemma bsum_cons x b r c a l : bsum x b r c (a :: l) = ((if sel b r c a then coefficient x a else 0) + bsum x b r c l)%Qc.
Proof. unfold bsum. cbn [filter]. destruct (sel b r c a); cbn [map]; [now rewrite sumQ_cons|ring]. Qed.
Lemma bsum_none x b r c ls : (forall l, In l ls -> sel b r c l = false) -> bsum x b r c ls = 0%Qc.
Proof.
  induction ls as [|a ls IH]; intros h; [reflexivity|]. rewrite bsum_cons, (h a) by now left. rewrite IH; [ring|].
  intros l hl. apply h. now right.
Qed.
Lemma bsum_perm x b r c l l' : Permutation l l' -> bsum x b r c l = bsum x b r c l'.
Proof.
  intros h. unfold bsum. apply sumQ_perm, Permutation_map. clear -h.
  induction h; cbn [filter]; [constructor| | |etransitivity; eassumption].
  - destruct (sel b r c x); [now constructor|assumption].
  - destruct (sel b r c x), (sel b r c y); try apply Permutation_refl. constructor.
Qed.
Lemma bsum_ext x y b r c ls : (forall l, In l ls -> l_var l <> 0 -> x (l_var l) = y (l_var l)) -> bsum x b r c ls = bsum y b r c ls.
Proof.
  intros h. unfold bsum. apply sumQ_ext. intros l hl. apply filter_In in hl. unfold coefficient.
  destruct (Nat.eqb_spec (l_var l) 0) as [_|n]; [reflexivity|]. now rewrite (h l (proj1 hl) n).
Qed.

Lemma insert_perm a l : Permutation (insert_line a l) (a :: l).
Proof.
  induction l as [|b l IH]; cbn [insert_line]; [apply Permutation_refl|]. destruct (line_leb a b); [apply Permutation_refl|].
  etransitivity; [apply perm_skip, IH|]. constructor.
Qed.
Lemma sort_perm l : Permutation (sort_lines l) l.
Proof. induction l as [|a l IH]; [constructor|]. cbn [sort_lines fold_right]. etransitivity; [apply insert_perm|]. now constructor. Qed.

(** ** Positions *)
Lemma combine_seq {A} (d : A) (l : list A) k : combine (seq k (length l)) l = map (fun i => (k + i, nth i l d)) (seq 0 (length l)).
Proof.
  revert k; induction l as [|a l IH]; intros k; [reflexivity|]. cbn [length seq combine map].
  rewrite Nat.add_0_r. f_equal. rewrite IH, <- seq_shift, map_map. apply map_ext. intros i. cbn [nth]. f_equal. lia.
Qed.
Definition row_positions (p : problem) (n ii : nat) : list (nat * nat * nat) := map (fun jj => (ii, jj, entry p ii jj)) (seq 0 n).
Lemma flat_map_ext_in {A B} (f g : A -> list B) l : (forall a, In a l -> f a = g a) -> flat_map f l = flat_map g l.
Proof. induction l as [|a l IH]; intros h; [reflexivity|]. cbn [flat_map]. rewrite h by now left. f_equal. apply IH. intros. apply h. now right. Qed.
Lemma positions_eq p : (forall row, In row (momentmatrix p) -> length row = length (momentmatrix p)) ->
  positions p = flat_map (row_positions p (length (momentmatrix p))) (seq 0 (length (momentmatrix p))).
Proof.
  intros h. unfold positions. rewrite (combine_seq []), flat_map_concat_map, map_map, <- flat_map_concat_map.
  apply flat_map_ext_in. intros ii hi. apply in_seq in hi. cbn [Nat.add].
  rewrite (combine_seq 0), map_map. unfold row_positions, entry.
  rewrite (h (nth ii (momentmatrix p) [])) by (apply nth_In; lia). apply map_ext. intros j. reflexivity.
Qed.
Lemma positions_in p ii jj m : (forall row, In row (momentmatrix p) -> length row = length (momentmatrix p)) ->
  In (ii, jj, m) (positions p) <-> ii < length (momentmatrix p) /\ jj < length (momentmatrix p) /\ m = entry p ii jj.
Proof.
  intros h. rewrite (positions_eq p h), in_flat_map. split.
  - intros (i & hi & hm). apply in_seq in hi. apply in_map_iff in hm. destruct hm as (j & e & hj). apply in_seq in hj.
    injection e as -> -> <-. intuition lia.
  - intros (hi & hj & ->). exists ii. rewrite in_seq. split; [lia|]. apply in_map_iff. exists jj. rewrite in_seq. split; [reflexivity|lia].
Qed.
Lemma in_entries p m : (forall row, In row (momentmatrix p) -> length row = length (momentmatrix p)) ->
  In m (entries p) <-> exists i j, i < length (momentmatrix p) /\ j < length (momentmatrix p) /\ m = entry p i j.
Proof.
  intros h. unfold entries. rewrite in_concat. split.
  - intros (row & hr & hm). pose proof (h _ hr) as hl. apply In_nth with (d := []) in hr. destruct hr as (i & hi & <-).
    apply In_nth with (d := 0) in hm. destruct hm as (j & hj & <-). exists i, j. rewrite hl in hj. unfold entry. auto.
  - intros (i & j & hi & hj & ->). exists (nth i (momentmatrix p) []). split; [now apply nth_In|].
    unfold entry. apply nth_In. rewrite h; [assumption|now apply nth_In].
Qed.

(** ** The numbering *)
Fixpoint number_from (k : nat) (ms : list nat) : idict nat :=
  match ms with [] => [] | m :: ms' => (m, k) :: number_from (S k) ms' end.
Lemma number_keys k ms : keys (number_from k ms) = ms.
Proof. revert k; induction ms as [|m ms IH]; intros k; [reflexivity|]. cbn [number_from keys map fst]. f_equal. apply IH. Qed.
Lemma number_app k ms m : ~ In m ms -> iset m (k + length ms) (number_from k ms) = number_from k (ms ++ [m]).
Proof.
  revert k; induction ms as [|a ms IH]; intros k h; cbn [number_from app length].
  - unfold iset. cbn [set]. now rewrite Nat.add_0_r.
  - unfold iset in *. cbn [set]. destruct (Nat.eq_dec m a) as [->|n]; [exfalso; apply h; now left|]. f_equal.
    replace (k + S (length ms)) with (S k + length ms) by lia. apply IH. intros ?; apply h; now right.
Qed.
Lemma number_get k ms m i : NoDup ms -> iget m (number_from k ms) = Some i <-> exists j, nth_error ms j = Some m /\ i = k + j.
Proof.
  unfold iget. intros hn. revert k; induction ms as [|a ms IH]; intros k; cbn [number_from get].
  - split; [discriminate|]. intros ([|j] & h & _); discriminate.
  - apply NoDup_cons_iff in hn. destruct hn as [ha hn]. specialize (IH hn). destruct (Nat.eq_dec m a) as [->|n].
    + split.
      * intros e. injection e as <-. exists 0. split; [reflexivity|lia].
      * intros ([|j] & h & ->); [f_equal; lia|]. cbn [nth_error] in h. exfalso. apply ha. eapply nth_error_In; eassumption.
    + rewrite IH. split.
      * intros (j & h & ->). exists (S j). split; [assumption|lia].
      * intros ([|j] & h & ->); cbn [nth_error] in h; [congruence|]. exists j. split; [assumption|lia].
Qed.
Lemma number_get_none k ms m : iget m (number_from k ms) = None <-> ~ In m ms.
Proof. unfold iget. rewrite get_none. now rewrite number_keys. Qed.
Lemma number_get_app k ms ms' m i : iget m (number_from k ms) = Some i -> iget m (number_from k (ms ++ ms')) = Some i.
Proof.
  unfold iget. revert k; induction ms as [|a ms IH]; intros k; cbn [number_from get app]; [discriminate|].
  destruct (Nat.eq_dec m a); [tauto|]. apply IH.
Qed.

(** which variable and coefficient an entry has *)
Inductive meaning := Nothing | Const (t : text) | Var (m : nat) (c : Qc).
Definition meaning_of (p : problem) (var : nat) : meaning :=
  if var =? 0 then Nothing else if var =? 1 then Const (Plain (- (1))%Qc)
  else match iget var (known_moments p) with
       | Some c => Const (Minus (qabs c))
       | None => match iget var (semiknown_moments p) with Some (c, m) => Var m c | None => Var var 1%Qc end
       end.
Definition lines_of (p : problem) (ms : list nat) (e : nat * nat * nat) : list line :=
  let '(ii, jj, var) := e in
  if jj <? ii then []
  else match meaning_of p var with
       | Nothing => []
       | Const t => [{| l_var := 0; l_block := 1; l_row := S ii; l_col := S jj; l_text := t |}]
       | Var m c => match iget m (number_from 1 ms) with
                    | Some v => [{| l_var := v; l_block := 1; l_row := S ii; l_col := S jj; l_text := Plain c |}]
                    | None => []
                    end
       end.
Definition introduces (p : problem) (e : nat * nat * nat) (m : nat) : Prop :=
  let '(ii, jj, var) := e in ii <= jj /\ exists c, meaning_of p var = Var m c.

Lemma scan_fold p ps : forall s ms, s_corresp s = number_from 1 ms -> s_new s = S (length ms) -> NoDup ms ->
  exists ms', s_corresp (fold_left (scan_entry p) ps s) = number_from 1 (ms ++ ms') /\ NoDup (ms ++ ms') /\
    (forall m, In m (ms ++ ms') <-> In m ms \/ exists e, In e ps /\ introduces p e m) /\
    forall ms'', s_lines (fold_left (scan_entry p) ps s) = s_lines s ++ flat_map (lines_of p ((ms ++ ms') ++ ms'')) ps.
Proof.
  induction ps as [|[[ii jj] var] ps IH]; intros s ms hc hs hn.
  - exists []. rewrite app_nil_r. cbn [fold_left flat_map]. repeat split; try assumption; intros; rewrite ?app_nil_r; firstorder.
  - cbn [fold_left].
    assert (exists ms1, s_corresp (scan_entry p s (ii, jj, var)) = number_from 1 (ms ++ ms1) /\
              s_new (scan_entry p s (ii, jj, var)) = S (length (ms ++ ms1)) /\ NoDup (ms ++ ms1) /\
              (forall m, In m (ms ++ ms1) <-> In m ms \/ introduces p (ii, jj, var) m) /\
              forall ms'', s_lines (scan_entry p s (ii, jj, var)) = s_lines s ++ lines_of p ((ms ++ ms1) ++ ms'') (ii, jj, var)) as (ms1 & h1 & h2 & h3 & h4 & h5).
    { assert (forall m c, meaning_of p var = Var m c -> ii <= jj ->
        exists ms1, s_corresp (emit_var m ii jj c s) = number_from 1 (ms ++ ms1) /\
              s_new (emit_var m ii jj c s) = S (length (ms ++ ms1)) /\ NoDup (ms ++ ms1) /\
              (forall m', In m' (ms ++ ms1) <-> In m' ms \/ introduces p (ii, jj, var) m') /\
              forall ms'', s_lines (emit_var m ii jj c s) = s_lines s ++ lines_of p ((ms ++ ms1) ++ ms'') (ii, jj, var)) as aux.
      { intros m c hm hij. unfold emit_var. rewrite hc.
        assert (forall m', introduces p (ii, jj, var) m' <-> m' = m) as hint.
        { intros m'. unfold introduces. rewrite hm. split; [intros (_ & c' & e); congruence|intros ->; eauto]. }
        destruct (iget m (number_from 1 ms)) as [v|] eqn:E.
        - exists []. rewrite app_nil_r. cbn [emit s_corresp s_new s_lines]. repeat split; try assumption.
          + now left.
          + intros [h|h]; [assumption|]. apply hint in h. subst m'. apply (proj1 (number_get 1 ms m v hn)) in E.
            destruct E as (j & h & _). eapply nth_error_In; eassumption.
          + intros ms''. unfold lines_of. replace (jj <? ii) with false by (symmetry; apply Nat.ltb_ge; assumption).
            rewrite hm. rewrite (number_get_app 1 ms ms'' m v E). reflexivity.
        - exists [m]. cbn [s_corresp s_new s_lines]. apply number_get_none in E. rewrite hs.
          split; [now rewrite <- (number_app 1 ms m E)|]. split; [rewrite app_length; cbn [length]; lia|].
          assert (NoDup (ms ++ [m])) as hn'.
          { apply Permutation_NoDup with (m :: ms); [apply Permutation_cons_append|now constructor]. }
          split; [assumption|]. split.
          + intros m'. rewrite in_app_iff, hint. cbn [In]. intuition congruence.
          + intros ms''. f_equal. unfold lines_of. replace (jj <? ii) with false by (symmetry; apply Nat.ltb_ge; assumption).
            rewrite hm. rewrite (number_get_app 1 (ms ++ [m]) ms'' m (S (length ms))); [reflexivity|].
            apply (number_get 1 (ms ++ [m]) m _ hn'). exists (length ms). split; [|reflexivity].
            rewrite nth_error_app2, Nat.sub_diag by lia. reflexivity. }
      unfold scan_entry. destruct (Nat.ltb_spec jj ii) as [hlt|hge].
      { exists []. rewrite app_nil_r. repeat split; try assumption; try tauto.
        - intros [h|h]; [assumption|]. cbn in h. lia.
        - intros ms''. unfold lines_of. replace (jj <? ii) with true by (symmetry; apply Nat.ltb_lt; assumption). now rewrite app_nil_r. }
      unfold meaning_of in aux.
      destruct (var =? 0) eqn:E0; [|destruct (var =? 1) eqn:E1; [|destruct (iget var (known_moments p)) as [c|] eqn:Ek;
        [|destruct (iget var (semiknown_moments p)) as [[c m]|] eqn:Es]]].
      - exists []. rewrite app_nil_r. repeat split; try assumption; try tauto.
        + intros [h|(_ & c & h)]; [assumption|]. unfold meaning_of in h. rewrite E0 in h. discriminate.
        + intros ms''. unfold lines_of, meaning_of. rewrite E0. replace (jj <? ii) with false by (symmetry; apply Nat.ltb_ge; assumption). now rewrite app_nil_r.
      - exists []. rewrite app_nil_r. cbn [emit s_corresp s_new s_lines]. repeat split; try assumption; try tauto.
        + intros [h|(_ & c & h)]; [assumption|]. unfold meaning_of in h. rewrite E0, E1 in h. discriminate.
        + intros ms''. unfold lines_of, meaning_of. rewrite E0, E1. replace (jj <? ii) with false by (symmetry; apply Nat.ltb_ge; assumption). reflexivity.
      - exists []. rewrite app_nil_r. cbn [emit s_corresp s_new s_lines]. repeat split; try assumption; try tauto.
        + intros [h|(_ & c' & h)]; [assumption|]. unfold meaning_of in h. rewrite E0, E1, Ek in h. discriminate.
        + intros ms''. unfold lines_of, meaning_of. rewrite E0, E1, Ek. replace (jj <? ii) with false by (symmetry; apply Nat.ltb_ge; assumption). reflexivity.
      - apply aux; [|lia]. reflexivity.
      - apply aux; [|lia]. reflexivity. }
    destruct (IH _ _ h1 h2 h3) as (ms2 & k1 & k2 & k3 & k4). exists (ms1 ++ ms2). rewrite app_assoc.
    split; [assumption|]. split; [assumption|]. split.
    + intros m. rewrite k3, h4. split.
      * intros [[h|h]|(e & he & h)]; [now left| |]; right; [exists (ii, jj, var)|exists e]; (split; [|assumption]); [now left|now right].
      * intros [h|(e & [<-|he] & h)]; [now left; left|left; right; assumption|right; eauto].
    + intros ms''. rewrite (k4 ms''). rewrite (h5 (ms2 ++ ms'')). cbn [flat_map]. rewrite <- app_assoc. do 2 f_equal. now rewrite !app_assoc.
Qed.

(** ** The lines of the moment matrix *)
Section Matrix.
Variable p : problem.
Hypothesis hwf : wf p.
Notation n := (length (momentmatrix p)).

Theorem scan_spec : exists ms, s_corresp (scan_matrix p) = number_from 1 ms /\ NoDup ms /\
  (forall m, In m ms <-> variable p m) /\ s_lines (scan_matrix p) = flat_map (lines_of p ms) (positions p).
Proof.
  destruct (scan_fold p (positions p) {| s_corresp := []; s_new := 1; s_lines := [] |} [] eq_refl eq_refl (NoDup_nil _)) as (ms & h1 & h2 & h3 & h4).
  exists ms. cbn [app] in *. split; [exact h1|]. split; [assumption|]. split; [|specialize (h4 []); rewrite app_nil_r in h4; exact h4].
  intros m. rewrite h3. pose proof (wf_square _ hwf) as hsq. split.
  - intros [[]|([[ii jj] var] & he & hij & c & hm)]. apply (positions_in p ii jj var hsq) in he. destruct he as (hi & hj & ->).
    unfold meaning_of in hm. destruct (Nat.eqb_spec (entry p ii jj) 0) as [|n0]; [discriminate|].
    destruct (Nat.eqb_spec (entry p ii jj) 1) as [|n1]; [discriminate|].
    destruct (iget (entry p ii jj) (known_moments p)) as [|] eqn:Ek; [discriminate|].
    assert (In (entry p ii jj) (entries p)) as hin by (apply (in_entries p _ hsq); eauto).
    destruct (iget (entry p ii jj) (semiknown_moments p)) as [[c' m']|] eqn:Es.
    + injection hm as -> ->. right. exists (entry p ii jj), c. split; [assumption|]. eapply get_some_in; eassumption.
    + injection hm as <- <-. left. split; [assumption|]. split; [|assumption]. split; [assumption|].
      split; [eapply get_none; eassumption|eapply get_none; eassumption].
  - assert (forall k, In k (entries p) -> exists ii jj, In (ii, jj, k) (positions p) /\ ii <= jj) as hup.
    { intros k hk. apply (in_entries p _ hsq) in hk. destruct hk as (i & j & hi & hj & ->). destruct (le_lt_dec i j).
      - exists i, j. split; [|assumption]. apply (positions_in p i j _ hsq). auto.
      - exists j, i. split; [|lia]. apply (positions_in p j i _ hsq). split; [assumption|]. split; [assumption|]. now apply (wf_symmetric _ hwf). }
    intros [(n0 & (n1 & hk & hs) & hin)|(k & c & hk & hin)]; right.
    + destruct (hup m hin) as (ii & jj & hp & hij). exists (ii, jj, m). split; [assumption|]. split; [assumption|]. exists 1%Qc.
      unfold meaning_of. destruct (Nat.eqb_spec m 0); [lia|]. destruct (Nat.eqb_spec m 1); [lia|].
      apply (get_none Nat.eq_dec) in hk. apply (get_none Nat.eq_dec) in hs. unfold iget. now rewrite hk, hs.
    + destruct (hup k hk) as (ii & jj & hp & hij). exists (ii, jj, k). split; [assumption|]. split; [assumption|]. exists c.
      assert (In k (keys (semiknown_moments p))) as hkey by (apply in_map_iff; exists (k, (c, m)); auto).
      destruct (wf_semi_in _ hwf _ hkey) as (_ & h2k & hnk). unfold meaning_of.
      destruct (Nat.eqb_spec k 0); [lia|]. destruct (Nat.eqb_spec k 1); [lia|].
      apply (get_none Nat.eq_dec) in hnk. unfold iget. rewrite hnk, (in_get Nat.eq_dec k (c, m) _ (wf_semi_keys _ hwf) hin). reflexivity.
Qed.

Variable ms : list nat.
Hypothesis hms : NoDup ms.
Hypothesis hvar : forall m, In m ms <-> variable p m.
Variable v : nat -> Qc.
Hypothesis hv : respects p v.
(** variable k of the file is the k-th moment of the numbering *)
Definition point (ms : list nat) (v : nat -> Qc) : nat -> Qc := fun k => v (nth (k - 1) ms 0).
Lemma point_get m i : iget m (number_from 1 ms) = Some i -> point ms v i = v m /\ 1 <= i <= length ms.
Proof.
  intros h. apply (number_get 1 ms m i hms) in h. destruct h as (j & hj & ->). unfold point.
  replace (1 + j - 1) with j by lia. pose proof (nth_error_Some ms j) as hs. rewrite hj in hs.
  split; [f_equal; now apply nth_error_nth|]. assert (j < length ms) by (apply hs; discriminate). lia.
Qed.
Lemma variable_numbered m : variable p m -> exists i, iget m (number_from 1 ms) = Some i.
Proof.
  intros h. apply hvar in h. destruct (iget m (number_from 1 ms)) as [i|] eqn:E; [eauto|]. apply number_get_none in E. contradiction.
Qed.
Lemma num_minus_abs c : (0 <= c)%Qc -> num (Minus (qabs c)) = (- c)%Qc.
Proof.
  intros h. unfold num, number, qabs, qltb. destruct (Qclt_le_dec c 0) as [l|_]; [exfalso; exact (Qcle_not_lt _ _ h l)|].
  destruct (Qclt_le_dec c 0) as [l|_]; [exfalso; exact (Qcle_not_lt _ _ h l)|reflexivity].
Qed.
Hypothesis hpos : forall m c, In (m, c) (known_moments p) -> (0 <= c)%Qc.

Lemma lines_of_sum ii jj : ii < n -> jj < n -> ii <= jj ->
  bsum (point ms v) 1 (S ii) (S jj) (lines_of p ms (ii, jj, entry p ii jj)) = v (entry p ii jj).
Proof.
  intros hi hj hij. unfold lines_of. replace (jj <? ii) with false by (symmetry; apply Nat.ltb_ge; assumption).
  destruct hv as (v0 & v1 & hk & hs).
  assert (forall t i, sel 1 (S ii) (S jj) {| l_var := i; l_block := 1; l_row := S ii; l_col := S jj; l_text := t |} = true) as hsel.
  { intros t i. unfold sel. cbn [l_block l_row l_col]. now rewrite !Nat.eqb_refl. }
  assert (In (entry p ii jj) (entries p)) as hin by (apply (in_entries p _ (wf_square _ hwf)); eauto).
  unfold meaning_of. destruct (Nat.eqb_spec (entry p ii jj) 0) as [->|n0]; [now rewrite v0|].
  destruct (Nat.eqb_spec (entry p ii jj) 1) as [->|n1].
  - rewrite bsum_cons, hsel, bsum_nil, v1. unfold coefficient. cbn [l_var l_text num number Nat.eqb]. ring.
  - destruct (iget (entry p ii jj) (known_moments p)) as [c|] eqn:Ek.
    + apply (get_some_in Nat.eq_dec) in Ek. rewrite bsum_cons, hsel, bsum_nil, (hk _ _ Ek). unfold coefficient.
      cbn [l_var l_text]. rewrite num_minus_abs by (eapply hpos; eassumption). cbn [Nat.eqb]. ring.
    + destruct (iget (entry p ii jj) (semiknown_moments p)) as [[c m]|] eqn:Es.
      * apply (get_some_in Nat.eq_dec) in Es. destruct (variable_numbered m) as (i & hi'); [right; eauto|]. rewrite hi'.
        rewrite bsum_cons, hsel, bsum_nil. unfold coefficient. cbn [l_var l_text num number].
        destruct (point_get m i hi') as (e & hi2). destruct (Nat.eqb_spec i 0); [lia|]. rewrite e, (hs _ _ _ Es). ring.
      * destruct (variable_numbered (entry p ii jj)) as (i & hi').
        { left. split; [assumption|]. split; [|assumption]. split; [assumption|].
          split; eapply get_none; eassumption. }
        rewrite hi', bsum_cons, hsel, bsum_nil. unfold coefficient. cbn [l_var l_text num number].
        destruct (point_get _ i hi') as (e & hi2). destruct (Nat.eqb_spec i 0); [lia|]. rewrite e. ring.
Qed.
Lemma lines_of_shape e l : In l (lines_of p ms e) ->
  l_block l = 1 /\ l_row l = S (fst (fst e)) /\ l_col l = S (snd (fst e)) /\ fst (fst e) <= snd (fst e) /\
  l_var l <= length ms /\ number (l_text l) <> None.
Proof.
  destruct e as [[ii jj] var]. cbn [fst snd]. unfold lines_of. destruct (Nat.ltb_spec jj ii) as [|hge]; [intros []|].
  assert (forall c, number (Minus (qabs c)) <> None) as hnum.
  { intros c. unfold number, qabs, qltb. destruct (Qclt_le_dec c 0) as [l0|g0].
    - destruct (Qclt_le_dec (- c) 0) as [l1|_]; [|discriminate]. exfalso. apply (Qclt_not_le _ _ l1). qclra.
    - destruct (Qclt_le_dec c 0) as [l1|_]; [|discriminate]. exfalso. exact (Qclt_not_le _ _ l1 g0). }
  destruct (meaning_of p var) as [|t|m c] eqn:E; [intros []| |].
  - intros [<-|[]]. cbn [l_block l_row l_col l_var l_text]. repeat split; try lia; try assumption.
    revert E. unfold meaning_of. destruct (var =? 0); [discriminate|]. destruct (var =? 1); [intros e; injection e as <-; discriminate|].
    destruct (iget var (known_moments p)) as [c|]; [intros e; injection e as <-; apply hnum|].
    destruct (iget var (semiknown_moments p)) as [[c m]|]; discriminate.
  - destruct (iget m (number_from 1 ms)) as [i|] eqn:Ei; [|intros []]. intros [<-|[]].
    cbn [l_block l_row l_col l_var l_text]. destruct (point_get m i Ei) as (_ & h). repeat split; try lia; try assumption. discriminate.
Qed.
Lemma bsum_flat_map x b r c {A} (f : A -> list line) l : bsum x b r c (flat_map f l) = sumQ (map (fun a => bsum x b r c (f a)) l).
Proof. induction l as [|a l IH]; [reflexivity|]. cbn [flat_map map]. rewrite bsum_app, sumQ_cons. now rewrite IH. Qed.
Lemma matrix_sum i j : i < n -> j < n -> i <= j ->
  bsum (point ms v) 1 (S i) (S j) (flat_map (lines_of p ms) (positions p)) = v (entry p i j).
Proof.
  intros hi hj hij. rewrite bsum_flat_map, (positions_eq p (wf_square _ hwf)).
  rewrite flat_map_concat_map, concat_map, map_map, <- flat_map_concat_map.
  rewrite sumQ_flat_map.
  change (sumn n (fun ii => sumQ (map (fun a => bsum (point ms v) 1 (S i) (S j) (lines_of p ms a)) (row_positions p n ii))) = v (entry p i j)).
  rewrite (sumn_single n i); [|assumption|].
  - unfold row_positions. rewrite map_map.
    change (sumn n (fun jj => bsum (point ms v) 1 (S i) (S j) (lines_of p ms (i, jj, entry p i jj))) = v (entry p i j)).
    rewrite (sumn_single n j); [now apply lines_of_sum|assumption|].
    intros k hk hne. apply bsum_none. intros l hl. apply lines_of_shape in hl. cbn [fst snd] in hl. destruct hl as (_ & _ & hc & _).
    unfold sel. rewrite hc. destruct (Nat.eqb_spec (S k) (S j)); [lia|]. now rewrite andb_false_r.
  - intros k hk hne. apply sumQ_zero. intros [[ii jj] var] he. unfold row_positions in he. apply in_map_iff in he.
    destruct he as (j' & e & _). injection e as <- <- <-. apply bsum_none. intros l hl. apply lines_of_shape in hl. cbn [fst snd] in hl.
    destruct hl as (_ & hr & _). unfold sel. rewrite hr. destruct (Nat.eqb_spec (S k) (S i)); [lia|]. now rewrite andb_false_r.
Qed.
End Matrix.
