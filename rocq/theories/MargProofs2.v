From Coq Require Import Permutation Sorted.
From Verif Require Import CanonModel CanonProofs MargModel ScenarioSpec KnowSpec ScenarioProofs SymProofs KnowProofs QcSum MargProofs PropKnow.

(** A canonical word of pairwise commuting operators is sorted. *)
Lemma commuting_canonical_sorted nc w : (forall a b, In a w -> In b w -> nc a b = false) ->
  nb_lexmon_to_canonical nc w = Some w -> StronglySorted le w.
Proof.
  intros H E. unfold nb_lexmon_to_canonical in E. destruct w as [|x w]; [constructor|].
  destruct w as [|y w]; [repeat constructor|]. set (u := x :: y :: w) in *.
  assert (E' : nb_lexmon_to_canonical nc u = Some (np_sort u)).
  { unfold nb_lexmon_to_canonical.
    assert (NA : sub_all nc u = false).
    { apply not_true_iff_false. unfold sub_all. rewrite forallb_forall. intros A. specialize (A x (or_introl eq_refl)). rewrite forallb_forall in A.
      specialize (A x (or_introl eq_refl)). rewrite H in A by (left; reflexivity). discriminate. }
    assert (NY : sub_any nc u = false).
    { apply not_true_iff_false. unfold sub_any. rewrite existsb_exists. intros (a & Ha & Q). rewrite existsb_exists in Q. destruct Q as (b & Hb & Q).
      rewrite H in Q by assumption. discriminate. }
    change (canon_loop nc (length u) [] u) with
      (let '(m1, m2) := split_step nc u in canon_loop nc (S (length w)) ([] ++ m1) m2).
    assert (SS : split_step nc u = (np_sort u, [])).
    { unfold split_step. change (length u <=? 1) with false. cbn [negb]. rewrite NA, NY. reflexivity. }
    rewrite SS. cbn [app canon_loop length Nat.ltb Nat.leb]. reflexivity. }
  unfold nb_lexmon_to_canonical in E'. rewrite E in E'. assert (Q : u = np_sort u) by congruence. rewrite Q. apply np_sort_sorted.
Qed.

Section M.
Variables (sc : scenario) (W : wf_scenario sc) (lexmon : list nat).
Hypothesis HV : forall k, In k lexmon -> k < length (lexorder sc).
Hypothesis Hsort : StronglySorted le lexmon.
Let mon := map (fun k => nth k (lexorder sc) []) lexmon.
Hypothesis P : one_operator_per_party mon.

Lemma mon_nth i k : nth_error lexmon i = Some k -> exists p c s o, nth_error (lexorder sc) k = Some (mkrow (p + 1) c s o) /\ valid_operator sc p c s o /\ nth_error mon i = Some (mkrow (p + 1) c s o).
Proof.
  intros H. assert (Hk : k < length (lexorder sc)) by (apply HV; eapply nth_error_In, H).
  destruct (lexorder_parts sc k W Hk) as (p & c & s & o & E & V). exists p, c, s, o. split; [exact E|]. split; [exact V|].
  unfold mon. rewrite nth_error_map, H. cbn [option_map]. f_equal. apply nth_error_nth, E.
Qed.
Lemma parties_increasing : StronglySorted lt (map row_party mon).
Proof.
  assert (G : forall l : list nat, (forall i j a b, i < j -> nth_error l i = Some a -> nth_error l j = Some b -> a < b) -> StronglySorted lt l).
  { induction l as [|x l IH]; intros H; constructor.
    - apply IH. intros i j a b Hij Ha Hb. apply (H (S i) (S j) a b); [lia|exact Ha|exact Hb].
    - rewrite Forall_forall. intros y Hy. apply In_nth_error in Hy as [j Hj]. apply (H 0 (S j) x y); [lia|reflexivity|exact Hj]. }
  apply G. clear G. intros i j a b Hij Ha Hb. rewrite nth_error_map in Ha, Hb.
  destruct (nth_error mon i) as [ri|] eqn:Ei; [|discriminate]. destruct (nth_error mon j) as [rj|] eqn:Ej; [|discriminate].
  cbn in Ha, Hb. injection Ha as <-. injection Hb as <-.
  assert (Li : exists k, nth_error lexmon i = Some k).
  { unfold mon in Ei. rewrite nth_error_map in Ei. destruct (nth_error lexmon i); [eauto|discriminate]. }
  assert (Lj : exists k, nth_error lexmon j = Some k).
  { unfold mon in Ej. rewrite nth_error_map in Ej. destruct (nth_error lexmon j); [eauto|discriminate]. }
  destruct Li as [ki Li], Lj as [kj Lj].
  destruct (mon_nth i ki Li) as (p & c & s & o & E1 & V1 & M1). destruct (mon_nth j kj Lj) as (p' & c' & s' & o' & E2 & V2 & M2).
  unfold row in *. rewrite Ei in M1. rewrite Ej in M2. injection M1 as ->. injection M2 as ->.
  assert (Hne : p <> p').
  { intros <-. assert (i = j); [|lia]. eapply P; [exact Ei|exact Ej]. }
  assert (Hk : ki <= kj) by (eapply (SS_nth le _ Hsort i j); eassumption).
  assert (Hk' : ki <> kj).
  { intros <-. assert (Q : mkrow (p + 1) c s o = mkrow (p' + 1) c' s' o') by (unfold row in *; congruence). apply mkrow_inj in Q as [Q _]. lia. }
  pose proof (SS_nth lex_lt _ (lexorder_SS sc W) ki kj _ _ ltac:(lia) E1 E2) as L.
  unfold mkrow in L. inversion L; subst; cbn; lia.
Qed.

Theorem knowable_marginal arr :
  parents_agree sc mon -> lexmon <> [] ->
  nd_shape arr = outcomes sc ++ private_settings sc -> (forall n, In n (private_settings sc) -> 1 <= n) ->
  exists v, atom_compute_marginal sc arr lexmon = Some v /\
  forall l xs, NoDup l ->
    (forall o, In o l <-> Forall2 lt o (outcomes sc) /\ forall p c s a, In (mkrow (p + 1) c s a) mon -> nth p o 0 = a) ->
    length xs = nr_parties sc ->
    (forall p, p < nr_parties sc ->
       (forall c s a x os, In (mkrow (p + 1) c s a) mon -> assoc (effective_to_parent sc p) s = Some (x :: os) -> nth p xs 0 = x) /\
       ((forall c s a, ~ In (mkrow (p + 1) c s a) mon) -> nth p xs 0 = 0)) ->
    v = sumQ (map (fun o => nd_at arr (o ++ xs)) l).
Proof.
  intros PA NE Sh Pos. destruct arr as [sh P0]. cbn [nd_shape nd_at] in *. subst sh.
  assert (HL : forall r, In r mon -> In r (lexorder sc)).
  { intros r Hr. apply in_map_iff in Hr as (k & <- & Hk). apply nth_In, HV, Hk. }
  destruct (C15_private_setting sc mon W HL) as (rect & ER & FR).
  assert (ER' := ER). unfold atom_compute_marginal. fold mon. rewrite ER.
  assert (T1 : forall r', In r' rect -> exists p c s o x os, In (mkrow (p + 1) c s o) mon /\ assoc (effective_to_parent sc p) s = Some (x :: os) /\ x < nth p (private_settings sc) 0 /\ r' = [p + 1; x; o]).
  { intros r' Hr'. clear -FR Hr'. induction FR as [|r r3 m rc H _ IH]; [destruct Hr'|]. destruct Hr' as [<-|Hr'].
    - destruct H as (p & c & s & o & x & os & -> & A & B & C). exists p, c, s, o, x, os. split; [left; reflexivity|auto].
    - destruct (IH Hr') as (p & c & s & o & x & os & A & B). exists p, c, s, o, x, os. split; [right; exact A|exact B]. }
  assert (T2 : forall p c s o x os, In (mkrow (p + 1) c s o) mon -> assoc (effective_to_parent sc p) s = Some (x :: os) -> In [p + 1; x; o] rect).
  { intros p c s o x os Hin A. clear -FR Hin A. induction FR as [|r r3 m rc H _ IH]; [destruct Hin|]. destruct Hin as [->|Hin]; [left|right; apply IH, Hin].
    destruct H as (p' & c' & s' & o' & x' & os' & E & A' & _ & ->). apply mkrow_inj in E as (E1 & _ & <- & <-). assert (p' = p) as -> by lia.
    rewrite A in A'. injection A' as -> _. reflexivity. }
  assert (HM : map (hd 0) rect = map row_party mon).
  { clear -FR. induction FR as [|r r3 m rc H _ IH]; [reflexivity|]. cbn [map]. rewrite IH. f_equal.
    destruct H as (p & c & s & o & x & os & -> & _ & _ & ->). reflexivity. }
  destruct (compute_marginal_correct (outcomes sc) (private_settings sc) P0 rect) as (v & Ev & Hv).
  - apply (wf_settings sc W).
  - exact Pos.
  - intros ->. inversion FR as [Hm|]. unfold mon in Hm. symmetry in Hm. apply map_eq_nil in Hm. contradiction.
  - intros r' Hr'. destruct (T1 r' Hr') as (p & c & s & o & x & os & Hin & A & Hx & ->). exists p, x, o. split; [reflexivity|].
    destruct (proj1 (lexorder_in sc _ W) (HL _ Hin)) as (p' & c' & s' & o' & E & V). apply mkrow_inj in E as (E1 & <- & <- & <-). assert (p' = p) as -> by lia.
    split; [apply V|]. split; [exact Hx|]. apply V.
  - rewrite HM. apply parties_increasing.
  - exists v. split; [exact Ev|]. intros l xs ND Hl Lx Hx. apply (Hv l xs ND); [|exact Lx|].
    + intros o. rewrite Hl. split; intros [H1 H2]; (split; [exact H1|]).
      * intros p x a Hin. destruct (T1 _ Hin) as (p' & c & s & o' & x' & os & Hm & _ & _ & E). injection E as E1 _ ->. assert (p' = p) as -> by lia. eapply H2, Hm.
      * intros p c s a Hin. destruct (PA p c s a Hin) as (x & os & A & _). eapply H2, T2; eassumption.
    + intros p Hp. destruct (Hx p Hp) as [X1 X2]. split.
      * intros x a Hin. destruct (T1 _ Hin) as (p' & c & s & o' & x' & os & Hm & A & _ & E). injection E as E1 -> ->. assert (p' = p) as -> by lia. eapply X1; eassumption.
      * intros Hn. apply X2. intros c s a Hin. destruct (PA p c s a Hin) as (x & os & A & _). apply (Hn x a). eapply T2; eassumption.
Qed.
End M.
