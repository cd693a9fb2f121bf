(** Proofs about the canonicaliser: trace-monoid normal form. *)
From Coq Require Import Permutation Sorted.
From Verif Require Import CanonModel CanonSpec.

Section Comm.
Variable nc : table.
Hypothesis nc_sym : good_comm nc.

Notation "u ~ v" := (comm_eq nc u v) (at level 70).

Lemma ce_cons a u v : u ~ v -> a :: u ~ a :: v.
Proof.
  induction 1 as [w|u x y v Hc|w1 w2 _ IH|w1 w2 w3 _ IH1 _ IH2].
  - apply ce_refl.
  - apply (ce_swap nc (a :: u) x y v Hc).
  - apply ce_sym; exact IH.
  - eapply ce_trans; eassumption.
Qed.

Lemma ce_app_l p u v : u ~ v -> p ++ u ~ p ++ v.
Proof. intros H; induction p as [|a p IH]; cbn; [exact H|]. apply ce_cons; exact IH. Qed.

Lemma ce_app_r p u v : u ~ v -> u ++ p ~ v ++ p.
Proof.
  induction 1 as [w|u x y v Hc|w1 w2 _ IH|w1 w2 w3 _ IH1 _ IH2].
  - apply ce_refl.
  - rewrite <- !app_assoc. cbn. apply ce_swap; exact Hc.
  - apply ce_sym; exact IH.
  - eapply ce_trans; eassumption.
Qed.

Lemma ce_perm u v : u ~ v -> Permutation u v.
Proof.
  induction 1 as [w|u x y v Hc|w1 w2 _ IH|w1 w2 w3 _ IH1 _ IH2].
  - reflexivity.
  - apply Permutation_app_head. apply perm_swap.
  - symmetry; exact IH.
  - etransitivity; eassumption.
Qed.

Lemma ce_length u v : u ~ v -> length u = length v.
Proof. intros H; apply Permutation_length, ce_perm, H. Qed.

(** move a letter to the front *)
Lemma ce_move u a v : (forall b, In b u -> nc a b = false) -> u ++ a :: v ~ a :: u ++ v.
Proof.
  induction u as [|b u IH]; intros H; cbn; [apply ce_refl|].
  eapply ce_trans; [apply ce_cons, IH|].
  - intros c Hc; apply H; right; exact Hc.
  - apply (ce_swap nc [] b a). rewrite nc_sym. apply H; left; reflexivity.
Qed.

(** extract a letter that can be brought to the front *)
Fixpoint pull (a : nat) (w : word) : option word :=
  match w with
  | [] => None
  | x :: w' => if x =? a then Some w'
               else if nc a x then None
               else match pull a w' with Some r => Some (x :: r) | None => None end
  end.

Lemma pull_split a w r : pull a w = Some r ->
  exists u v, w = u ++ a :: v /\ r = u ++ v /\ (forall b, In b u -> nc a b = false) /\ ~ In a u.
Proof.
  revert r; induction w as [|x w IH]; intros r; cbn; [discriminate|].
  destruct (Nat.eqb_spec x a) as [->|Hne].
  - intros [= <-]. exists [], w. cbn; intuition.
  - destruct (nc a x) eqn:Hx; [discriminate|].
    destruct (pull a w) as [r'|] eqn:E; [|discriminate].
    intros [= <-]. destruct (IH r' eq_refl) as (u & v & -> & -> & H1 & H2).
    exists (x :: u), v. cbn. split; [reflexivity|]. split; [reflexivity|]. split.
    + intros b [<-|Hb]; auto.
    + intros [->|Hb]; auto.
Qed.

Lemma pull_ce a w r : pull a w = Some r -> w ~ a :: r.
Proof.
  intros H; destruct (pull_split _ _ _ H) as (u & v & -> & -> & H1 & _).
  apply ce_move; exact H1.
Qed.

(** if everything in front commutes, the letter can be pulled *)
Lemma pull_avail u a v : (forall b, In b u -> nc a b = false) ->
  exists r, pull a (u ++ a :: v) = Some r.
Proof.
  induction u as [|x u IH]; intros H; cbn.
  - rewrite Nat.eqb_refl. eauto.
  - destruct (Nat.eqb_spec x a) as [->|Hne]; [eauto|].
    rewrite (H x (or_introl eq_refl)).
    destruct IH as [r Hr]; [intros b Hb; apply H; right; exact Hb|].
    rewrite Hr; eauto.
Qed.

Lemma pull_app_swap u x y v a r : nc x y = false ->
  pull a (u ++ x :: y :: v) = Some r ->
  exists r', pull a (u ++ y :: x :: v) = Some r' /\ r ~ r'.
Proof.
  intros Hxy; revert r; induction u as [|z u IH]; intros r; cbn.
  - assert (Hyx : nc y x = false) by (rewrite nc_sym; exact Hxy).
    destruct (Nat.eqb_spec x a) as [->|Hxa].
    + intros [= <-]. destruct (Nat.eqb_spec y a) as [->|Hya].
      * exists (a :: v); split; [reflexivity|apply ce_refl].
      * rewrite Hxy. exists (y :: v). split; [reflexivity|apply ce_refl].
    + destruct (nc a x) eqn:Hax; [discriminate|].
      destruct (Nat.eqb_spec y a) as [->|Hya].
      * intros [= <-]. exists (x :: v); split; [reflexivity|apply ce_refl].
      * destruct (nc a y) eqn:Hay; [discriminate|].
        destruct (pull a v) as [r'|] eqn:E; [|discriminate].
        intros [= <-]. exists (y :: x :: r'). split; [reflexivity|].
        apply (ce_swap nc [] x y r' Hxy).
  - destruct (Nat.eqb_spec z a) as [->|Hza].
    + intros [= <-]. eexists; split; [reflexivity|]. apply ce_swap; exact Hxy.
    + destruct (nc a z) eqn:Haz; [discriminate|].
      destruct (pull a (u ++ x :: y :: v)) as [r0|] eqn:E; [|discriminate].
      intros [= <-]. destruct (IH r0 eq_refl) as (r' & Hr' & Hce).
      rewrite Hr'. exists (z :: r'); split; [reflexivity|]. apply ce_cons; exact Hce.
Qed.

Lemma pull_ce_compat w1 w2 : w1 ~ w2 ->
  forall a, (forall r, pull a w1 = Some r -> exists r', pull a w2 = Some r' /\ r ~ r') /\
            (forall r, pull a w2 = Some r -> exists r', pull a w1 = Some r' /\ r ~ r').
Proof.
  induction 1 as [w|u x y v Hc|w1 w2 _ IH|w1 w2 w3 _ IH1 _ IH2]; intros a.
  - split; intros r Hr; exists r; (split; [exact Hr|apply ce_refl]).
  - split; intros r Hr; (eapply pull_app_swap; [|exact Hr]); [exact Hc|].
    rewrite nc_sym; exact Hc.
  - destruct (IH a) as [H1 H2]; split; assumption.
  - destruct (IH1 a) as [H1 H2], (IH2 a) as [H3 H4]; split; intros r Hr.
    + destruct (H1 r Hr) as (r1 & Hr1 & C1). destruct (H3 r1 Hr1) as (r2 & Hr2 & C2).
      exists r2; split; [exact Hr2|eapply ce_trans; eassumption].
    + destruct (H4 r Hr) as (r1 & Hr1 & C1). destruct (H2 r1 Hr1) as (r2 & Hr2 & C2).
      exists r2; split; [exact Hr2|eapply ce_trans; eassumption].
Qed.

Lemma pull_head a w : pull a (a :: w) = Some w.
Proof. cbn; rewrite Nat.eqb_refl; reflexivity. Qed.

Lemma ce_cancel a u v : a :: u ~ a :: v -> u ~ v.
Proof.
  intros H. destruct (proj1 (pull_ce_compat _ _ H a) u (pull_head a u)) as (r & Hr & C).
  rewrite pull_head in Hr. injection Hr as <-. exact C.
Qed.

Lemma ce_cancel_app p u v : p ++ u ~ p ++ v -> u ~ v.
Proof. induction p as [|a p IH]; cbn; [auto|]. intros H; apply IH. eapply ce_cancel; exact H. Qed.

(** Lexicographic order facts *)
Lemma lex_refl w : lex_le w w.
Proof. induction w; constructor; assumption. Qed.

Lemma lex_antisym u v : lex_le u v -> lex_le v u -> u = v.
Proof.
  intros H; induction H as [w|a b u v Hab|a u v _ IH]; intros H'.
  - inversion H'; reflexivity.
  - inversion H'; subst; lia.
  - inversion H'; subst; [lia|]. f_equal; auto.
Qed.

Lemma lex_trans u v w : lex_le u v -> lex_le v w -> lex_le u w.
Proof.
  intros H; revert w; induction H as [v|a b u v Hab|a u v H IH]; intros w H'.
  - constructor.
  - inversion H'; subst; apply ll_lt; lia.
  - inversion H'; subst; [apply ll_lt; assumption|apply ll_eq; auto].
Qed.

Lemma lex_total u v : lex_le u v \/ lex_le v u.
Proof.
  revert v; induction u as [|a u IH]; intros [|b v]; [left; constructor|left; constructor|right; constructor|].
  destruct (Nat.lt_trichotomy a b) as [H|[->|H]].
  - left; constructor; exact H.
  - destruct (IH v); [left|right]; apply ll_eq; assumption.
  - right; constructor; exact H.
Qed.

Lemma lex_app p u v : lex_le u v -> lex_le (p ++ u) (p ++ v).
Proof. intros H; induction p; cbn; [exact H|constructor; assumption]. Qed.

(** A word is a lex-least representative of its class *)
Definition lexmin (w : word) : Prop := forall w', w' ~ w -> lex_le w w'.

Lemma lexmin_unique w1 w2 : lexmin w1 -> lexmin w2 -> w1 ~ w2 -> w1 = w2.
Proof.
  intros H1 H2 H. apply lex_antisym; [apply H1, ce_sym, H | apply H2, H].
Qed.

Lemma lexmin_nil : lexmin [].
Proof. intros w' H; constructor. Qed.

Lemma lexmin_single a : lexmin [a].
Proof.
  intros w' H. pose proof (Permutation_length_1_inv (Permutation_sym (ce_perm _ _ H))) as E.
  rewrite E. apply lex_refl.
Qed.

(** least available letter followed by a lexmin word is lexmin *)
Lemma lexmin_cons a r w : w ~ a :: r -> lexmin r ->
  (forall b r', pull b w = Some r' -> a <= b) -> lexmin (a :: r).
Proof.
  intros Hw Hr Hmin [|b w'] H.
  - apply ce_length in H; discriminate.
  - assert (Hbw : b :: w' ~ w) by (eapply ce_trans; [exact H|apply ce_sym, Hw]).
    destruct (proj1 (pull_ce_compat _ _ Hbw b) w' (pull_head b w')) as (r' & Hr' & C).
    pose proof (Hmin b r' Hr') as Hle.
    destruct (Nat.eq_dec a b) as [->|Hne].
    + apply ll_eq. apply Hr. eapply ce_cancel; exact H.
    + apply ll_lt; lia.
Qed.

(** sorting *)
Lemma insert_perm x l : Permutation (x :: l) (insert x l).
Proof.
  induction l as [|y l IH]; cbn; [reflexivity|].
  destruct (x <=? y); [reflexivity|].
  etransitivity; [apply perm_swap|]. apply perm_skip; exact IH.
Qed.
Lemma np_sort_perm l : Permutation l (np_sort l).
Proof.
  induction l as [|x l IH]; cbn; [reflexivity|].
  etransitivity; [apply perm_skip; exact IH|apply insert_perm].
Qed.
Lemma insert_sorted x l : StronglySorted le l -> StronglySorted le (insert x l).
Proof.
  induction 1 as [|y l HS IH HF]; cbn; [repeat constructor|].
  destruct (Nat.leb_spec x y) as [Hle|Hlt].
  - constructor; [constructor; assumption|]. constructor; [exact Hle|].
    eapply Forall_impl; [|exact HF]. cbn; intros; lia.
  - constructor; [exact IH|].
    eapply Permutation_Forall; [apply insert_perm|]. constructor; [lia|exact HF].
Qed.
Lemma np_sort_sorted l : StronglySorted le (np_sort l).
Proof. induction l; cbn; [constructor|apply insert_sorted; assumption]. Qed.

Lemma sorted_lex_least l l' : StronglySorted le l -> Permutation l l' -> lex_le l l'.
Proof.
  intros HS; revert l'; induction HS as [|a l HS IH HF]; intros l' HP; [constructor|].
  destruct l' as [|b l']; [apply Permutation_sym, Permutation_nil in HP; discriminate|].
  assert (Hin : In b (a :: l)) by (eapply Permutation_in; [apply Permutation_sym, HP|left; reflexivity]).
  destruct (Nat.eq_dec a b) as [->|Hne].
  - apply ll_eq, IH. eapply Permutation_cons_inv; exact HP.
  - apply ll_lt. destruct Hin as [Hin|Hin]; [lia|].
    rewrite Forall_forall in HF. specialize (HF b Hin). lia.
Qed.

Lemma commuting_perm_ce l l' : Permutation l l' ->
  (forall a b, In a l -> In b l -> nc a b = false) -> l ~ l'.
Proof.
  induction 1 as [|x l l' _ IH|x y l|l l' l'' HP IH1 _ IH2]; intros H.
  - apply ce_refl.
  - apply ce_cons, IH. intros a b Ha Hb; apply H; right; assumption.
  - apply (ce_swap nc [] y x l). apply H; cbn; auto.
  - eapply ce_trans; [apply IH1; exact H|]. apply IH2.
    intros a b Ha Hb; apply H; eapply Permutation_in; try eassumption; apply Permutation_sym, HP.
Qed.

Lemma existsb_false {A} (f : A -> bool) l : existsb f l = false -> forall x, In x l -> f x = false.
Proof.
  intros H x Hx. destruct (f x) eqn:E; [|reflexivity].
  assert (existsb f l = true) by (apply existsb_exists; eauto). congruence.
Qed.

Lemma sub_any_false w : sub_any nc w = false ->
  forall a b, In a w -> In b w -> nc a b = false.
Proof.
  unfold sub_any; intros H a b Ha Hb.
  pose proof (existsb_false _ _ H a Ha) as H1. cbn in H1.
  exact (existsb_false _ _ H1 b Hb).
Qed.

Lemma np_sort_lexmin w : lexmin (np_sort w).
Proof.
  intros w' H. apply sorted_lex_least; [apply np_sort_sorted|].
  apply Permutation_sym, ce_perm, H.
Qed.

(** all letters non-commuting: nothing can move *)
Lemma sub_all_true w : sub_all nc w = true -> forall a b, In a w -> In b w -> nc a b = true.
Proof.
  unfold sub_all; intros H a b Ha Hb. rewrite forallb_forall in H.
  specialize (H a Ha). rewrite forallb_forall in H. exact (H b Hb).
Qed.

Lemma all_nc_rigid w1 w2 : w1 ~ w2 ->
  ((forall a b, In a w1 -> In b w1 -> nc a b = true) -> w1 = w2) /\
  ((forall a b, In a w2 -> In b w2 -> nc a b = true) -> w1 = w2).
Proof.
  induction 1 as [w|u x y v Hc|w1 w2 _ IH|w1 w2 w3 _ IH1 _ IH2].
  - split; reflexivity.
  - split; intros H; exfalso.
    + rewrite (H x y) in Hc; [discriminate| |]; apply in_or_app; right; cbn; auto.
    + rewrite (H x y) in Hc; [discriminate| |]; apply in_or_app; right; cbn; auto.
  - destruct IH as [A B]; split; intros H; symmetry; [apply B|apply A]; exact H.
  - destruct IH1 as [A1 B1], IH2 as [A2 B2]; split; intros H.
    + pose proof (A1 H) as E1. rewrite E1 in *. apply A2; exact H.
    + pose proof (B2 H) as E2. rewrite <- E2 in *. apply B1; exact H.
Qed.

Lemma sub_all_lexmin w : sub_all nc w = true -> lexmin w.
Proof.
  intros H w' Hw. pose proof (sub_all_true _ H) as H'.
  destruct (all_nc_rigid _ _ Hw) as [_ B]. rewrite (B H'). apply lex_refl.
Qed.

(** the scanning loop *)
Definition blocked (x : nat) (pre : word) : bool := existsb (fun y => nc x y) pre.

Lemma filter_nonempty x (pre : word) :
  (length (filter (fun y => nc x y) pre) <? 1) = negb (blocked x pre).
Proof.
  unfold blocked. induction pre as [|y pre IH]; cbn; [reflexivity|].
  destruct (nc x y); cbn; [reflexivity|exact IH].
Qed.

(** Invariant of the scan: the current minimum sits at position minimum_idx of
    the prefix, is available there, and is least among available letters of the
    prefix. *)
Definition scan_inv (pre : word) (m mi : nat) : Prop :=
  (exists u v, pre = u ++ m :: v /\ length u = mi /\ blocked m u = false) /\
  (forall u b v, pre = u ++ b :: v -> blocked b u = false -> m <= b).

Lemma app_snoc_split {A} (pre : list A) x u b v : pre ++ [x] = u ++ b :: v ->
  (v = [] /\ pre = u /\ x = b) \/ (exists v', v = v' ++ [x] /\ pre = u ++ b :: v').
Proof.
  intros H. destruct v as [|y v] using rev_ind.
  - left. apply app_inj_tail in H. intuition.
  - right. clear IHv. rewrite app_comm_cons, app_assoc in H.
    apply app_inj_tail in H as [H ->]. eauto.
Qed.

Lemma scan_correct rest : forall pre op m mi,
  length pre = op -> scan_inv pre m mi ->
  forall m' mi', scan nc pre rest op m mi = (m', mi') -> scan_inv (pre ++ rest) m' mi'.
Proof.
  induction rest as [|x rest IH]; intros pre op m mi Hlen Hinv m' mi'; cbn [scan].
  - intros [= <- <-]. rewrite app_nil_r; exact Hinv.
  - rewrite filter_nonempty.
    assert (E : pre ++ x :: rest = (pre ++ [x]) ++ rest) by (rewrite <- app_assoc; reflexivity).
    rewrite E.
    destruct Hinv as [(u & v & Hpre & Hu & Hb) Hmin].
    destruct (negb (blocked x pre) && (x <? m)) eqn:Hif.
    + apply andb_true_iff in Hif as [Hbx Hlt]. apply negb_true_iff in Hbx.
      apply Nat.ltb_lt in Hlt.
      apply IH; [rewrite app_length; cbn; lia|]. split.
      * exists pre, []. split; [reflexivity|]. split; [exact Hlen|exact Hbx].
      * intros u' b v' Hs Hbb. destruct (app_snoc_split _ _ _ _ _ Hs) as [(-> & -> & ->)|(v'' & -> & Hp)].
        -- lia.
        -- pose proof (Hmin _ _ _ Hp Hbb). lia.
    + apply IH; [rewrite app_length; cbn; lia|]. split.
      * exists u, (v ++ [x]). split; [rewrite Hpre, <- app_assoc; reflexivity|]. auto.
      * intros u' b v' Hs Hbb. destruct (app_snoc_split _ _ _ _ _ Hs) as [(-> & -> & ->)|(v'' & -> & Hp)].
        -- rewrite Hbb in Hif. cbn in Hif. apply Nat.ltb_ge in Hif. exact Hif.
        -- exact (Hmin _ _ _ Hp Hbb).
Qed.

Lemma blocked_false x u : blocked x u = false <-> (forall b, In b u -> nc x b = false).
Proof.
  unfold blocked; split.
  - intros H b Hb. exact (existsb_false _ _ H b Hb).
  - intros H. induction u as [|y u IH]; cbn; [reflexivity|].
    rewrite (H y (or_introl eq_refl)). cbn. apply IH. intros b Hb; apply H; right; exact Hb.
Qed.

Lemma scan_result x0 rest m mi : scan nc [x0] rest 1 x0 0 = (m, mi) ->
  scan_inv (x0 :: rest) m mi.
Proof.
  intros H. refine (scan_correct rest [x0] 1 x0 0 eq_refl _ m mi H).
  split.
  - exists [], []; repeat split.
  - intros [|y u] b v E Hb; [cbn in E; inversion E; subst; lia|].
    cbn in E. inversion E as [[E1 E2]]. destruct u; discriminate.
Qed.

(** result of one step *)
Lemma split_step_correct w m1 m2 : 1 < length w -> split_step nc w = (m1, m2) ->
  w ~ m1 ++ m2 /\ length m2 < length w /\
  (forall r, r ~ m2 -> lexmin r -> lexmin (m1 ++ r)).
Proof.
  intros Hlen. unfold split_step.
  destruct (Nat.leb_spec (length w) 1) as [?|_]; [lia|].
  destruct (sub_all nc w) eqn:Hall.
  { intros [= <- <-]. rewrite app_nil_r. split; [apply ce_refl|]. split; [cbn; lia|].
    intros r Hr _. apply ce_length in Hr. destruct r; [|discriminate].
    rewrite app_nil_r. apply sub_all_lexmin; exact Hall. }
  destruct (sub_any nc w) eqn:Hany; cbn [negb].
  - destruct w as [|x0 rest]; [cbn in Hlen; lia|].
    destruct (scan nc [x0] rest 1 x0 0) as [m mi] eqn:Hscan.
    pose proof (scan_result _ _ _ _ Hscan) as [(u & v & Hw & Hu & Hb) Hmin].
    assert (Hle : m <= x0) by (apply (Hmin [] x0 rest eq_refl); reflexivity).
    apply Nat.leb_le in Hle. rewrite Hle. clear Hle Hscan.
    rewrite Hw.
    assert (Hn : nth mi (u ++ m :: v) 0 = m).
    { rewrite app_nth2 by lia. rewrite Hu, Nat.sub_diag. reflexivity. }
    assert (Hf : firstn mi (u ++ m :: v) = u).
    { rewrite firstn_app, Hu, Nat.sub_diag. cbn. rewrite app_nil_r.
      rewrite <- Hu. apply firstn_all. }
    assert (Hsk : skipn (S mi) (u ++ m :: v) = v).
    { replace (u ++ m :: v) with ((u ++ [m]) ++ v) by (rewrite <- app_assoc; reflexivity).
      rewrite skipn_app, skipn_all2 by (rewrite app_length; cbn [length]; lia).
      rewrite app_length. cbn [length]. replace (S mi - (length u + 1)) with 0 by lia. reflexivity. }
    rewrite Hn, Hf, Hsk. intros [= <- <-]. cbn [app].
    assert (Hce : u ++ m :: v ~ m :: u ++ v) by (apply ce_move, blocked_false, Hb).
    split; [exact Hce|]. split; [rewrite !app_length; cbn; lia|].
    intros r Hr Hlm. apply (lexmin_cons m r (u ++ m :: v)).
    + eapply ce_trans; [exact Hce|]. apply ce_cons, ce_sym, Hr.
    + exact Hlm.
    + intros b r' Hp. destruct (pull_split _ _ _ Hp) as (u' & v' & Hs & _ & Hcomm & _).
      rewrite <- Hw in Hs. apply (Hmin u' b v' Hs), blocked_false, Hcomm.
  - intros [= <- <-]. rewrite app_nil_r. split.
    + apply commuting_perm_ce; [apply np_sort_perm|]. apply sub_any_false; exact Hany.
    + split; [cbn; lia|]. intros r Hr _. apply ce_length in Hr. destruct r; [|discriminate].
      rewrite app_nil_r. apply np_sort_lexmin.
Qed.

Lemma short_lexmin w : length w <= 1 -> lexmin w.
Proof.
  destruct w as [|a [|b w]]; cbn; intros H; [apply lexmin_nil|apply lexmin_single|lia].
Qed.

Lemma canon_loop_correct fuel : forall result leftover,
  length leftover <= S fuel ->
  exists r, canon_loop nc fuel result leftover = Some (result ++ r) /\ leftover ~ r /\ lexmin r.
Proof.
  induction fuel as [|fuel IH]; intros result leftover Hlen; cbn [canon_loop].
  - destruct (Nat.ltb_spec 1 (length leftover)) as [?|Hs]; [lia|].
    exists leftover. split; [|split; [apply ce_refl|apply short_lexmin; exact Hs]].
    destruct leftover; cbn; [rewrite app_nil_r|]; reflexivity.
  - destruct (Nat.ltb_spec 1 (length leftover)) as [Hl|Hs].
    + destruct (split_step nc leftover) as [m1 m2] eqn:E.
      destruct (split_step_correct _ _ _ Hl E) as (Hce & Hlt & Hlm).
      destruct (IH (result ++ m1) m2) as (r & Hr & Hrce & Hrlm); [lia|].
      exists (m1 ++ r). rewrite app_assoc. split; [exact Hr|]. split.
      * eapply ce_trans; [exact Hce|]. apply ce_app_l, Hrce.
      * apply Hlm; [apply ce_sym, Hrce|exact Hrlm].
    + exists leftover. split; [|split; [apply ce_refl|apply short_lexmin; exact Hs]].
      destruct leftover; cbn; [rewrite app_nil_r|]; reflexivity.
Qed.

Lemma canon_correct w :
  exists r, nb_lexmon_to_canonical nc w = Some r /\ w ~ r /\ lexmin r.
Proof.
  unfold nb_lexmon_to_canonical.
  destruct (canon_loop_correct (length w) [] w) as (r & H & H1 & H2); [lia|].
  exists r; auto.
Qed.

Lemma canon_total w : nb_lexmon_to_canonical nc w <> None.
Proof. destruct (canon_correct w) as (r & -> & _). discriminate. Qed.

Lemma canon_complete w1 w2 :
  nb_lexmon_to_canonical nc w1 = nb_lexmon_to_canonical nc w2 <-> w1 ~ w2.
Proof.
  destruct (canon_correct w1) as (r1 & E1 & C1 & L1).
  destruct (canon_correct w2) as (r2 & E2 & C2 & L2).
  rewrite E1, E2. split.
  - intros [= ->]. eapply ce_trans; [exact C1|apply ce_sym, C2].
  - intros H. f_equal. apply lexmin_unique; [exact L1|exact L2|].
    eapply ce_trans; [apply ce_sym, C1|]. eapply ce_trans; [exact H|exact C2].
Qed.

(** ** Local characterisation of lexicographically least words *)
Definition ok_head (x : nat) (w : word) : Prop :=
  forall a r, a < x -> pull a w = Some r -> nc a x = true.
Fixpoint anf (w : word) : Prop :=
  match w with [] => True | x :: w' => ok_head x w' /\ anf w' end.

Lemma lexmin_tail x w : lexmin (x :: w) -> lexmin w.
Proof.
  intros H w' Hw. specialize (H (x :: w') (ce_cons x _ _ Hw)).
  inversion H; subst; [lia|assumption].
Qed.

Lemma lexmin_anf w : lexmin w -> anf w.
Proof.
  induction w as [|x w IH]; cbn; [auto|]. intros H. split.
  - intros a r Hlt Hp. destruct (nc a x) eqn:E; [reflexivity|exfalso].
    assert (C : a :: x :: r ~ x :: w).
    { eapply ce_trans; [apply (ce_swap nc [] a x r E)|]. cbn. apply ce_cons, ce_sym, pull_ce, Hp. }
    specialize (H _ C). inversion H; subst; lia.
  - apply IH. eapply lexmin_tail; exact H.
Qed.

Lemma anf_lexmin w : anf w -> lexmin w.
Proof.
  induction w as [|x w IH]; cbn; [intros _; apply lexmin_nil|].
  intros [Hok Ha]. apply (lexmin_cons x w (x :: w)); [apply ce_refl|auto|].
  intros b r Hp. cbn in Hp. destruct (Nat.eqb_spec x b) as [->|Hne]; [lia|].
  destruct (Nat.le_gt_cases x b) as [|Hlt]; [assumption|exfalso].
  destruct (nc b x) eqn:E; [discriminate|].
  destruct (pull b w) as [r'|] eqn:Ep; [|discriminate].
  rewrite (Hok b r' Hlt Ep) in E. discriminate.
Qed.

Lemma canon_anf w r : nb_lexmon_to_canonical nc w = Some r -> anf r.
Proof.
  intros H. destruct (canon_correct w) as (r' & E & _ & L). rewrite E in H.
  injection H as <-. apply lexmin_anf, L.
Qed.

Lemma canon_fix w : anf w -> nb_lexmon_to_canonical nc w = Some w.
Proof.
  intros H. destruct (canon_correct w) as (r & E & C & L). rewrite E. f_equal.
  symmetry. apply lexmin_unique; [apply anf_lexmin, H|exact L|exact C].
Qed.

(** doubling a letter *)
Lemma pull_double s a t b :
  (exists r, pull b (s ++ a :: t) = Some r) <-> (exists r, pull b (s ++ a :: a :: t) = Some r).
Proof.
  induction s as [|x s IH]; cbn.
  - destruct (Nat.eqb_spec a b) as [->|Hne].
    + split; eauto.
    + destruct (nc b a); [split; intros [r H]; discriminate|].
      destruct (pull b t); split; intros [r H]; try discriminate; eauto.
  - destruct (Nat.eqb_spec x b); [split; eauto|].
    destruct (nc b x); [split; intros [r H]; discriminate|].
    destruct (pull b (s ++ a :: t)) as [r1|], (pull b (s ++ a :: a :: t)) as [r2|];
      destruct IH as [I1 I2]; split; intros [r H]; eauto; discriminate.
Qed.

Lemma anf_double s a t : anf (s ++ a :: t) <-> anf (s ++ a :: a :: t).
Proof.
  induction s as [|x s IH]; cbn.
  - split.
    + intros [H1 H2]. split; [|split; assumption].
      intros b r Hlt Hp. cbn in Hp. destruct (Nat.eqb_spec a b) as [->|]; [lia|].
      destruct (nc b a) eqn:E; [reflexivity|].
      destruct (pull b t) as [r'|] eqn:Ep; [|discriminate].
      pose proof (H1 b r' Hlt Ep). congruence.
    + intros [_ H]; exact H.
  - rewrite IH. split; intros [H1 H2]; split; auto; intros b r Hlt Hp.
    + assert (Hx : exists r', pull b (s ++ a :: t) = Some r') by (apply (proj2 (pull_double s a t b)); eauto).
      destruct Hx as [r' Hr']. eapply H1; eassumption.
    + assert (Hx : exists r', pull b (s ++ a :: a :: t) = Some r') by (apply (proj1 (pull_double s a t b)); eauto).
      destruct Hx as [r' Hr']. eapply H1; eassumption.
Qed.

(** a marked occurrence can be followed through commutations *)
Lemma ce_mark w w' : w ~ w' ->
  (forall u a v, w = u ++ a :: v ->
     exists s t, w' = s ++ a :: t /\ u ++ a :: a :: v ~ s ++ a :: a :: t) /\
  (forall u a v, w' = u ++ a :: v ->
     exists s t, w = s ++ a :: t /\ u ++ a :: a :: v ~ s ++ a :: a :: t).
Proof.
  assert (Hswap : forall p x y q, nc x y = false -> forall u a v,
     p ++ x :: y :: q = u ++ a :: v ->
     exists s t, p ++ y :: x :: q = s ++ a :: t /\ u ++ a :: a :: v ~ s ++ a :: a :: t).
  { intros p x y q Hxy. induction p as [|z p IH]; intros [|z' u] a v E; cbn in E.
    - injection E as <- <-. exists [y], q. split; [reflexivity|]. cbn.
      eapply ce_trans; [apply (ce_swap nc [x] x y q Hxy)|]. cbn.
      apply (ce_swap nc [] x y (x :: q) Hxy).
    - destruct u as [|z'' u]; cbn in E.
      + injection E as <- <- <-. exists [], (x :: q). split; [reflexivity|]. cbn.
        eapply ce_trans; [apply (ce_swap nc [] x y (y :: q) Hxy)|]. cbn.
        apply (ce_swap nc [y] x y q Hxy).
      + injection E as <- <- ->. exists (y :: x :: u), v. split; [reflexivity|].
        cbn. apply (ce_swap nc [] x y _ Hxy).
    - injection E as <- <-. exists [], (p ++ y :: x :: q). split; [reflexivity|]. cbn.
      apply ce_cons, ce_cons, ce_swap, Hxy.
    - injection E as <- E. destruct (IH u a v E) as (s & t & H1 & H2).
      exists (z :: s), t. cbn. rewrite H1. split; [reflexivity|]. apply ce_cons, H2. }
  induction 1 as [w|p x y q Hc|w1 w2 _ IH|w1 w2 w3 _ IH1 _ IH2].
  - split; intros u a v ->; exists u, v; (split; [reflexivity|apply ce_refl]).
  - split; [apply Hswap, Hc|]. apply Hswap. rewrite nc_sym; exact Hc.
  - destruct IH; split; assumption.
  - destruct IH1 as [A1 B1], IH2 as [A2 B2]; split; intros u a v E.
    + destruct (A1 u a v E) as (s & t & H1 & H2). destruct (A2 s a t H1) as (s' & t' & H3 & H4).
      exists s', t'; split; [exact H3|eapply ce_trans; eassumption].
    + destruct (B2 u a v E) as (s & t & H1 & H2). destruct (B1 s a t H1) as (s' & t' & H3 & H4).
      exists s', t'; split; [exact H3|eapply ce_trans; eassumption].
Qed.

Lemma canon_double u a v r : nb_lexmon_to_canonical nc (u ++ a :: v) = Some r ->
  exists s t, r = s ++ a :: t /\
    nb_lexmon_to_canonical nc (u ++ a :: a :: v) = Some (s ++ a :: a :: t).
Proof.
  intros H. destruct (canon_correct (u ++ a :: v)) as (r' & E & C & L).
  rewrite E in H; injection H as ->.
  destruct (proj1 (ce_mark _ _ C) u a v eq_refl) as (s & t & -> & C2).
  exists s, t. split; [reflexivity|].
  apply canon_complete in C2. rewrite C2. apply canon_fix, (proj1 (anf_double s a t)), lexmin_anf, L.
Qed.

(** ** Reversal *)
Lemma ce_rev u v : u ~ v -> rev u ~ rev v.
Proof.
  induction 1 as [w|p x y q Hc|w1 w2 _ IH|w1 w2 w3 _ IH1 _ IH2].
  - apply ce_refl.
  - rewrite !rev_app_distr. cbn. rewrite <- !app_assoc. cbn. apply ce_swap.
    rewrite nc_sym; exact Hc.
  - apply ce_sym; exact IH.
  - eapply ce_trans; eassumption.
Qed.

(** ** Pairs that can meet *)
(** two letters p..q such that every letter between commutes with both *)
Definition meets (P : nat -> nat -> Prop) (w : word) : Prop :=
  exists u p m q v, w = u ++ p :: m ++ q :: v /\ P p q /\
    (forall x, In x m -> nc x p = false /\ nc x q = false).

Lemma anf_pair u p m x v : anf (u ++ p :: m ++ x :: v) ->
  (forall y, In y (p :: m) -> nc x y = false) -> p <= x.
Proof.
  intros H Hc. induction u as [|z u IH]; cbn in H; destruct H as [H1 H2].
  - destruct (Nat.le_gt_cases p x) as [|Hlt]; [assumption|exfalso].
    destruct (pull_avail m x v) as [r Hr].
    { intros b Hb; apply Hc; right; exact Hb. }
    pose proof (H1 x r Hlt Hr) as E. rewrite (Hc p (or_introl eq_refl)) in E. discriminate.
  - apply IH, H2.
Qed.

End Comm.

Arguments pull nc a w : assert.

Lemma canon_least : forall nc w r w', good_comm nc ->
  nb_lexmon_to_canonical nc w = Some r ->
  comm_eq nc w r /\ (comm_eq nc w' w -> lex_le r w').
Proof.
  intros nc w r w' H E. destruct (canon_correct nc H w) as (r' & E' & C & L).
  rewrite E in E'; injection E' as <-. split; [exact C|].
  intros Hw. apply L. eapply ce_trans; [exact Hw|exact C].
Qed.
