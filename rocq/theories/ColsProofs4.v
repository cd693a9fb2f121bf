(** Proofs about column generation, part 4: physical monomials. *)
From Coq Require Import Permutation Sorted.
From Verif Require Import CanonModel CanonSpec CanonProofs CanonProofs2 ScenarioModel ScenarioSpec ScenarioProofs
  SymProofs LPModel CliqueModel CliqueSpec CliqueProofs LPProofs LPProofs2 LPProofs3 LPProofs8 PropClique
  ColsModel MemoModel ColsSpec ColsProofs ColsProofs2 ColsProofs3.
Close Scope Q_scope. Close Scope Qc_scope. Open Scope nat_scope.

(** ** sorting by (length, tuple) *)
Lemma tuple_lt_trans a : forall b c, tuple_lt a b = true -> tuple_lt b c = true -> tuple_lt a c = true.
Proof.
  induction a as [|x a IH]; intros [|y b] [|z c]; cbn [tuple_lt]; try congruence.
  destruct (Nat.eqb_spec x y), (Nat.eqb_spec y z), (Nat.eqb_spec x z); subst; rewrite ?Nat.ltb_lt; intros; try lia; try congruence; eauto.
Qed.
Lemma tuple_lt_total a : forall b, tuple_lt a b = false -> a = b \/ tuple_lt b a = true.
Proof.
  induction a as [|x a IH]; intros [|y b]; cbn; try (intros; auto; congruence).
  rewrite (Nat.eqb_sym y x). destruct (Nat.eqb_spec x y) as [->|H].
  - intros K. destruct (IH b K) as [->|]; auto.
  - intros K. apply Nat.ltb_ge in K. right. apply Nat.ltb_lt. lia.
Qed.
Lemma tuple_lt_irrefl a : tuple_lt a a = false.
Proof. induction a as [|x a IH]; cbn; [reflexivity|]. rewrite Nat.eqb_refl. exact IH. Qed.
Lemma word_lt_trans a b c : word_lt a b = true -> word_lt b c = true -> word_lt a c = true.
Proof.
  unfold word_lt. destruct (Nat.eqb_spec (length a) (length b)), (Nat.eqb_spec (length b) (length c)), (Nat.eqb_spec (length a) (length c)); rewrite ?Nat.ltb_lt; try lia; eauto using tuple_lt_trans.
Qed.
Lemma word_lt_total a b : word_lt a b = false -> a = b \/ word_lt b a = true.
Proof.
  unfold word_lt. rewrite (Nat.eqb_sym (length b)). destruct (Nat.eqb_spec (length a) (length b)).
  - apply tuple_lt_total.
  - rewrite Nat.ltb_ge, Nat.ltb_lt. intros; right; lia.
Qed.
Lemma word_lt_irrefl a : word_lt a a = false.
Proof. unfold word_lt. rewrite Nat.eqb_refl. apply tuple_lt_irrefl. Qed.
Definition word_le (a b : word) : Prop := a = b \/ word_lt a b = true.
Lemma word_le_trans a b c : word_le a b -> word_le b c -> word_le a c.
Proof. intros [->|H] [->|K]; [left; reflexivity|right; assumption..|]. right. eapply word_lt_trans; eassumption. Qed.
Lemma sort_insert_sorted x l : StronglySorted word_le l -> StronglySorted word_le (sort_insert word_lt x l).
Proof.
  intros H. induction H as [|y l H IH F]; cbn [sort_insert]; [repeat constructor|].
  destruct (word_lt y x) eqn:E.
  - constructor; [exact IH|]. rewrite Forall_forall in *. intros z Hz. apply (Permutation_in _ (Permutation_sym (sort_insert_perm word_lt x l))) in Hz as [<-|Hz]; [right; exact E|apply F, Hz].
  - assert (K : word_le x y) by (destruct (word_lt_total _ _ E) as [->|K]; [left; reflexivity|right; exact K]).
    constructor; [constructor; assumption|]. constructor; [exact K|]. rewrite Forall_forall in *. intros z Hz. eapply word_le_trans; [exact K|apply F, Hz].
Qed.
Lemma py_sorted_sorted l : StronglySorted word_le (py_sorted word_lt l).
Proof. induction l; cbn [py_sorted]; [constructor|apply sort_insert_sorted; assumption]. Qed.
Lemma py_sorted_strict l : NoDup l -> StronglySorted (fun a b => word_lt a b = true) (py_sorted word_lt l).
Proof.
  intros N. apply (Permutation_NoDup (py_sorted_perm word_lt l)) in N. pose proof (py_sorted_sorted l) as H.
  revert N H. generalize (py_sorted word_lt l). induction l0 as [|x m IH]; intros N H; [constructor|]. inversion N; inversion H; subst.
  constructor; [auto|]. rewrite Forall_forall in *. intros z Hz. destruct (H7 z Hz) as [->|K]; [contradiction|exact K].
Qed.

Section Physical.
Variables (sc : scenario) (hc : list bool) (commuting : bool).
Hypothesis W : wf_scenario sc.
Hypothesis Hout : forall o, In o (outcomes sc) -> 1 <= o.
Notation nc := (sdp_notcomm sc).
Notation ortho := (sdp_orthomat sc).
Let G : good_tables nc ortho := scenario_good_tables sc W.
Notation N := (length (lexorder sc)).
Notation T := (tagged_groups sc false).
Definition groups' : list (bool * list nat) := sdp_groups sc hc ++ [(true, [N])].

Lemma snd_sdp : map snd (sdp_groups sc hc) = ortho_idxs sc.
Proof.
  pose proof (parties_length sc) as H. unfold sdp_groups. revert H. generalize (group_parties sc), (ortho_idxs sc).
  induction l as [|p l IH]; intros [|b bs] H; try discriminate; [reflexivity|]. cbn. f_equal. apply IH. cbn in H. lia.
Qed.
Lemma sdp_length : length (sdp_groups sc hc) = length T.
Proof. rewrite <- (map_length snd), snd_sdp, <- (snd_groups sc false), map_length. reflexivity. Qed.
Lemma cat' : concat (map snd groups') = seq 0 (S N).
Proof.
  unfold groups'. rewrite map_app, concat_app, snd_sdp. rewrite <- (snd_groups sc false), (groups_cat sc false). cbn [map snd concat app].
  rewrite seq_S. reflexivity.
Qed.
Lemma grp_eq t : t < length T -> grp groups' t = grp T t.
Proof.
  intros H. unfold grp, groups'. rewrite app_nth1 by (rewrite sdp_length; exact H).
  rewrite <- !(map_nth snd). f_equal. rewrite snd_sdp, (snd_groups sc false). reflexivity.
Qed.
Lemma ne' : forall t, In t groups' -> snd t <> [].
Proof.
  intros t H. apply in_app_iff in H as [H|[<-|[]]]; [|discriminate].
  assert (K : In (snd t) (map snd T)) by (rewrite (snd_groups sc false), <- snd_sdp; apply in_map, H).
  apply in_map_iff in K as (u & <- & Hu). apply (groups_ne sc Hout false u Hu).
Qed.
(** the flag of a group *)
Lemma flag_eq t p c s : measures sc false t p c s -> flag groups' t = nth p hc false /\ nth t (group_parties sc) 0 = p.
Proof.
  intros M.
  assert (Hp : nth t (group_parties sc) 0 = p).
  { destruct (paired sc) as (ms & E1 & E2 & E3). destruct (nth_error ms t) as [[[p' c'] s']|] eqn:E.
    - pose proof (measures_nth sc Hout false ms t p' c' s' E1 E2 E3 E) as M'. rewrite E1.
      erewrite nth_error_nth; [|apply map_nth_error, E]. cbn [fst].
      destruct M as (_ & Hp & _ & _ & _ & R). destruct M' as (_ & Hp' & _ & _ & _ & R').
      pose proof (R 0 (LPProofs8.positive sc Hout p Hp)) as A. pose proof (R' 0 (LPProofs8.positive sc Hout p' Hp')) as B.
      assert (K : mkrow (p + 1) c s 0 = mkrow (p' + 1) c' s' 0) by congruence. apply (f_equal row_party) in K. rewrite !mkrow_party in K. lia.
    - exfalso. apply nth_error_None in E. destruct M as (L & _). rewrite (nr_groups_eq sc false), E2, map_length in L. lia. }
  split; [|exact Hp]. destruct M as (L & _). unfold flag, groups'. rewrite app_nth1 by (rewrite sdp_length; exact L).
  rewrite <- Hp. unfold sdp_groups. rewrite (nth_indep _ _ (nth 0 hc false, [])).
  - rewrite combine_nth by (rewrite map_length; apply parties_length). cbn [fst].
    rewrite (map_nth (fun p => nth p hc false)). reflexivity.
  - rewrite <- sdp_length in L. exact L.
Qed.
(** the operators of a group that are used *)
Lemma lim_usable t p c s i : measures sc false t p c s ->
  (In i (lim groups' t) <-> exists o, i = hd 0 (grp T t) + o /\ o < nth p (outcomes sc) 0 /\ (nth p hc false = true \/ o + 1 < nth p (outcomes sc) 0)).
Proof.
  intros M. destruct (flag_eq _ _ _ _ M) as [Hf _]. unfold lim. rewrite Hf. assert (L : t < length T) by apply M.
  rewrite (grp_eq t L). rewrite (measures_grp sc false t p c s M). set (h := hd 0 _).
  assert (P : 1 <= nth p (outcomes sc) 0) by (apply LPProofs8.positive; [exact Hout|apply M]).
  destruct (nth p (outcomes sc) 0) as [|k]; [lia|]. cbn [seq hd].
  destruct (nth p hc false).
  - change (h :: seq (S h) k) with (seq h (S k)). rewrite in_seq. split.
    + intros H. exists (i - h). lia.
    + intros (o & -> & H & _). lia.
  - change (h :: seq (S h) k) with (seq h (S k)). rewrite seq_S, List.removelast_last, in_seq. split.
    + intros H. exists (i - h). lia.
    + intros (o & -> & H & [K|K]); [discriminate|lia].
Qed.

Lemma measured i : i < N -> exists t p c s o, measures sc false t p c s /\ In i (grp T t) /\ i = hd 0 (grp T t) + o /\ o < nth p (outcomes sc) 0 /\
  nth_error (lexorder sc) i = Some (mkrow (p + 1) c s o).
Proof.
  intros Hi. destruct (grp_cover N T (groups_cat sc false) (groups_ne sc Hout false) i Hi) as (t & Lt & Hin).
  destruct (measures_exists sc Hout false t Lt) as (p & c & s & M). pose proof Hin as Hin'. rewrite (measures_grp sc false t p c s M) in Hin. apply in_seq in Hin.
  exists t, p, c, s, (i - hd 0 (grp T t)). split; [exact M|]. split; [exact Hin'|]. split; [lia|]. split; [lia|].
  destruct M as (_ & _ & _ & _ & _ & R). rewrite <- (R (i - hd 0 (grp T t))) by lia. f_equal. lia.
Qed.
Lemma row_parts p c s o p' c' s' o' : mkrow (p + 1) c s o = mkrow (p' + 1) c' s' o' -> p = p' /\ c = c' /\ s = s' /\ o = o'.
Proof.
  intros E. pose proof (f_equal row_party E) as E1. pose proof (f_equal row_copies E) as E2. pose proof (f_equal row_setting E) as E3. pose proof (f_equal row_outcome E) as E4.
  rewrite !ScenarioProofs.mkrow_party in E1. rewrite !ScenarioProofs.mkrow_copies in E2. rewrite !ScenarioProofs.mkrow_setting in E3. rewrite !ScenarioProofs.mkrow_outcome in E4. repeat split; try assumption. lia.
Qed.
(** the measurement of an operator *)
Definition tm (x : nat) : nat := hd 0 (filter (fun t => existsb (Nat.eqb (x - 1)) (grp T t)) (seq 0 (length T))).
Lemma tm_of i t : In i (grp T t) -> tm (S i) = t.
Proof.
  intros H. unfold tm. cbn [Nat.sub]. rewrite Nat.sub_0_r.
  assert (K : forall u, existsb (Nat.eqb i) (grp T u) = true <-> u = t).
  { intros u. rewrite existsb_exists. split.
    - intros (j & Hj & E). apply Nat.eqb_eq in E. subst j. apply (grp_unique N T (groups_cat sc false) (groups_ne sc Hout false) u t i Hj H).
    - intros ->. exists i. split; [exact H|apply Nat.eqb_refl]. }
  assert (L : t < length T) by (apply (grp_lt N T (groups_cat sc false) (groups_ne sc Hout false) t i H)).
  destruct (filter _ (seq 0 (length T))) as [|u l] eqn:E.
  - exfalso. assert (In t (filter (fun t => existsb (Nat.eqb i) (grp T t)) (seq 0 (length T)))) as A by (apply filter_In; split; [apply in_seq; lia|apply K; reflexivity]).
    rewrite E in A. destruct A.
  - cbn [hd]. apply K. assert (In u (filter (fun t => existsb (Nat.eqb i) (grp T t)) (seq 0 (length T)))) as A by (rewrite E; left; reflexivity).
    apply filter_In in A. tauto.
Qed.
(** usable operators in terms of groups *)
Lemma usable_group x q : usable sc hc x q <-> exists i t c s, x = S i /\ measures sc false t q c s /\ In i (lim groups' t).
Proof.
  split.
  - intros U. pose proof (usable_nz sc hc x q U) as NZ. destruct x as [|i]; [congruence|]. destruct U as (Hq & c & s & o & E & D). rewrite sdp_nth in E.
    assert (Hi : i < N) by (apply nth_error_Some; rewrite E; discriminate).
    destruct (measured i Hi) as (t & p & c' & s' & o' & M & Hin & Ei & Ho & E').
    assert (EE : mkrow (q + 1) c s o = mkrow (p + 1) c' s' o') by congruence. apply row_parts in EE as (-> & -> & -> & ->).
    exists i, t, c', s'. split; [reflexivity|]. split; [exact M|]. apply (lim_usable t p c' s' i M). exists o'. auto.
  - intros (i & t & c & s & -> & M & Hin). apply (lim_usable t q c s i M) in Hin as (o & -> & Ho & D). destruct M as (_ & Hq & _ & _ & _ & R).
    split; [exact Hq|]. exists c, s, o. split; [rewrite sdp_nth; apply R, Ho|exact D].
Qed.
Lemma lim_grp t i : t < length T -> In i (lim groups' t) -> In i (grp T t).
Proof. intros L H. rewrite <- (grp_eq t L). apply (lim_in (S N) groups' cat' ne'), H. Qed.

(** operators of one measurement, and of two measurements *)
Lemma same_ortho t i j : In i (grp T t) -> In j (grp T t) -> i <> j -> ortho (S i) (S j) = true.
Proof.
  intros Hi Hj Hne.
  assert (Li : i < N) by (apply (grp_range N T (groups_cat sc false) (groups_ne sc Hout false) t i Hi)).
  assert (Lj : j < N) by (apply (grp_range N T (groups_cat sc false) (groups_ne sc Hout false) t j Hj)).
  assert (Lt : t < length T) by (apply (grp_lt N T (groups_cat sc false) (groups_ne sc Hout false) t i Hi)).
  destruct (measures_exists sc Hout false t Lt) as (p & c & s & M). rewrite (measures_grp sc false t p c s M) in Hi, Hj. apply in_seq in Hi, Hj.
  destruct M as (_ & _ & _ & _ & _ & R). set (h := hd 0 (grp T t)) in *.
  pose proof (R (i - h) ltac:(lia)) as Ri. pose proof (R (j - h) ltac:(lia)) as Rj. replace (h + (i - h)) with i in Ri by lia. replace (h + (j - h)) with j in Rj by lia.
  apply sdp_ortho_S. eexists. eexists. split; [exact Ri|]. split; [exact Rj|]. rewrite !ScenarioProofs.mkrow_outcome. split; [exact Hne|]. split; [lia|].
  rewrite !mkrow_removelast. reflexivity.
Qed.
Lemma ortho_same t i j : In i (grp T t) -> ortho (S i) (S j) = true -> In j (grp T t).
Proof.
  intros Hi H. apply sdp_ortho_S in H as (a & b & Ha & Hb & _ & _ & R).
  assert (Li : i < N) by (apply nth_error_Some; rewrite Ha; discriminate).
  assert (Lj : j < N) by (apply nth_error_Some; rewrite Hb; discriminate).
  destruct (measured i Li) as (t1 & p & c & s & o & M & Hin & Ei & Ho & E).
  destruct (measured j Lj) as (t2 & p' & c' & s' & o' & M' & Hin' & Ej & Ho' & E').
  rewrite <- (grp_unique N T (groups_cat sc false) (groups_ne sc Hout false) t1 t i Hin Hi).
  assert (a = mkrow (p + 1) c s o) as -> by congruence. assert (b = mkrow (p' + 1) c' s' o') as -> by congruence.
  rewrite !mkrow_removelast in R. injection R as Rp Rc. apply app_inj_tail in Rc as [-> ->]. assert (p' = p) as -> by lia.
  pose proof M as (_ & _ & _ & _ & _ & Rw). specialize (Rw o' Ho').
  assert (hd 0 (grp T t1) + o' = j) as <-.
  { apply (proj1 (NoDup_nth_error (lexorder sc)) (ScenarioProofs.lexorder_NoDup sc W)).
    - apply nth_error_Some. rewrite Rw. discriminate.
    - exact (eq_trans Rw (eq_sym E')). }
  rewrite (measures_grp sc false t1 _ _ _ M). apply in_seq.
  assert (EE : hd 0 (seq (hd 0 (grp T t1)) (nth p (outcomes sc) 0)) = hd 0 (grp T t1)) by (rewrite <- (measures_grp sc false t1 _ _ _ M); reflexivity). lia.
Qed.
Lemma compat_nc t u i j : In i (grp T t) -> In j (grp T u) -> (compatible sc t u = true <-> nc (S i) (S j) = false).
Proof.
  intros Hi Hj.
  assert (Lt : t < length T) by (apply (grp_lt N T (groups_cat sc false) (groups_ne sc Hout false) t i Hi)).
  assert (Lu : u < length T) by (apply (grp_lt N T (groups_cat sc false) (groups_ne sc Hout false) u j Hj)).
  destruct (measures_exists sc Hout false t Lt) as (p & c & s & M). destruct (measures_exists sc Hout false u Lu) as (p' & c' & s' & M').
  rewrite (compat_rule sc W Hout false t u p c s p' c' s' M M').
  rewrite (measures_grp sc false t p c s M) in Hi. rewrite (measures_grp sc false u p' c' s' M') in Hj. apply in_seq in Hi, Hj.
  destruct M as (_ & _ & _ & _ & _ & R), M' as (_ & _ & _ & _ & _ & R'). set (h := hd 0 (grp T t)) in *. set (h' := hd 0 (grp T u)) in *.
  pose proof (R (i - h) ltac:(lia)) as Ri. pose proof (R' (j - h') ltac:(lia)) as Rj. replace (h + (i - h)) with i in Ri by lia. replace (h' + (j - h')) with j in Rj by lia.
  symmetry. apply (default_notcomm_spec sc i j _ _ _ _ _ _ _ _ W Ri Rj).
Qed.
End Physical.
