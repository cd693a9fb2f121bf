(** When the probability of every column is the product of the probabilities of its factors, all
    events with different source copies are independent. *)
From Coq Require Import List Arith Bool QArith Qcanon Lia Permutation Sorted Relation_Operators.
From Verif Require Import CanonModel ScenarioModel ScenarioSpec SymModel SymSpec FactorModel FactorSpec MargModel QcSum LPModel LPSpec LPSpec2 CliqueSpec InflatedSpec LPMomentModel LPMomentProofs LPMomentProofs2 ColumnsFacts SoundProofs GlueProofs GenerateProofs FactCondSpec.
From Verif Require ScenarioProofs SymProofs FactorProofs ClassicalProofs LPProofs LPProofs2 LPProofs3 LPProofs4 LPProofs5 LPProofs6 LPProofs8 LPProofs10.
Import ListNotations.
Close Scope Q_scope. Close Scope Qc_scope. Open Scope nat_scope.

Section Indep.
Variables (sc : scenario) (W : wf_scenario sc) (Hout : forall o, In o (outcomes sc) -> 1 <= o).
Notation n := (length (lexorder sc)).
Notation syms := (discover_lexorder_symmetries sc).
Hypothesis FC : few_copies sc.
Variables (prog : programme) (ao : bool) (EP : scenario_lp sc ao = Some prog).
Notation groups := (tagged_groups sc ao).
Notation grp := (LPProofs2.grp groups).
Notation lst := (LPProofs2.lst groups).
Notation crit := (LPProofs2.crit groups).
Notation fac v := (factors sc (flatnonzero v)).
Notation ev := (event_of sc).
Let Hcat := LPProofs8.groups_cat sc ao.
Let Hne := LPProofs8.groups_ne sc Hout ao.
Let Hund := LPProofs8.compat_und sc ao.
Let CF := columns_ok sc W Hout ao prog EP.
Variables (P : list bool -> Qc) (B : scenario_behaviour sc P) (I : relabelling_invariant sc P).

Definition sep (vs ws : list nat) : Prop := forall i j, In i vs -> In j ws -> ~ share_copy (copies sc i) (copies sc j).
Lemma share_sym a b : share_copy a b -> share_copy b a.
Proof. intros (k & H1 & H2). exists k. split; congruence. Qed.
Lemma sep_sym vs ws : sep vs ws -> sep ws vs.
Proof. intros H i j Hi Hj K. apply (H j i Hj Hi), share_sym, K. Qed.

(** ** Columns *)
(** the factors of a column, some of them *)
Lemma part_image z p : In z (lp_columns prog) -> exists w sg g, In w (lp_columns prog) /\ moved sc sg g (concat (filter p (fac z))) (flatnonzero w) /\ Permutation (map (preimage sc g) (filter p (fac z))) (fac w).
Proof.
  intros Hv. set (fs0 := filter p (fac z)). pose proof (fac_facts sc W Hout FC prog ao EP z Hv) as F. assert (Bz : forall k, In k (flatnonzero z) -> k < n) by (intros k; apply (fac_range sc W Hout prog ao EP), Hv).
  pose proof (factors_part sc W _ _ fs0 Bz F (ex_intro _ p eq_refl)) as F0.
  assert (Sub : forall k, In k (concat fs0) -> In k (flatnonzero z)).
  { intros k Hk. apply in_concat in Hk as (f & Hf & Hk). apply (ff_in _ _ _ F). exists f. split; [apply filter_In in Hf; apply Hf|exact Hk]. }
  destruct (cf_closed _ _ CF z (ev (concat fs0)) Hv (event_of_length sc _)) as (w & Hw & Rw).
  { intros i Hi. apply event_of_nth in Hi as [_ Hi]. apply flatnonzero_in, Sub, Hi. }
  rewrite <- (event_of_flat sc w (cf_length _ _ CF w Hw)) in Rw. apply (related_moved sc W) in Rw as (sg & g & M).
  assert (Bw : forall k, In k (flatnonzero w) -> k < n) by (intros k; apply (fac_range sc W Hout prog ao EP), Hw).
  exists w, sg, g. split; [exact Hw|]. split; [exact M|].
  apply (factors_unique sc W _ _ _ _ Bw (fun k => iff_refl _) (factors_moved sc W sg g _ _ fs0 M (fun k Hk => Bz k (Sub k Hk)) Bw F0) (fac_facts sc W Hout FC prog ao EP w Hw)).
Qed.
Lemma related_ev f f' : LPProofs4.related syms (ev f) (ev f') -> P (ev f') = P (ev f).
Proof. intros R. apply (related_prob sc W P I _ _ (event_of_length sc f) R). Qed.
Lemma preimage_prob sg g f : is_relabelling sc sg -> induces sc sg g -> P (ev (preimage sc g f)) = P (ev f).
Proof. intros R J. apply related_ev, (related_moved sc W). exists sg, g. split; [exact R|]. split; [exact J|]. intros i Hi. rewrite preimage_in. tauto. Qed.

Hypothesis HA : forall z, In z (lp_columns prog) -> P z = prodQ (map (fun f => P (ev f)) (fac z)).
Lemma part_prob z p : In z (lp_columns prog) -> P (ev (concat (filter p (fac z)))) = prodQ (map (fun f => P (ev f)) (filter p (fac z))).
Proof.
  intros Hz. destruct (part_image z p Hz) as (w & sg & g & Hw & M & Pm).
  assert (E : P w = P (ev (concat (filter p (fac z))))).
  { rewrite <- (event_of_flat sc w (cf_length _ _ CF w Hw)) at 1. apply related_ev, (related_moved sc W). eauto. }
  rewrite <- E, (HA w Hw), <- (prodQ_perm _ _ (Permutation_map (fun f => P (ev f)) Pm)), map_map. f_equal. apply map_ext. intros f. destruct M as (R & J & _). apply (preimage_prob sg g f R J).
Qed.
Lemma prod_split (p : list nat -> bool) (f : list nat -> Qc) l : prodQ (map f l) = (prodQ (map f (filter p l)) * prodQ (map f (filter (fun x => negb (p x)) l)))%Qc.
Proof. induction l as [|a l IH]; cbn [map filter]; [rewrite !prodQ_nil; ring|]. destruct (p a); cbn [negb map]; rewrite !prodQ_cons, IH; ring. Qed.
(** independence within columns *)
Lemma column_independent z vs ws : In z (lp_columns prog) -> (forall i, In i (vs ++ ws) -> i < n) -> z = ev (vs ++ ws) -> sep vs ws -> P z = (P (ev vs) * P (ev ws))%Qc.
Proof.
  intros Hz Bo E Sp. pose proof (fac_facts sc W Hout FC prog ao EP z Hz) as F. assert (Bz : forall k, In k (flatnonzero z) -> k < n) by (intros k; apply (fac_range sc W Hout prog ao EP), Hz).
  assert (Zin : forall k, In k (flatnonzero z) <-> In k (vs ++ ws)).
  { intros k. rewrite flatnonzero_in, E, event_of_nth. split; [tauto|]. intros H. split; [apply Bo, H|exact H]. }
  assert (Cn : forall k k', connected sc (flatnonzero z) k k' -> (In k vs <-> In k' vs)).
  { intros k k' H. induction H as [x y (H1 & H2 & H3)|x|x y _ IH|x y u _ IH1 _ IH2]; [|tauto|tauto|tauto].
    apply Zin, in_app_iff in H1. apply Zin, in_app_iff in H2. split; intros K.
    - destruct H2 as [H2|H2]; [exact H2|]. destruct (Sp x y K H2 H3).
    - destruct H1 as [H1|H1]; [exact H1|]. destruct (Sp y x K H1 (share_sym _ _ H3)). }
  set (p := fun f : list nat => memb (hd 0 f) vs).
  assert (Pf : forall f k, In f (fac z) -> In k f -> (p f = true <-> In k vs)).
  { intros f k Hf Hk. unfold p. rewrite ScenarioProofs.memb_in. pose proof (ff_nonempty _ _ _ F f Hf) as NE. destruct f as [|h f]; [congruence|]. cbn [hd]. apply Cn. apply (ff_connected _ _ _ F (h :: f)); [exact Hf|left; reflexivity|exact Hk]. }
  assert (E1 : ev vs = ev (concat (filter p (fac z)))).
  { apply event_of_ext. intros i Hi. split.
    - intros H. assert (K : In i (flatnonzero z)) by (apply Zin, in_or_app; left; exact H). apply (ff_in _ _ _ F) in K as (f & Hf & Hk). apply in_concat. exists f. split; [|exact Hk]. apply filter_In. split; [exact Hf|]. apply (Pf f i Hf Hk), H.
    - intros H. apply in_concat in H as (f & Hf & Hk). apply filter_In in Hf as [Hf Q]. apply (Pf f i Hf Hk), Q. }
  assert (E2 : ev ws = ev (concat (filter (fun f => negb (p f)) (fac z)))).
  { apply event_of_ext. intros i Hi. split.
    - intros H. assert (K : In i (flatnonzero z)) by (apply Zin, in_or_app; right; exact H). apply (ff_in _ _ _ F) in K as (f & Hf & Hk). apply in_concat. exists f. split; [|exact Hk]. apply filter_In. split; [exact Hf|].
      destruct (p f) eqn:Q; [|reflexivity]. exfalso. apply (Pf f i Hf Hk) in Q. apply (Sp i i Q H), (copies_self sc W i Hi).
    - intros H. apply in_concat in H as (f & Hf & Hk). apply filter_In in Hf as [Hf Q]. assert (K : In i (flatnonzero z)) by (apply (ff_in _ _ _ F); eauto). apply Zin, in_app_iff in K as [K|K]; [|exact K].
      apply (Pf f i Hf Hk) in K. rewrite K in Q. discriminate. }
  rewrite E1, E2, !part_prob by exact Hz. rewrite (HA z Hz). apply prod_split.
Qed.
(** ... and up to relabelling *)
Lemma related_independent z vs ws : In z (lp_columns prog) -> (forall i, In i (vs ++ ws) -> i < n) -> LPProofs4.related syms (ev (vs ++ ws)) z -> sep vs ws -> P (ev (vs ++ ws)) = (P (ev vs) * P (ev ws))%Qc.
Proof.
  intros Hz Bo R Sp. rewrite <- (event_of_flat sc z (cf_length _ _ CF z Hz)) in R. apply (related_moved sc W) in R as (sg & g & M). pose proof M as (Rl & J & H).
  assert (Q : z = ev (preimage sc g vs ++ preimage sc g ws)).
  { rewrite <- (event_of_flat sc z (cf_length _ _ CF z Hz)). apply event_of_ext. intros i Hi. rewrite (H i Hi), !in_app_iff, !preimage_in. tauto. }
  assert (E : P z = P (ev (vs ++ ws))).
  { rewrite <- (event_of_flat sc z (cf_length _ _ CF z Hz)) at 1. apply related_ev, (related_moved sc W). eauto. }
  rewrite <- E, <- (preimage_prob sg g vs Rl J), <- (preimage_prob sg g ws Rl J). apply column_independent; [exact Hz| |exact Q|].
  - intros i Hi. apply in_app_iff in Hi as [Hi|Hi]; apply preimage_in in Hi; apply Hi.
  - intros i j Hi Hj K. apply preimage_in in Hi as [Bi Hi]. apply preimage_in in Hj as [Bj Hj]. apply (Sp _ _ Hi Hj). apply (share_moved sc W sg g i j Rl J Bi Bj), K.
Qed.

(** ** All events *)
Variables (mf : nat -> measurement).
Hypothesis Hmf : forall t, t < length groups -> LPProofs8.measures sc ao t (fst (fst (mf t))) (snd (fst (mf t))) (snd (mf t)).
Variables (ms : list measurement) (J : jointly_measurable sc ms).
Definition within (ops : list nat) : Prop := forall i, In i ops -> exists m o, In m ms /\ outcome_of sc m o i.
Lemma within_lt ops i : within ops -> In i ops -> i < n.
Proof. intros H Hi. destruct (H i Hi) as (m & o & _ & E). apply nth_error_Some. unfold outcome_of in E. rewrite E. discriminate. Qed.
Lemma within_group ops i t : within ops -> In i ops -> In i (grp t) -> t < length groups /\ In (mf t) ms.
Proof.
  intros H Hi Ht. assert (L : t < length groups) by (apply (LPProofs2.grp_lt n groups Hcat Hne t i Ht)). split; [exact L|]. destruct (H i Hi) as (m & o & Hm & E).
  apply (LPProofs10.mf_outcome sc W ao mf Hmf t i L) in Ht as (o' & E'). destruct (LPProofs10.outcome_fun _ _ _ _ _ _ E E') as [-> _]. exact Hm.
Qed.
Lemma group_within t : t < length groups -> In (mf t) ms -> within (grp t).
Proof. intros L H j Hj. apply (LPProofs10.mf_outcome sc W ao mf Hmf t j L) in Hj as (o & E). eauto. Qed.
Lemma group_copies t i j : In i (grp t) -> In j (grp t) -> copies sc i = copies sc j.
Proof.
  intros Hi Hj. assert (L : t < length groups) by (apply (LPProofs2.grp_lt n groups Hcat Hne t i Hi)). apply (LPProofs10.mf_outcome sc W ao mf Hmf t i L) in Hi as (o & E). apply (LPProofs10.mf_outcome sc W ao mf Hmf t j L) in Hj as (o' & E').
  unfold outcome_of in E, E'. rewrite (copies_row sc _ _ _ _ _ E), (copies_row sc _ _ _ _ _ E'). reflexivity.
Qed.
Lemma happens_ops w ops : (forall i, In i ops -> i < n) -> (happens w (ev ops) = true <-> forall i, In i ops -> w i = true).
Proof.
  intros Bo. rewrite ClassicalProofs.happens_iff. split; intros H i Hi.
  - apply H. apply event_of_nth. auto.
  - apply event_of_nth in Hi as [_ Hi]. apply H, Hi.
Qed.
(** the outcomes of a measurement are exclusive and complete *)
Lemma marginal ops t : within ops -> t < length groups -> In (mf t) ms -> P (ev ops) = sumQ (map (fun j => P (ev (j :: ops))) (grp t)).
Proof.
  intros Wi L Hm. destruct (B ms J) as (ws & D & O & HP). pose proof (group_within t L Hm) as Wg.
  assert (HPo : forall l, within l -> P (ev l) = prob ws (ev l)).
  { intros l Wl. apply HP; [apply event_of_length|]. intros i Hi. apply event_of_nth in Hi as [_ Hi]. apply Wl, Hi. }
  rewrite (HPo ops Wi). rewrite (sumQ_ext (grp t) _ (fun j => sumQ (map (fun q => fst q * (if happens (snd q) (ev (j :: ops)) then 1 else 0))%Qc ws))).
  2:{ intros j Hj. rewrite HPo by (intros i [<-|Hi]; [apply Wg, Hj|apply Wi, Hi]). unfold prob. apply sumQ_ext. intros q _. destruct (happens (snd q) _); ring. }
  rewrite sumQ_swap. unfold prob. apply sumQ_ext. intros q Hq. rewrite sumQ_scale. destruct (O q (mf t) Hq Hm) as (o & i & Ho & Qi & U).
  assert (Hi : In i (grp t)) by (apply (LPProofs10.mf_outcome sc W ao mf Hmf t i L); eauto).
  assert (Uq : forall j, In j (grp t) -> snd q j = true -> j = i).
  { intros j Hj Qj. apply (LPProofs10.mf_outcome sc W ao mf Hmf t j L) in Hj as (o' & E'). assert (o' = o) by (apply (U o' j); assumption). subst o'. apply (LPProofs10.outcome_inj sc W (mf t) o); assumption. }
  assert (S1 : sumQ (map (fun j => if happens (snd q) (ev (j :: ops)) then 1 else 0)%Qc (grp t)) = (if happens (snd q) (ev ops) then 1 else 0)%Qc).
  { assert (Hb : forall j, In j (grp t) -> happens (snd q) (ev (j :: ops)) = snd q j && happens (snd q) (ev ops)).
    { intros j Hj. apply eq_true_iff_eq. rewrite andb_true_iff, !happens_ops.
      - split; [intros H; split; [apply H; left; reflexivity|intros k Hk; apply H; right; exact Hk]|intros [H1 H2] k [<-|Hk]; auto].
      - intros k. apply within_lt, Wi.
      - intros k [<-|Hk]; [apply (within_lt (grp t) j Wg Hj)|apply (within_lt ops k Wi Hk)]. }
    rewrite (sumQ_ext (grp t) _ (fun j => if Nat.eq_dec j i then (if happens (snd q) (ev ops) then 1 else 0)%Qc else 0%Qc)).
    - pose proof (LPProofs2.grp_NoDup n groups Hcat Hne t) as N. clear - Hi N. generalize (if happens (snd q) (ev ops) then 1 else 0)%Qc as a. intros a.
      induction (grp t) as [|k l IH]; [destruct Hi|]. cbn [map]. rewrite sumQ_cons. inversion N as [|? ? N1 N2]; subst. destruct (Nat.eq_dec k i) as [->|Nk].
      + assert (Z : sumQ (map (fun j => if Nat.eq_dec j i then a else 0%Qc) l) = 0%Qc).
        { clear - N1. induction l as [|k l IH]; [reflexivity|]. cbn [map]. rewrite sumQ_cons. destruct (Nat.eq_dec k i) as [->|_]; [destruct N1; left; reflexivity|]. rewrite IH by (intros H; apply N1; right; exact H). ring. }
        rewrite Z. ring.
      + destruct Hi as [Hi|Hi]; [congruence|]. rewrite IH by assumption. ring.
    - intros j Hj. rewrite (Hb j Hj). destruct (Nat.eq_dec j i) as [->|Nj]; [rewrite Qi; reflexivity|]. destruct (snd q j) eqn:Q; [destruct (Nj (Uq j Hj Q))|reflexivity]. }
  rewrite S1. destruct (happens (snd q) (ev ops)); ring.
Qed.
(** two outcomes of one measurement *)
Lemma exclusive ops t i j : within ops -> In i ops -> In j ops -> In i (grp t) -> In j (grp t) -> i <> j -> P (ev ops) = 0%Qc.
Proof.
  intros Wi Hi Hj Gi Gj N. destruct (within_group ops i t Wi Hi Gi) as [L Hm]. destruct (B ms J) as (ws & D & O & HP).
  rewrite HP; [|apply event_of_length|intros k Hk; apply event_of_nth in Hk as [_ Hk]; apply Wi, Hk]. unfold prob.
  rewrite (sumQ_ext ws _ (fun _ => 0%Qc)); [clear; induction ws as [|q ws IH]; [reflexivity|cbn [map]; rewrite sumQ_cons, IH; ring]|].
  intros q Hq. destruct (happens (snd q) (ev ops)) eqn:E; [|reflexivity]. exfalso. rewrite (happens_ops _ _ (fun k => within_lt ops k Wi)) in E. destruct (O q (mf t) Hq Hm) as (o & k & Ho & Qk & U).
  assert (X : forall h, In h (grp t) -> In h ops -> h = k).
  { intros h Gh Hh. apply (LPProofs10.mf_outcome sc W ao mf Hmf t h L) in Gh as (o' & E'). assert (o' = o) by (apply (U o' h); [exact E'|apply E, Hh]). subst o'. apply (LPProofs10.outcome_inj sc W (mf t) o); assumption. }
  apply N. rewrite (X i Gi Hi), (X j Gj Hj). reflexivity.
Qed.
Lemma amo_dec v : LPProofs5.amo groups v \/ exists t i j, In i (grp t) /\ In j (grp t) /\ nth i v false = true /\ nth j v false = true /\ i <> j.
Proof.
  destruct (existsb (fun t => existsb (fun i => existsb (fun j => nth i v false && nth j v false && negb (i =? j)) (grp t)) (grp t)) (seq 0 (length groups))) eqn:E.
  - right. apply existsb_exists in E as (t & _ & E). apply existsb_exists in E as (i & Hi & E). apply existsb_exists in E as (j & Hj & E). apply andb_prop in E as [E N]. apply andb_prop in E as [E1 E2]. exists t, i, j. repeat (split; [assumption|]). intros ->. rewrite Nat.eqb_refl in N. discriminate.
  - left. intros t i j Hi Hj Vi Vj. destruct (Nat.eq_dec i j) as [Q|Q]; [exact Q|]. exfalso. rewrite <- not_true_iff_false in E. apply E. assert (L : t < length groups) by exact (LPProofs2.grp_lt n groups Hcat Hne t i Hi). apply existsb_exists. exists t. split; [apply in_seq; lia|].
    apply existsb_exists. exists i. split; [exact Hi|]. apply existsb_exists. exists j. split; [exact Hj|]. rewrite Vi, Vj. apply Nat.eqb_neq in Q. rewrite Q. reflexivity.
Qed.
(** events without last outcomes of expanded measurements have a column *)
Lemma plain_column ops : within ops -> LPProofs5.amo groups (ev ops) -> crit false (ev ops) = [] -> exists z, In z (lp_columns prog) /\ LPProofs4.related syms (ev ops) z.
Proof.
  intros Wi A C. pose proof EP as E. pose proof (LPProofs8.scenario_symmetries sc W Hout ao) as Hsg. pose proof (LPProofs8.scenario_syms_ne sc) as Hsn.
  destruct (LPProofs3.events_exist n groups Hcat Hne (compatible sc) Hund) as (raw & events & Er & Ee & _).
  set (symm := existsb (fun l => negb (l - 1 =? 0)) (levels sc)) in *.
  destruct (LPProofs6.generate_ok n groups Hcat Hne (compatible sc) Hund syms symm Hsg Hsn raw events Er Ee) as (prog' & E' & Cr & _).
  unfold scenario_lp in E. fold symm in E. rewrite E in E'. assert (prog' = prog) by congruence. subst prog'.
  assert (R : In (ev ops) raw).
  { apply (LPProofs6.raw_facts n groups Hcat Hne (compatible sc) Hund syms symm Hsg Hsn raw events Er Ee). split; [|exact C].
    apply (LPProofs5.valid_clique n groups Hcat Hne (compatible sc) Hund (LPProofs10.groups_of sc ao mf ms)); [apply (LPProofs10.joint_clique sc W Hout ao mf Hmf ms J)|apply event_of_length|exact A|].
    intros i Hi. apply event_of_nth in Hi as [Bi Hi]. destruct (LPProofs2.grp_cover n groups Hcat Hne i Bi) as (t & Ht & Gi). exists t. split; [|rewrite <- (LPProofs2.grp_nth n groups Hcat Hne); exact Gi].
    apply LPProofs10.groups_of_in. apply (within_group ops i t Wi Hi Gi). }
  destruct (LPProofs6.column_ok n groups Hcat Hne (compatible sc) Hund syms symm Hsg Hsn raw events Er Ee _ R) as (c & _ & Hc & Rl & _).
  rewrite <- Cr in Hc, Rl. exists (nth c (lp_columns prog) []). split; [apply nth_In, Hc|exact Rl].
Qed.
Lemma within_app vs ws : within (vs ++ ws) <-> within vs /\ within ws.
Proof. unfold within. split; [intros H; split; intros i Hi; apply H, in_or_app; auto|intros [H1 H2] i Hi; apply in_app_iff in Hi as [Hi|Hi]; auto]. Qed.
Lemma ev_comm vs ws : ev (vs ++ ws) = ev (ws ++ vs).
Proof. apply event_of_ext. intros i _. rewrite !in_app_iff. tauto. Qed.
Definition measure_of (ops : list nat) : nat := length (crit false (ev ops)).
Lemma measure_step vs vs' ws t : within (vs ++ ws) -> sep vs ws -> In (lst t) vs -> LPProofs2.flag groups t = false -> t < length groups ->
  ~ In (lst t) vs' -> (forall j, In j vs' -> In j (grp t) \/ In j vs) -> measure_of (vs' ++ ws) < measure_of (vs ++ ws).
Proof.
  intros Wi Sp Hl Hf L Nj Hj. unfold measure_of. assert (Gl : In (lst t) (grp t)) by (apply (LPProofs2.lst_in n groups Hcat Hne t), L).
  assert (Bl : lst t < n) by (apply (within_lt (vs ++ ws)); [exact Wi|apply in_or_app; left; exact Hl]).
  assert (Nl : ~ In (lst t) (vs' ++ ws)).
  { intros H. apply in_app_iff in H as [H|H]; [contradiction|]. apply (Sp _ _ Hl H), (copies_self sc W _ Bl). }
  assert (Inc : forall u, In u (crit false (ev (vs' ++ ws))) -> In u (crit false (ev (vs ++ ws)))).
  { intros u Hu. apply (LPProofs2.crit_in n groups Hcat Hne) in Hu as (U1 & U2 & U3). apply (LPProofs2.crit_in n groups Hcat Hne). split; [exact U1|]. split; [exact U2|]. apply event_of_nth in U3 as [Bu U3]. apply event_of_nth. split; [exact Bu|].
    apply in_app_iff in U3 as [U3|U3]; apply in_or_app; [left|right; exact U3]. destruct (Hj _ U3) as [Hg|Hg]; [|exact Hg]. exfalso.
    assert (u = t) by (apply (LPProofs2.grp_unique n groups Hcat Hne u t (lst u)); [apply (LPProofs2.lst_in n groups Hcat Hne u), U1|exact Hg]). subst u. contradiction. }
  assert (Le : length (t :: crit false (ev (vs' ++ ws))) <= length (crit false (ev (vs ++ ws)))); [|exact Le].
  apply NoDup_incl_length.
  - constructor; [|apply (LPProofs2.crit_NoDup n groups Hcat Hne)]. intros H. apply (LPProofs2.crit_in n groups Hcat Hne) in H as (_ & _ & H). apply event_of_nth in H as [_ H]. contradiction.
  - intros u [<-|Hu]; [|apply Inc, Hu]. apply (LPProofs2.crit_in n groups Hcat Hne). split; [exact L|]. split; [exact Hf|]. apply event_of_nth. split; [exact Bl|apply in_or_app; left; exact Hl].
Qed.
Definition keep (i : nat) (l : list nat) : list nat := filter (fun k => negb (k =? i)) l.
Lemma keep_in i l k : In k (keep i l) <-> In k l /\ k <> i.
Proof. unfold keep. rewrite filter_In, negb_true_iff, Nat.eqb_neq. reflexivity. Qed.
Lemma ev_keep i l l' : In i l -> ev (l ++ l') = ev (i :: keep i l ++ l').
Proof. intros Hi. apply event_of_ext. intros k _. cbn [In]. rewrite !in_app_iff, keep_in. destruct (Nat.eq_dec k i) as [->|N]; [tauto|]. intuition congruence. Qed.
(** one last outcome of an expanded measurement is replaced by the others *)
Lemma replace_last vs ws t : within (vs ++ ws) -> sep vs ws -> In (lst t) vs -> LPProofs2.flag groups t = false -> t < length groups -> LPProofs5.amo groups (ev (vs ++ ws)) ->
  (forall vs', within (vs' ++ ws) -> sep vs' ws -> measure_of (vs' ++ ws) < measure_of (vs ++ ws) -> P (ev (vs' ++ ws)) = (P (ev vs') * P (ev ws))%Qc) ->
  P (ev (vs ++ ws)) = (P (ev vs) * P (ev ws))%Qc.
Proof.
  intros Wi Sp Hl Hf L A IH. set (i := lst t). set (v0 := keep i vs). assert (Gl : In i (grp t)) by (apply (LPProofs2.lst_in n groups Hcat Hne t), L).
  destruct (within_group (vs ++ ws) i t Wi (in_or_app _ _ _ (or_introl Hl)) Gl) as [_ Hm]. pose proof (group_within t L Hm) as Wg.
  apply within_app in Wi as Wi'. destruct Wi' as [Wv Ww]. assert (W0 : within v0) by (intros k Hk; apply keep_in in Hk; apply Wv, Hk).
  assert (Bi : i < n) by (apply (within_lt vs), Hl; exact Wv).
  assert (Sj : forall j, In j (grp t) -> sep (j :: v0) ws).
  { intros j Hj a b [<-|Ha] Hb; [rewrite (group_copies t j i Hj Gl); apply (Sp i b Hl Hb)|apply keep_in in Ha; apply (Sp a b (proj1 Ha) Hb)]. }
  assert (S0 : sep v0 ws) by (intros a b Ha Hb; apply keep_in in Ha; apply (Sp a b (proj1 Ha) Hb)).
  assert (N0 : ~ In i v0) by (intros H; apply keep_in in H; apply H; reflexivity).
  assert (E0 : P (ev (v0 ++ ws)) = (P (ev v0) * P (ev ws))%Qc).
  { apply IH; [apply within_app; auto|exact S0|]. apply (measure_step vs v0 ws t Wi Sp Hl Hf L N0). intros j Hj. apply keep_in in Hj. tauto. }
  assert (Ej : forall j, In j (grp t) -> j <> i -> P (ev (j :: v0 ++ ws)) = (P (ev (j :: v0)) * P (ev ws))%Qc).
  { intros j Hj Nj. apply (IH (j :: v0)); [|apply Sj, Hj|].
    - intros k [<-|Hk]; [apply Wg, Hj|]. apply in_app_iff in Hk as [Hk|Hk]; auto.
    - apply (measure_step vs (j :: v0) ws t Wi Sp Hl Hf L); [intros [H|H]; [exact (Nj H)|exact (N0 H)]|]. intros k [<-|Hk]; [auto|]. apply keep_in in Hk. tauto. }
  assert (M1 := marginal (v0 ++ ws) t ltac:(apply within_app; auto) L Hm). assert (M0 := marginal v0 t W0 L Hm).
  rewrite (ev_keep i vs ws Hl). assert (Ev : ev vs = ev (i :: v0)). { pose proof (ev_keep i vs [] Hl) as Q. rewrite !app_nil_r in Q. exact Q. } rewrite Ev. fold v0.
  rewrite (LPProofs2.grp_split n groups Hcat Hne t L) in M1, M0. rewrite map_app, sumQ_app in M1, M0. cbn [map] in M1, M0. rewrite sumQ_cons, sumQ_nil in M1, M0. fold i in M1, M0.
  rewrite (sumQ_ext _ _ (fun j => P (ev ws) * P (ev (j :: v0)))%Qc) in M1.
  2:{ intros j Hj. apply (LPProofs2.nonlast n groups Hcat Hne t j L) in Hj as [Hj Nj]. rewrite (Ej j Hj Nj). ring. }
  rewrite sumQ_scale in M1. rewrite E0 in M1.
  set (a := P (ev (i :: v0 ++ ws))) in *. set (b := P (ev (i :: v0))) in *. set (c := P (ev ws)) in *. set (d := P (ev v0)) in *. set (s := sumQ _) in *.
  replace a with ((c * s + (a + 0)) - c * s)%Qc by ring. rewrite <- M1, M0. ring.
Qed.
Lemma independent_ops k : forall vs ws, measure_of (vs ++ ws) < k -> within (vs ++ ws) -> sep vs ws -> P (ev (vs ++ ws)) = (P (ev vs) * P (ev ws))%Qc.
Proof.
  induction k as [|k IH]; intros vs ws Hk Wi Sp; [lia|]. assert (Bo : forall i, In i (vs ++ ws) -> i < n) by (intros i; apply within_lt, Wi).
  apply within_app in Wi as Wi'. destruct Wi' as [Wv Ww].
  destruct (amo_dec (ev (vs ++ ws))) as [A|(t & i & j & Gi & Gj & Vi & Vj & N)].
  - destruct (crit false (ev (vs ++ ws))) as [|t l] eqn:C.
    + destruct (plain_column (vs ++ ws) Wi A C) as (z & Hz & R). apply (related_independent z vs ws Hz Bo R Sp).
    + assert (Ht : In t (crit false (ev (vs ++ ws)))) by (rewrite C; left; reflexivity). apply (LPProofs2.crit_in n groups Hcat Hne) in Ht as (L & Hf & V). apply event_of_nth in V as [_ V]. apply in_app_iff in V as [V|V].
      * apply (replace_last vs ws t Wi Sp V Hf L A). intros vs' Wi' Sp' Lt. apply IH; [lia|exact Wi'|exact Sp'].
      * rewrite ev_comm. rewrite (Qcmult_comm (P (ev vs))). rewrite ev_comm in A. apply (replace_last ws vs t); [apply within_app; auto|apply sep_sym, Sp|exact V|exact Hf|exact L|exact A|].
        intros vs' Wi' Sp' Lt. rewrite ev_comm, Qcmult_comm. apply within_app in Wi' as [W1 W2]. apply IH; [|apply within_app; auto|apply sep_sym, Sp'].
        unfold measure_of in *. rewrite (ev_comm vs vs'), (ev_comm vs ws) in *. lia.
  - apply event_of_nth in Vi as [Bi Vi]. apply event_of_nth in Vj as [Bj Vj]. rewrite (exclusive (vs ++ ws) t i j Wi Vi Vj Gi Gj N).
    assert (CC : share_copy (copies sc i) (copies sc j)) by (rewrite <- (group_copies t i j Gi Gj); apply (copies_self sc W i Bi)).
    apply in_app_iff in Vi as [Vi|Vi]; apply in_app_iff in Vj as [Vj|Vj].
    + rewrite (exclusive vs t i j Wv Vi Vj Gi Gj N). ring.
    + destruct (Sp i j Vi Vj CC).
    + destruct (Sp j i Vj Vi (share_sym _ _ CC)).
    + rewrite (exclusive ws t i j Ww Vi Vj Gi Gj N). ring.
Qed.
End Indep.

Theorem columns_independent sc (W : wf_scenario sc) (Hout : forall o, In o (outcomes sc) -> 1 <= o) (FC : few_copies sc) prog ao (EP : scenario_lp sc ao = Some prog) P :
  scenario_behaviour sc P -> relabelling_invariant sc P ->
  (forall z, In z (lp_columns prog) -> P z = prodQ (map (fun f => P (event_of sc f)) (factors sc (flatnonzero z)))) -> independent_sources sc P.
Proof.
  intros B I HA v w Lv Lw (ms & J & Hm) Sp. destruct (LPProofs10.meas_choice sc Hout ao) as (mf & Hmf).
  rewrite <- (event_of_flat sc v Lv), <- (event_of_flat sc w Lw), event_of_app.
  apply (independent_ops sc W Hout FC prog ao EP P B I HA mf Hmf ms J (S (measure_of sc ao (flatnonzero v ++ flatnonzero w)))); [lia| |].
  - intros i Hi. apply Hm. rewrite ClassicalProofs.nth_either by congruence. apply orb_true_iff. rewrite <- !flatnonzero_in. apply in_app_iff, Hi.
  - intros i j Hi Hj. apply flatnonzero_in in Hi, Hj.
    assert (Bi : i < length (lexorder sc)) by (rewrite <- Lv; apply LPProofs.nth_true_lt, Hi). assert (Bj : j < length (lexorder sc)) by (rewrite <- Lw; apply LPProofs.nth_true_lt, Hj).
    destruct (copies_valid sc W i Bi) as (p & s & o & Ei & _). destruct (copies_valid sc W j Bj) as (p' & s' & o' & Ej & _). apply (Sp i j _ _ _ _ _ _ _ _ Hi Hj Ei Ej).
Qed.
