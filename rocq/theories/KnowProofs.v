From Coq Require Import Permutation.
From Verif Require Import ScenarioModel ScenarioSpec SymModel FactorModel KnowModel KnowSpec ScenarioProofs SymProofs UniqueProofs FactorProofs.

Lemma unique_length_NoDup (l : list nat) : length (np_unique Nat.compare l) = length l <-> NoDup l.
Proof.
  pose proof (np_unique_NoDup Nat.compare nat_good_cmp l) as N.
  pose proof (fun x => proj1 (np_unique_in Nat.compare nat_good_cmp l x)) as I1.
  pose proof (fun x => proj2 (np_unique_in Nat.compare nat_good_cmp l x)) as I2.
  split; intros H.
  - eapply NoDup_incl_NoDup; [exact N| |exact I1]. lia.
  - apply Nat.le_antisymm; apply NoDup_incl_length; assumption.
Qed.
Lemma unique_le1 (l : list nat) : length (np_unique Nat.compare l) <= 1 <-> forall x y, In x l -> In y l -> x = y.
Proof.
  pose proof (np_unique_NoDup Nat.compare nat_good_cmp l) as N.
  pose proof (np_unique_in Nat.compare nat_good_cmp l) as I. split.
  - intros H x y Hx Hy. apply I in Hx, Hy. destruct (np_unique Nat.compare l) as [|a [|b u]]; [destruct Hx| |cbn in H; lia].
    destruct Hx as [<-|[]], Hy as [<-|[]]. reflexivity.
  - intros H. destruct (np_unique Nat.compare l) as [|a [|b u]]; cbn; try lia. exfalso.
    inversion N as [|? ? Hn _]; subst. apply Hn. left. apply H; apply I; cbn; auto.
Qed.

Section K.
Variables (sc : scenario) (W : wf_scenario sc) (mon : list row).
Hypothesis V : forall r, In r mon -> exists p c s o, r = mkrow (p + 1) c s o /\ valid_operator sc p c s o.

Lemma NoDup_parties : NoDup (map row_party mon) <-> one_operator_per_party mon.
Proof.
  rewrite (NoDup_nth_error (map row_party mon)). unfold one_operator_per_party. split.
  - intros H i j p c s o c' s' o' Hi Hj. apply H.
    + rewrite map_length. apply nth_error_Some. unfold row in *. congruence.
    + rewrite !nth_error_map, Hi, Hj. reflexivity.
  - intros H i j Hi E. rewrite map_length in Hi. rewrite !nth_error_map in E.
    destruct (nth_error mon i) as [r|] eqn:Ei; [|apply nth_error_None in Ei; lia].
    destruct (nth_error mon j) as [r'|] eqn:Ej; [|discriminate].
    destruct (V r) as (p & c & s & o & -> & _); [eapply nth_error_In, Ei|].
    destruct (V r') as (p' & c' & s' & o' & -> & _); [eapply nth_error_In, Ej|].
    cbn [option_map] in E. injection E as E. cbn in E. assert (p = p') as <- by lia. eapply H; eassumption.
Qed.
Lemma nth_copies p c s o k : k < length c -> nth (1 + k) (mkrow p c s o) 0 = nth k c 0.
Proof. intros H. unfold mkrow. cbn [Nat.add nth]. apply app_nth1, H. Qed.

Lemma nb_is_knowable_spec : nb_is_knowable (nr_sources sc) mon = true <-> one_operator_per_party mon /\ one_copy_per_source mon.
Proof.
  assert (LC : forall p c s o, In (mkrow p c s o) mon -> length c = nr_sources sc).
  { intros p c s o H. destruct (V _ H) as (p' & c' & s' & o' & E & Vo). apply mkrow_inj in E as (_ & -> & _). apply Vo. }
  unfold nb_is_knowable. destruct (Nat.leb_spec (length mon) 1) as [Hl|Hl].
  - split; [|reflexivity]. intros _. split.
    + intros i j p c s o c' s' o' Hi Hj. assert (i < length mon) by (apply nth_error_Some; unfold row in *; congruence).
      assert (j < length mon) by (apply nth_error_Some; unfold row in *; congruence). lia.
    + intros p c s o p' c' s' o' k H1 H2 _ _. destruct mon as [|r [|r' m]]; [destruct H1| |cbn in Hl; lia].
      destruct H1 as [H1|[]], H2 as [H2|[]]. subst r. apply mkrow_inj in H2 as (_ & -> & _). reflexivity.
  - destruct (Nat.eqb_spec (length (np_unique Nat.compare (map row_party mon))) (length mon)) as [E|E]; cbn [negb].
    + assert (P : one_operator_per_party mon).
      { apply NoDup_parties, unique_length_NoDup. rewrite map_length. exact E. }
      rewrite forallb_forall. split.
      * intros H. split; [exact P|]. intros p c s o p' c' s' o' k H1 H2 N1 N2.
        destruct (Nat.lt_ge_cases k (nr_sources sc)) as [Hk|Hk]; [|rewrite nth_overflow in N1; [congruence|rewrite (LC _ _ _ _ H1); exact Hk]].
        specialize (H k ltac:(apply in_seq; lia)). rewrite negb_true_iff, Nat.ltb_ge in H.
        rewrite unique_le1 in H. apply H; apply filter_In; (split; [apply in_map_iff|rewrite negb_true_iff, Nat.eqb_neq; assumption]).
        -- eexists. split; [|exact H1]. apply nth_copies. rewrite (LC _ _ _ _ H1). exact Hk.
        -- eexists. split; [|exact H2]. apply nth_copies. rewrite (LC _ _ _ _ H2). exact Hk.
      * intros [_ H] k Hk. apply in_seq in Hk. rewrite negb_true_iff, Nat.ltb_ge. apply unique_le1. intros x y Hx Hy.
        apply filter_In in Hx as [Hx Nx], Hy as [Hy Ny]. rewrite negb_true_iff, Nat.eqb_neq in Nx, Ny.
        apply in_map_iff in Hx as (r & <- & Hr), Hy as (r' & <- & Hr').
        destruct (V r Hr) as (p & c & s & o & -> & _). destruct (V r' Hr') as (p' & c' & s' & o' & -> & _).
        rewrite (nth_copies (p + 1) c s o k) in * by (rewrite (LC _ _ _ _ Hr); lia).
        rewrite (nth_copies (p' + 1) c' s' o' k) in * by (rewrite (LC _ _ _ _ Hr'); lia).
        eapply H; eassumption.
    + split; [discriminate|]. intros [P _]. exfalso. apply E. rewrite <- (map_length row_party mon).
      apply unique_length_NoDup, NoDup_parties, P.
Qed.

(** the parent test *)
Let mon3 := map take3 mon.
Lemma take3_mkrow p c s o : take3 (mkrow p c s o) = [p; s; o].
Proof. unfold take3. rewrite mkrow_party, mkrow_setting, mkrow_outcome. reflexivity. Qed.
Lemma mon3_in r3 : In r3 mon3 <-> exists p c s o, In (mkrow (p + 1) c s o) mon /\ r3 = [p + 1; s; o].
Proof.
  unfold mon3. rewrite in_map_iff. split.
  - intros (r & <- & Hr). destruct (V r Hr) as (p & c & s & o & -> & _). exists p, c, s, o. split; [exact Hr|apply take3_mkrow].
  - intros (p & c & s & o & H & ->). exists (mkrow (p + 1) c s o). split; [apply take3_mkrow|exact H].
Qed.
Lemma in_play_spec q : memb q (map (fun r => nth 0 r 0 - 1) mon3) = true <-> exists c s o, In (mkrow (q + 1) c s o) mon.
Proof.
  rewrite memb_in, in_map_iff. split.
  - intros (r & E & Hr). apply mon3_in in Hr as (p & c & s & o & H & ->). cbn in E. assert (p = q) as -> by lia. eauto.
  - intros (c & s & o & H). exists [q + 1; s; o]. split; [cbn; lia|]. apply mon3_in. eauto 6.
Qed.
Lemma outcomes_fold l p : forall acc,
  fold_left (fun acc (r : list nat) => if nth 0 r 0 - 1 =? p then Some (nth 2 r 0) else acc) l acc =
  match find (fun r : list nat => nth 0 r 0 - 1 =? p) (rev l) with Some r => Some (nth 2 r 0) | None => acc end.
Proof.
  induction l as [|r l IH]; intros acc; [reflexivity|]. cbn [fold_left rev]. rewrite IH.
  assert (F : forall (f : list nat -> bool) a b, find f (a ++ b) = match find f a with Some x => Some x | None => find f b end).
  { intros f a b. induction a as [|x a IHa]; cbn; [reflexivity|]. destruct (f x); auto. }
  rewrite F. destruct (find _ (rev l)); [reflexivity|]. cbn [find]. destruct (nth 0 r 0 - 1 =? p); reflexivity.
Qed.
Lemma outcomes_spec q o : one_operator_per_party mon -> (outcomes_by_party mon3 q = Some o <-> exists c s, In (mkrow (q + 1) c s o) mon).
Proof.
  intros P. unfold outcomes_by_party. rewrite outcomes_fold.
  destruct (find _ (rev mon3)) as [r|] eqn:E.
  - apply find_some in E as [E1 E2]. apply in_rev in E1. apply mon3_in in E1 as (p & c & s & o' & H & ->). cbn in E2.
    apply Nat.eqb_eq in E2. assert (p = q) as -> by lia. cbn [nth]. split.
    + intros [= <-]. eauto.
    + intros (c' & s' & H'). apply In_nth_error in H as [i Hi]. apply In_nth_error in H' as [j Hj].
      assert (i = j) as <- by (eapply P; eassumption). unfold row in *. rewrite Hi in Hj. injection Hj as Hj.
      assert (Hj' : mkrow (q + 1) c s o' = mkrow (q + 1) c' s' o) by (unfold mkrow; congruence).
      apply mkrow_inj in Hj' as (_ & _ & _ & ->). reflexivity.
  - split; [discriminate|]. intros (c & s & H). pose proof (find_none _ _ E [q + 1; s; o]) as F. cbn in F.
    assert (Hin : In [q + 1; s; o] (rev mon3)) by (apply in_rev; rewrite rev_involutive; apply mon3_in; eauto 6).
    specialize (F Hin). replace (q + 1 - 1) with q in F by lia. rewrite Nat.eqb_refl in F. discriminate.
Qed.

Lemma non_networks_spec : one_operator_per_party mon ->
  exists b, is_knowable_q_non_networks sc mon3 = Some b /\ (b = true <-> parents_agree sc mon).
Proof.
  intros P. unfold is_knowable_q_non_networks.
  destruct (existsb _ _) eqn:EX.
  - exists false. split; [reflexivity|]. split; [discriminate|]. intros PA. exfalso.
    apply existsb_exists in EX as (p & Hp & EX). apply existsb_exists in EX as (q & Hq & EX). rewrite negb_true_iff in EX.
    apply memb_in in Hp. apply in_play_spec in Hp as (c & s & o & H).
    destruct (PA _ _ _ _ H) as (x & os & _ & _ & A). apply In_nth_error in Hq as [m Hm]. destruct (A m q Hm) as (c' & s' & H').
    assert (memb q (map (fun r => nth 0 r 0 - 1) mon3) = true) by (apply in_play_spec; eauto). congruence.
  - set (loop := fix loop (ops : list (list nat)) : option bool := match ops with [] => Some true | _ => _ end).
    assert (PL : forall p c s o q, In (mkrow (p + 1) c s o) mon -> In q (nth p (parents sc) []) -> exists c' s' o', In (mkrow (q + 1) c' s' o') mon).
    { intros p c s o q H Hq. apply in_play_spec. destruct (memb q _) eqn:EQ; [reflexivity|]. exfalso.
      assert (T : true = false); [|discriminate]. rewrite <- EX. symmetry. apply existsb_exists. exists p.
      split; [apply memb_in, in_play_spec; eauto|]. apply existsb_exists. exists q. rewrite EQ. auto. }
    assert (G : forall ops, incl ops mon3 -> exists b, loop ops = Some b /\
      (b = true <-> forall p c s o, In (mkrow (p + 1) c s o) mon -> In [p + 1; s; o] ops ->
          exists x os, assoc (effective_to_parent sc p) s = Some (x :: os) /\
            map_opt (outcomes_by_party mon3) (nth p (parents sc) []) = Some os)).
    { induction ops as [|r ops IH]; intros HI.
      - exists true. split; [reflexivity|]. split; [|reflexivity]. intros _ p c s o _ [].
      - destruct IH as (b & Eb & Hb); [intros z Hz; apply HI; right; exact Hz|].
        assert (Hr : In r mon3) by (apply HI; left; reflexivity). apply mon3_in in Hr as (p & c & s & o & H & ->).
        cbn [loop]. fold loop. cbn [nth]. replace (p + 1 - 1) with p by lia.
        destruct (V _ H) as (p' & c' & s' & o' & E & Vo). apply mkrow_inj in E as (Ep & <- & <- & <-). assert (p' = p) as -> by lia.
        assert (Hs : s < nr_settings sc p) by apply Vo.
        destruct (effective_bijection sc p) as (B1 & _). destruct (B1 s Hs) as (t & Et & Ft). rewrite Et.
        destruct t as [|x os]; [inversion Ft|].
        destruct (map_opt (outcomes_by_party mon3) (nth p (parents sc) [])) as [os'|] eqn:EO.
        + cbn [tl]. destruct (list_eq_dec Nat.eq_dec os' os) as [->|Hne].
          * exists b. split; [exact Eb|]. rewrite Hb. split.
            -- intros Q p2 c2 s2 o2 H2 [Er|Hin]; [|eapply Q; eassumption]. injection Er as Er1 Er2 _.
               assert (p2 = p) as -> by lia. subst s2. eauto.
            -- intros Q p2 c2 s2 o2 H2 Hin. eapply Q; [eassumption|right; exact Hin].
          * exists false. split; [reflexivity|]. split; [discriminate|]. intros Q. exfalso.
            destruct (Q p c s o H ltac:(left; reflexivity)) as (x' & os'' & E1 & E2). rewrite Et in E1. injection E1 as _ <-. congruence.
        + exfalso. apply map_opt_none in EO as (q & Hq & EO). destruct (PL _ _ _ _ q H Hq) as (c' & s' & o' & H').
          assert (outcomes_by_party mon3 q = Some o') by (apply outcomes_spec; eauto). congruence. }
    destruct (G mon3 (incl_refl _)) as (b & Eb & Hb). exists b. split; [exact Eb|]. rewrite Hb. unfold parents_agree. split.
    + intros Q p c s o H. destruct (Q p c s o H) as (x & os & E1 & E2); [apply mon3_in; eauto 6|].
      exists x, os. apply map_opt_some in E2. split; [exact E1|]. split; [symmetry; apply (Forall2_len _ _ _ E2)|].
      intros m q Hm. clear E1. revert m Hm. induction E2 as [|q' o' qs os' Ho _ IH]; intros [|m] Hm; try discriminate.
      * injection Hm as ->. apply outcomes_spec in Ho; [|exact P]. exact Ho.
      * apply (IH m Hm).
    + intros Q p c s o H _. destruct (Q p c s o H) as (x & os & E1 & E2 & E3). exists x, os. split; [exact E1|].
      apply map_opt_some. clear E1. revert os E2 E3. generalize (nth p (parents sc) []) as qs.
      induction qs as [|q qs IH]; intros [|o' os] L E3; try discriminate; constructor.
      * apply outcomes_spec; [exact P|]. apply (E3 0 q eq_refl).
      * apply IH; [cbn in L; lia|]. intros m q' Hm. apply (E3 (S m) q' Hm).
Qed.

Lemma network_parents_agree : is_network sc = true -> parents_agree sc mon.
Proof.
  intros N p c s o H. destruct (V _ H) as (p' & c' & s' & o' & E & Vo). apply mkrow_inj in E as (Ep & <- & <- & <-). assert (p' = p) as -> by lia.
  assert (Hp : nth p (parents sc) [] = []).
  { unfold is_network in N. rewrite forallb_forall in N. destruct (Nat.lt_ge_cases p (length (parents sc))) as [Hl|Hl]; [|apply nth_overflow, Hl].
    specialize (N _ (nth_In (parents sc) [] Hl)). apply Nat.eqb_eq, length_zero_iff_nil in N. exact N. }
  destruct (effective_bijection sc p) as (B1 & _). destruct (B1 s ltac:(apply Vo)) as (t & Et & Ft). cbn zeta in Ft. unfold setting_shape in Ft. rewrite Hp in Ft.
  inversion Ft as [|x y l l' _ F2]; subst. inversion F2; subst. exists x, []. rewrite Hp. repeat split; auto.
  intros m q Hm. destruct m; discriminate.
Qed.
End K.

Theorem atom_is_knowable_correct sc lexmon : wf_scenario sc ->
  (forall k, In k lexmon -> k < length (lexorder sc)) ->
  let mon := map (fun k => nth k (lexorder sc) []) lexmon in
  exists b, atom_is_knowable sc lexmon = Some b /\
    (b = true <-> one_operator_per_party mon /\ one_copy_per_source mon /\ parents_agree sc mon).
Proof.
  intros W HV mon.
  assert (V : forall r, In r mon -> exists p c s o, r = mkrow (p + 1) c s o /\ valid_operator sc p c s o).
  { intros r Hr. apply in_map_iff in Hr as (k & <- & Hk). destruct (lexorder_parts sc k W (HV k Hk)) as (p & c & s & o & E & Vo).
    exists p, c, s, o. split; [apply nth_error_nth, E|exact Vo]. }
  assert (Main : atom_is_knowable sc lexmon = if nb_is_knowable (nr_sources sc) mon && all_commuting_q_1d (default_notcomm sc) lexmon
         then atomic_knowable_q sc mon else Some false).
  { unfold atom_is_knowable. fold mon. destruct lexmon as [|k l]; [|reflexivity]. cbn. unfold atomic_knowable_q. cbn.
    destruct (is_network sc); reflexivity. }
  rewrite Main. destruct (nb_is_knowable (nr_sources sc) mon) eqn:EK; cbn [andb].
  2:{ exists false. split; [reflexivity|]. split; [discriminate|]. intros (H1 & H2 & _). exfalso.
      assert (nb_is_knowable (nr_sources sc) mon = true) by (apply (nb_is_knowable_spec sc mon V); auto). congruence. }
  pose proof (proj1 (nb_is_knowable_spec sc mon V) EK) as [P C].
  assert (AC : all_commuting_q_1d (default_notcomm sc) lexmon = true).
  { unfold all_commuting_q_1d. apply forallb_forall. intros i Hi. apply forallb_forall. intros j Hj. rewrite negb_true_iff.
    destruct (lexorder_parts sc i W (HV i Hi)) as (p & c & s & o & Ei & Vi). destruct (lexorder_parts sc j W (HV j Hj)) as (p' & c' & s' & o' & Ej & Vj).
    assert (Ii : In (mkrow (p + 1) c s o) mon) by (apply in_map_iff; exists i; split; [apply nth_error_nth, Ei|exact Hi]).
    assert (Ij : In (mkrow (p' + 1) c' s' o') mon) by (apply in_map_iff; exists j; split; [apply nth_error_nth, Ej|exact Hj]).
    apply (default_notcomm_spec sc i j _ _ _ _ _ _ _ _ W Ei Ej). right. split.
    - intros k src Hk Hjn.
      assert (R : reaches src p /\ reaches src p').
      { destruct Hjn as [[-> H]|(l & H1 & H2 & H3)]; [split; left; exact H|split; right; eauto]. }
      destruct R as [R R']. destruct Vi as (_ & _ & Vi & _). destruct Vj as (_ & _ & Vj & _).
      destruct (Vi k src Hk) as [Vi' _]. destruct (Vj k src Hk) as [Vj' _]. specialize (Vi' R). specialize (Vj' R').
      eapply C; [exact Ii|exact Ij|lia|lia].
    - destruct (Nat.eq_dec p p') as [<-|Hne]; [right|left; exact Hne].
      apply In_nth_error in Ii as [a Ha]. apply In_nth_error in Ij as [b Hb]. assert (a = b) as <- by (eapply P; eassumption).
      assert (Q : mkrow (p + 1) c s o = mkrow (p + 1) c' s' o') by (unfold row in *; congruence).
      apply mkrow_inj in Q. apply Q. }
  rewrite AC. unfold atomic_knowable_q. rewrite EK. cbn [negb]. destruct (is_network sc) eqn:EN.
  - exists true. split; [reflexivity|]. split; [|reflexivity]. intros _. split; [exact P|]. split; [exact C|].
    eapply network_parents_agree; eassumption.
  - destruct (non_networks_spec sc mon V P) as (b & Eb & Hb). exists b. split; [exact Eb|]. rewrite Hb. tauto.
Qed.
