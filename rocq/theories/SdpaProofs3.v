(** The number of variables of the SDPA file and the file as a whole. *)
From Coq Require Import List Arith Bool Lia QArith Qcanon Permutation.
From Verif Require Import MargModel QcSum QcArith Duality SearchModel ProgramModel ProgramProofs SDPSolveModel SDPSolveSpec PSD SdpaModel SdpaSpec SdpaProofs SdpaProofs2.
From Coq Require Import ZArith.
Import ListNotations.
Open Scope nat_scope.

Lemma filter_split {A} (f : A -> bool) l : length (filter f l) + length (filter (fun x => negb (f x)) l) = length l.
Proof. induction l as [|a l IH]; [reflexivity|]. cbn [filter]. destruct (f a); cbn [negb length]; lia. Qed.
Lemma in_le_max l m : In m l -> m <= fold_right Nat.max 0 l.
Proof. induction l as [|a l IH]; [intros []|]. intros [->|h]; cbn [fold_right]; [lia|]. specialize (IH h). lia. Qed.
Lemma filter_two (l : list nat) : NoDup l ->
  length l = length (filter (fun m => 2 <=? m) l) + (if imem 0 l then 1 else 0) + (if imem 1 l then 1 else 0).
Proof.
  intros hn. rewrite <- (filter_split (fun m => 2 <=? m) l), <- Nat.add_assoc. f_equal.
  assert (NoDup (filter (fun x => negb (2 <=? x)) l)) as hn' by now apply NoDup_filter.
  set (r := filter (fun x => negb (2 <=? x)) l) in *.
  assert (forall x, In x r <-> In x l /\ x < 2) as hr.
  { intros x. unfold r. rewrite filter_In, negb_true_iff, Nat.leb_gt. tauto. }
  pose proof (imem_iff 0 l) as h0. pose proof (imem_iff 1 l) as h1.
  set (t := (if imem 0 l then [0] else []) ++ (if imem 1 l then [1] else [])).
  assert (Permutation r t) as hp.
  { apply perm_of_same_elements; [assumption| |].
    - unfold t. destruct (imem 0 l), (imem 1 l); cbn [app]; repeat constructor; cbn [In]; intuition lia.
    - intros x. rewrite hr. unfold t. destruct (imem 0 l), (imem 1 l); cbn [app In]; split.
      all: try (intros [hx hlt]; destruct x as [|[|x]]; [| |lia]; intuition congruence).
      all: intuition (try lia); subst; intuition lia. }
  rewrite (Permutation_length hp). unfold t. destruct (imem 0 l), (imem 1 l); reflexivity.
Qed.

Section Count.
Variable p : problem.
Hypothesis hwf : wf p.
Definition ungiven (m : nat) : bool := negb (imem m (keys (known_moments p))) && negb (imem m (keys (semiknown_moments p))).
Definition old_vars : list nat := filter ungiven (seq 2 (mm_max p - 1)).
Definition new_targets : list nat := map (fun q => snd (snd q)) (filter (fun q => mm_max p <? snd (snd q)) (semiknown_moments p)).

Lemma old_count : length old_vars + length (filter (fun m => 2 <=? m) (keys (known_moments p))) + length (semiknown_moments p) = mm_max p - 1.
Proof.
  unfold old_vars. pose proof (filter_split ungiven (seq 2 (mm_max p - 1))) as h. rewrite seq_length in h.
  assert (Permutation (filter (fun x => negb (ungiven x)) (seq 2 (mm_max p - 1)))
            (filter (fun m => 2 <=? m) (keys (known_moments p)) ++ keys (semiknown_moments p))) as hp.
  { apply perm_of_same_elements.
    - apply NoDup_filter, seq_NoDup.
    - pose proof (wf_semi_in _ hwf) as hs. pose proof (wf_semi_keys _ hwf) as hsn.
      pose proof (NoDup_filter (fun m => 2 <=? m) (wf_known_keys _ hwf)) as hk.
      assert (forall a, In a (filter (fun m => 2 <=? m) (keys (known_moments p))) -> ~ In a (keys (semiknown_moments p))) as hd.
      { intros a ha hb. apply filter_In in ha. now apply (proj2 (proj2 (hs _ hb))). }
      revert hk hd. generalize (filter (fun m => 2 <=? m) (keys (known_moments p))). intros l. induction l as [|a l IH]; intros hk hd; [assumption|].
      cbn [app]. apply NoDup_cons_iff in hk. destruct hk as [ha hk]. constructor.
      + rewrite in_app_iff. intros [?|?]; [contradiction|]. eapply hd; [now left|eassumption].
      + apply IH; [assumption|]. intros b hb. apply hd. now right.
    - intros x. rewrite in_app_iff, !filter_In, in_seq. unfold ungiven. rewrite Nat.leb_le.
      pose proof (imem_iff x (keys (known_moments p))) as h1. pose proof (imem_iff x (keys (semiknown_moments p))) as h2.
      split.
      + intros [hx hg]. destruct (imem x (keys (known_moments p))), (imem x (keys (semiknown_moments p))); cbn in hg; intuition (try discriminate; try lia).
      + intros hx. assert (2 <= x /\ In x (entries p) /\ (In x (keys (known_moments p)) \/ In x (keys (semiknown_moments p)))) as (a1 & a2 & a3).
        { destruct hx as [[hx hx2]|hx]; [split; [assumption|]; split; [now apply (wf_known_in _ hwf)|now left]|].
          destruct (wf_semi_in _ hwf _ hx) as (b1 & b2 & _). auto. }
        apply in_le_max in a2. fold (mm_max p) in a2. split; [lia|].
        destruct (imem x (keys (known_moments p))), (imem x (keys (semiknown_moments p))); cbn; intuition congruence. }
  apply Permutation_length in hp. rewrite hp, app_length in h. unfold keys in h. rewrite (map_length fst (semiknown_moments p)) in h. unfold keys. lia.
Qed.
Lemma new_count : length new_targets = new_vars p.
Proof. unfold new_targets, new_vars. apply map_length. Qed.
Definition known2 : nat := length (filter (fun m => 2 <=? m) (keys (known_moments p))).
Lemma has_a_iff k : has_a k p = (if imem k (entries p) then 1 else 0)%Z. Proof. reflexivity. Qed.
Lemma known_count_le : (known_vars p <= Z.of_nat known2)%Z.
Proof.
  unfold known2. unfold known_vars. destruct (length (known_moments p) =? 1); [lia|].
  pose proof (filter_two (keys (known_moments p)) (wf_known_keys _ hwf)) as h.
  assert (length (keys (known_moments p)) = length (known_moments p)) as hl by apply map_length. rewrite hl in h. clear hl.
  unfold has_a. pose proof (wf_known_in _ hwf 0) as h0. pose proof (wf_known_in _ hwf 1) as h1.
  pose proof (imem_iff 0 (keys (known_moments p))). pose proof (imem_iff 1 (keys (known_moments p))).
  pose proof (imem_iff 0 (entries p)). pose proof (imem_iff 1 (entries p)).
  destruct (imem 0 (keys (known_moments p))), (imem 1 (keys (known_moments p))), (imem 0 (entries p)), (imem 1 (entries p)); try lia; exfalso; intuition congruence.
Qed.
Lemma known_count_eq : In 1 (entries p) -> In 1 (keys (known_moments p)) -> (In 0 (entries p) -> In 0 (keys (known_moments p))) ->
  (known_vars p = Z.of_nat known2)%Z.
Proof.
  intros e1 k1 k0. unfold known2. pose proof (filter_two (keys (known_moments p)) (wf_known_keys _ hwf)) as h.
  assert (length (keys (known_moments p)) = length (known_moments p)) as hl by apply map_length. rewrite hl in h. clear hl.
  unfold known_vars. unfold has_a. pose proof (wf_known_in _ hwf 0) as h0.
  pose proof (imem_iff 0 (keys (known_moments p))). pose proof (imem_iff 1 (keys (known_moments p))).
  pose proof (imem_iff 0 (entries p)). pose proof (imem_iff 1 (entries p)).
  destruct (imem 1 (keys (known_moments p))); [|exfalso; intuition congruence]. destruct (imem 1 (entries p)); [|exfalso; intuition congruence].
  destruct (Nat.eqb_spec (length (known_moments p)) 1) as [e|_].
  - destruct (imem 0 (keys (known_moments p))); lia.
  - destruct (imem 0 (keys (known_moments p))), (imem 0 (entries p)); try lia; exfalso; intuition congruence.
Qed.

Variable ms : list nat.
Hypothesis hms : NoDup ms.
Hypothesis hvar : forall m, In m ms <-> variable p m.
Lemma ms_in m : In m ms -> In m (old_vars ++ new_targets).
Proof.
  intros hm. apply hvar in hm. rewrite in_app_iff.
  assert (2 <= m /\ free p m /\ (In m (entries p) \/ exists k c, In (k, (c, m)) (semiknown_moments p))) as (h2 & hf & hor).
  { destruct hm as [(n0 & hf & hin)|(k & c & _ & hin)].
    - destruct hf as (n1 & hf). repeat split; try apply hf; [lia|lia|now left].
    - destruct (wf_targets _ hwf _ _ _ hin) as (h2 & hf). split; [assumption|]. split; [assumption|]. right. eauto. }
  destruct hf as (n1 & hk & hs).
  assert (ungiven m = true) as hu.
  { unfold ungiven. rewrite andb_true_iff, !negb_true_iff. pose proof (imem_iff m (keys (known_moments p))). pose proof (imem_iff m (keys (semiknown_moments p))).
    destruct (imem m (keys (known_moments p))), (imem m (keys (semiknown_moments p))); intuition congruence. }
  destruct (le_lt_dec m (mm_max p)) as [hle|hgt].
  - left. unfold old_vars. apply filter_In. split; [|assumption]. apply in_seq. lia.
  - right. destruct hor as [hin|(k & c & hin)]; [apply in_le_max in hin; unfold mm_max in hgt; lia|].
    unfold new_targets. apply in_map_iff. exists (k, (c, m)). split; [reflexivity|]. apply filter_In. split; [assumption|]. apply Nat.ltb_lt. assumption.
Qed.
Lemma count_le : (0 <= nvars p)%Z -> (Z.of_nat (length ms) <= nvars p)%Z.
Proof.
  intros hpos. pose proof (NoDup_incl_length hms ms_in) as h. rewrite app_length in h. pose proof old_count. pose proof new_count. pose proof known_count_le. unfold known2 in *.
  unfold nvars in *. destruct (mm_max p) as [|mx] eqn:E; [|lia]. 
  assert (length (semiknown_moments p) = 0) by lia. assert (new_vars p = 0); [|lia].
  unfold new_vars. destruct (semiknown_moments p); [reflexivity|discriminate].
Qed.
Lemma count_eq : In 1 (entries p) -> In 1 (keys (known_moments p)) -> (In 0 (entries p) -> In 0 (keys (known_moments p))) ->
  NoDup new_targets -> (nvars p = Z.of_nat (length ms))%Z.
Proof.
  intros e1 k1 k0 hnt.
  assert (Permutation ms (old_vars ++ new_targets)) as hp.
  { apply perm_of_same_elements; [assumption| |].
    - assert (forall a, In a old_vars -> ~ In a new_targets) as hd.
      { intros a ha hb. unfold old_vars in ha. apply filter_In in ha. destruct ha as [ha _]. apply in_seq in ha.
        unfold new_targets in hb. apply in_map_iff in hb. destruct hb as (q & <- & hq). apply filter_In in hq. destruct hq as [_ hq]. apply Nat.ltb_lt in hq. lia. }
      assert (NoDup old_vars) as hov by apply NoDup_filter, seq_NoDup. revert hov hd. generalize old_vars. intros l.
      induction l as [|a l IH]; intros hov hd; [assumption|]. cbn [app]. apply NoDup_cons_iff in hov. destruct hov as [ha hov]. constructor.
      + rewrite in_app_iff. intros [?|?]; [contradiction|]. eapply hd; [now left|eassumption].
      + apply IH; [assumption|]. intros b hb. apply hd. now right.
    - intros x. split; [apply ms_in|]. intros hx. apply hvar. apply in_app_or in hx. destruct hx as [hx|hx].
      + unfold old_vars in hx. apply filter_In in hx. destruct hx as [hx hu]. apply in_seq in hx. left. split; [lia|].
        unfold ungiven in hu. rewrite andb_true_iff, !negb_true_iff in hu. split; [|apply (wf_indices _ hwf); lia].
        split; [lia|]. pose proof (imem_iff x (keys (known_moments p))). pose proof (imem_iff x (keys (semiknown_moments p))).
        destruct (imem x (keys (known_moments p))), (imem x (keys (semiknown_moments p))); intuition congruence.
      + unfold new_targets in hx. apply in_map_iff in hx. destruct hx as ([k [c m]] & <- & hq). apply filter_In in hq. destruct hq as [hq _].
        right. exists k, c. split; [|exact hq]. apply (wf_semi_in _ hwf). apply in_map_iff. exists (k, (c, m)). auto. }
  apply Permutation_length in hp. rewrite app_length in hp. pose proof old_count. pose proof new_count. pose proof (known_count_eq e1 k1 k0). unfold known2 in *.
  apply in_le_max in e1. fold (mm_max p) in e1. unfold nvars. lia.
Qed.

(** every point of the file comes from an assignment of moments *)
Definition assignment (x : nat -> Qc) (m : nat) : Qc :=
  let value_of m := match iget m (number_from 1 ms) with Some i => x i | None => 0%Qc end in
  if m =? 0 then 0%Qc else if m =? 1 then 1%Qc
  else match iget m (known_moments p) with
       | Some c => c
       | None => match iget m (semiknown_moments p) with Some (c, m') => (c * value_of m')%Qc | None => value_of m end
       end.
Lemma assignment_free x m : 2 <= m -> free p m -> assignment x m = match iget m (number_from 1 ms) with Some i => x i | None => 0%Qc end.
Proof.
  intros h2 (_ & hk & hs). unfold assignment. destruct (Nat.eqb_spec m 0); [lia|]. destruct (Nat.eqb_spec m 1); [lia|].
  apply (get_none Nat.eq_dec) in hk. apply (get_none Nat.eq_dec) in hs. unfold iget in *. now rewrite hk, hs.
Qed.
Lemma assignment_respects x : respects p (assignment x).
Proof.
  split; [reflexivity|]. split; [reflexivity|]. split.
  - intros m c h. unfold assignment. destruct (Nat.eqb_spec m 0) as [->|n0]; [symmetry; now apply (wf_known_zero _ hwf)|].
    destruct (Nat.eqb_spec m 1) as [->|n1]; [symmetry; now apply (wf_known_one _ hwf)|].
    unfold iget. now rewrite (in_get Nat.eq_dec m c _ (wf_known_keys _ hwf) h).
  - intros m c m' h. destruct (wf_targets _ hwf _ _ _ h) as (h2 & hf).
    assert (In m (keys (semiknown_moments p))) as hkey by (apply in_map_iff; exists (m, (c, m')); auto).
    destruct (wf_semi_in _ hwf _ hkey) as (_ & h2m & hnk).
    rewrite (assignment_free x m' h2 hf). unfold assignment. destruct (Nat.eqb_spec m 0); [lia|]. destruct (Nat.eqb_spec m 1); [lia|].
    apply (get_none Nat.eq_dec) in hnk. unfold iget in *. now rewrite hnk, (in_get Nat.eq_dec m _ _ (wf_semi_keys _ hwf) h).
Qed.
Lemma assignment_variables x k : k < length ms -> x (S k) = assignment x (nth k ms 0).
Proof.
  intros hk. assert (In (nth k ms 0) ms) as hin by now apply nth_In. apply hvar in hin.
  rewrite assignment_free.
  - replace (iget (nth k ms 0) (number_from 1 ms)) with (Some (S k)); [reflexivity|]. symmetry. apply (number_get 1 ms _ _ hms). exists k.
    split; [now apply nth_error_nth'|reflexivity].
  - destruct hin as [(n0 & (n1 & _) & _)|(k' & c & _ & hin)]; [lia|]. now destruct (wf_targets _ hwf _ _ _ hin).
  - destruct hin as [(n0 & hf & _)|(k' & c & _ & hin)]; [assumption|]. now destruct (wf_targets _ hwf _ _ _ hin).
Qed.
End Count.
