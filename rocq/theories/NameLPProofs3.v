(** The atoms of a generated linear programme are atoms of the specification of names. *)
From Coq Require Import List Arith Bool Lia Permutation Sorted.
From Verif Require Import CanonModel CanonSpec ScenarioModel ScenarioSpec SymModel SymSpec FactorModel LPModel LPSpec LPSpec2 InflatedSpec ProgramModel LPMomentModel LPMomentProofs LPMomentProofs2 ColumnsFacts SoundProofs NameLPSpec.
From Verif Require ScenarioProofs SymProofs LPProofs LPProofs4 LPProofs8 LPProofs9 NameLPProofs.
Import ListNotations.
Open Scope nat_scope.

(** positions of the ones, from position i on *)
Fixpoint ones (i : nat) (v : bvec) : list nat :=
  match v with [] => [] | b :: v' => if b then i :: ones (S i) v' else ones (S i) v' end.
Lemma ones_flat v : forall i, filter (fun k => nth (k - i) v false) (seq i (length v)) = ones i v.
Proof.
  induction v as [|b v IH]; intros i; [reflexivity|]. cbn [length seq filter ones]. rewrite Nat.sub_diag. change (nth 0 (b :: v) false) with b.
  assert (E : filter (fun k => nth (k - i) (b :: v) false) (seq (S i) (length v)) = ones (S i) v).
  { rewrite <- IH. apply filter_ext_in. intros k Hk. apply in_seq in Hk. replace (k - i) with (S (k - S i)) by lia. reflexivity. }
  rewrite E. destruct b; reflexivity.
Qed.
Lemma flat_ones v : flatnonzero v = ones 0 v.
Proof. rewrite <- ones_flat. unfold flatnonzero. apply filter_ext. intros k. rewrite Nat.sub_0_r. reflexivity. Qed.
Lemma ones_from v : forall i k, In k (ones i v) -> i <= k.
Proof.
  induction v as [|b v IH]; intros i k H; [destruct H|]. cbn [ones] in H. destruct b.
  - destruct H as [->|H]; [lia|]. apply IH in H. lia.
  - apply IH in H. lia.
Qed.
(** the greater of two vectors with as many ones has the smaller list of positions *)
Lemma ones_order a : forall b i, LPProofs9.ble b a -> length a = length b -> length (ones i a) = length (ones i b) -> lex_le (ones i a) (ones i b).
Proof.
  unfold LPProofs9.ble. induction a as [|x a IH]; intros [|y b] i H L E; try discriminate L; [constructor|]. cbn [length] in L. cbn [ones bcompare] in *.
  destruct x, y.
  - apply ll_eq. apply IH; [exact H|lia|cbn [length] in E; lia].
  - destruct (ones (S i) b) as [|k l] eqn:Q; [cbn [length] in E; lia|]. constructor. assert (S i <= k) by (apply (ones_from b); rewrite Q; left; reflexivity). lia.
  - congruence.
  - apply IH; [exact H|lia|exact E].
Qed.

Lemma flat_in v i : In i (flatnonzero v) <-> i < length v /\ nth i v false = true.
Proof.
  rewrite flatnonzero_in. split; [|tauto]. intros H. split; [|exact H]. destruct (Nat.lt_ge_cases i (length v)) as [L|L]; [exact L|]. rewrite nth_overflow in H by exact L. discriminate.
Qed.
Section Atoms.
Variables (sc : scenario) (W : wf_scenario sc) (Hout : forall o, In o (outcomes sc) -> 1 <= o).
Notation n := (length (lexorder sc)).
Notation syms := (discover_lexorder_symmetries sc).

Lemma rep_is_atom f : f <> [] -> (forall i, In i f -> i < n) -> lp_atom_word sc (rep sc f).
Proof.
  intros NE R. split; [apply (rep_nonempty sc W Hout); assumption|]. split; [apply rep_sorted|]. split; [intros k Hk; exact (rep_range sc W Hout f k Hk)|].
  intros g w' Hg Sw' M. destruct (LPProofs8.scenario_symmetries sc W Hout true) as [Hh Hr Hc Hi _ _]. pose proof (LPProofs8.scenario_syms_ne sc) as Hs.
  assert (L : length (rep_key sc (key_of n f)) = n /\ LPProofs4.related syms (key_of n f) (rep_key sc (key_of n f))).
  { unfold rep_key. destruct (length syms =? 1).
    - split; [apply LPProofs9.key_length|]. exists (seq 0 n). split; [apply (LPProofs4.id_in n syms); auto|]. apply (LPProofs4.vtake_id n), LPProofs9.key_length.
    - assert (Q : LPProofs4.related syms (key_of n f) (LPProofs9.top n syms (key_of n f))) by (apply LPProofs9.top_related; auto; apply LPProofs9.key_length). split; [|exact Q].
      eapply LPProofs4.related_length; [exact Hr|exact Q]. }
  destruct L as [L RK]. set (v := rep_key sc (key_of n f)) in *. change (rep sc f) with (flatnonzero v) in *.
  destruct (Hi g Hg) as (h & Hh' & Eh). destruct (Hr g Hg) as (Lg & Rg & Ng). destruct (Hr h Hh') as (Lh & Rh & _).
  assert (GH : forall i, i < n -> nth (nth i h 0) g 0 = i).
  { intros i H. transitivity (nth i (map (fun k => nth k g 0) h) 0); [|rewrite Eh, seq_nth by exact H; reflexivity].
    rewrite (nth_indep (map (fun k => nth k g 0) h) 0 (nth 0 g 0)) by (rewrite map_length, Lh; exact H). rewrite (map_nth (fun k => nth k g 0)). reflexivity. }
  assert (Rw' : forall k, In k w' -> k < n).
  { intros k Hk. apply M in Hk as (j & Hj & ->). apply Rg, nth_In. rewrite Lg. apply flat_in in Hj as [Hj _]. rewrite <- L. exact Hj. }
  assert (Eu : flatnonzero (key_of n w') = w') by (apply flat_of_sorted; assumption).
  assert (Ev : key_of n w' = vtake v h).
  { apply (LPProofs.bvec_ext n); [apply LPProofs9.key_length|unfold vtake; rewrite map_length; exact Lh|]. intros i H.
    unfold vtake. rewrite (nth_indep (map (fun k => nth k v false) h) false (nth 0 v false)) by (rewrite map_length, Lh; exact H). rewrite (map_nth (fun k => nth k v false)).
    apply eq_true_iff_eq. change (key_of n w') with (event_of sc w'). rewrite event_of_nth. split.
    - intros [_ Hk]. apply M in Hk as (j & Hj & E). apply flat_in in Hj as [Lj Hj]. assert (Q : nth i h 0 = j); [|rewrite Q; exact Hj].
      apply (proj1 (NoDup_nth g 0) Ng); [rewrite Lg; apply Rh, nth_In; lia|rewrite Lg, <- L; exact Lj|]. rewrite (GH i H). exact E.
    - intros Hv. split; [exact H|]. apply M. exists (nth i h 0). split; [|symmetry; apply GH, H]. apply flat_in. split; [rewrite L; apply Rh, nth_In; lia|exact Hv]. }
  assert (RU : LPProofs4.related syms (key_of n f) (key_of n w')).
  { eapply (LPProofs4.related_trans n syms); [exact Hr|exact Hc|exact RK|]. exists h. split; [exact Hh'|]. symmetry. exact Ev. }
  rewrite <- Eu. unfold v, rep_key in *. clear v. destruct (length syms =? 1) eqn:E1.
  - destruct RU as (g0 & Hg0 & E). apply Nat.eqb_eq in E1. assert (I : In (seq 0 n) syms) by (apply (LPProofs4.id_in n syms); auto). destruct syms as [|g1 [|g2 l]]; try discriminate.
    destruct Hg0 as [<-|[]]. destruct I as [->|[]]. rewrite (LPProofs4.vtake_id n) in E by apply LPProofs9.key_length. rewrite <- E. apply NameLPProofs.lex_le_refl.
  - rewrite !flat_ones. apply ones_order.
    + destruct RU as (g0 & Hg0 & E). unfold LPProofs9.top, lex_last. fold (LPProofs9.bmax (map (vtake (key_of n f)) syms) (blank n)).
      apply (LPProofs9.bmax_spec (map (vtake (key_of n f)) syms) (blank n)). right. apply in_map_iff. exists g0. split; [exact E|exact Hg0].
    + rewrite L. symmetry. apply LPProofs9.key_length.
    + rewrite <- !flat_ones, Eu. set (w := flatnonzero (LPProofs9.top n syms (key_of n f))) in *.
      assert (Iw : forall j, In j w -> j < n) by (intros j Hj; apply flat_in in Hj as [Hj _]; lia).
      transitivity (length (map (fun j => nth j g 0) w)); [symmetry; apply map_length|]. apply Permutation_length. apply NoDup_Permutation.
      * apply NameLPProofs.nodup_map_in.
        -- intros a b Ha Hb Q. apply (proj1 (NoDup_nth g 0) Ng); [rewrite Lg; apply Iw, Ha|rewrite Lg; apply Iw, Hb|exact Q].
        -- unfold w, flatnonzero. apply NoDup_filter, seq_NoDup.
      * rewrite <- Eu. unfold flatnonzero. apply NoDup_filter, seq_NoDup.
      * intros k. rewrite M, in_map_iff. split; intros (j & A & B); exists j; auto.
Qed.
Lemma programme_atoms (FC : few_copies sc) prog ao a : scenario_lp sc ao = Some prog -> In a (atomic_factors (lists_of sc prog)) -> lp_atom_word sc a.
Proof.
  intros EP H. destruct (atom_is sc prog a H) as (v & f & Hv & Hf & ->). pose proof (columns_ok sc W Hout ao prog EP) as CF. assert (L := cf_length _ _ CF v Hv).
  destruct (factors_ok sc W v L (always_small sc FC v L)) as [_ F].
  apply rep_is_atom; [apply (ff_nonempty _ _ _ F), Hf|]. intros i Hi. apply (flat_range sc v i L). apply (ff_in _ _ _ F). eauto.
Qed.
End Atoms.
