(** Generating the programme succeeds: the columns are distinct moments, the first is One, and the
    moments that appear as factors or as parts of a moment are columns. *)
From Coq Require Import List Arith Bool QArith Qcanon Lia Permutation Sorted.
From Verif Require Import CanonModel ScenarioModel ScenarioSpec SymModel SymSpec KnowModel KnowSpec FactorModel FactorSpec MargModel QcSum LPModel LPSpec LPSpec2 InflatedSpec ProgramModel ProgramSpec ProgramProofs ProgramProofs2 ProgramProofs3 LPSolveModel LPSolveSpec LPSolveProofs ProgramLP ProgramLPProofs LPMomentModel LPMomentProofs LPMomentProofs2 ColumnsFacts SoundProofs SoundProofs2 GlueProofs.
From Verif Require UniqueProofs ScenarioProofs SymProofs FactorProofs LPProofs LPProofs2 LPProofs3 LPProofs4 LPProofs6 LPProofs7 LPProofs8 LPProofs9 LPProofs10.
Import ListNotations.
Close Scope Q_scope. Close Scope Qc_scope. Open Scope nat_scope.

(** ** Sorting *)
Lemma insert_swap a b l : insert_atom a (insert_atom b l) = insert_atom b (insert_atom a l).
Proof.
  induction l as [|c l IH]; cbn [insert_atom].
  - destruct (Nat.leb_spec a b), (Nat.leb_spec b a); try reflexivity; [|lia]. assert (a = b) by lia. subst. reflexivity.
  - destruct (Nat.leb_spec b c) as [L1|L1], (Nat.leb_spec a c) as [L2|L2]; cbn [insert_atom].
    + destruct (Nat.leb_spec a b), (Nat.leb_spec b a); try lia.
      * assert (a = b) by lia. subst. reflexivity.
      * destruct (Nat.leb_spec b c); [reflexivity|lia].
      * destruct (Nat.leb_spec a c); [reflexivity|lia].
    + destruct (Nat.leb_spec a b); [lia|]. destruct (Nat.leb_spec b c); [|lia]. destruct (Nat.leb_spec a c); [lia|reflexivity].
    + destruct (Nat.leb_spec b a); [lia|]. destruct (Nat.leb_spec a c); [|lia]. destruct (Nat.leb_spec b c); [lia|reflexivity].
    + destruct (Nat.leb_spec a c); [lia|]. destruct (Nat.leb_spec b c); [lia|]. rewrite IH. reflexivity.
Qed.
Lemma sort_atoms_same l l' : Permutation l l' -> sort_atoms l = sort_atoms l'.
Proof.
  unfold sort_atoms. induction 1 as [|a l l' _ IH|a b l|l l1 l2 _ IH1 _ IH2]; cbn [fold_right]; [reflexivity|rewrite IH; reflexivity|apply insert_swap|congruence].
Qed.
Lemma sort_sort l : sort_atoms (sort_atoms l) = sort_atoms l.
Proof. apply sort_atoms_same, sort_atoms_perm. Qed.
Lemma filter_perm {A} (f : A -> bool) l l' : Permutation l l' -> Permutation (filter f l) (filter f l').
Proof.
  induction 1 as [|a l l' _ IH|a b l|l l1 l2 _ IH1 _ IH2]; cbn [filter]; [constructor| | |eapply perm_trans; eassumption].
  - destruct (f a); [constructor|]; exact IH.
  - destruct (f a), (f b); try reflexivity. apply perm_swap.
Qed.
Lemma filter_of_map {A B} (f : A -> B) (p : B -> bool) l : filter p (map f l) = map f (filter (fun x => p (f x)) l).
Proof. induction l as [|a l IH]; cbn [map filter]; [reflexivity|]. destruct (p (f a)); cbn [map]; rewrite IH; reflexivity. Qed.
Lemma concat_perm_in {A} (l l' : list (list A)) : Permutation l l' -> forall x, In x (concat l) <-> In x (concat l').
Proof. intros P x. rewrite !in_concat. split; intros (y & Hy & Hx); exists y; (split; [|exact Hx]); [apply (Permutation_in _ P), Hy|apply (Permutation_in _ (Permutation_sym P)), Hy]. Qed.
Lemma nodup_length (l : list moment) : NoDup l -> length (nodup meq l) = length l.
Proof. intros N. rewrite nodup_fixed_point by exact N. reflexivity. Qed.

Section Generate.
Variables (sc : scenario) (W : wf_scenario sc) (Hout : forall o, In o (outcomes sc) -> 1 <= o).
Notation n := (length (lexorder sc)).
Notation syms := (discover_lexorder_symmetries sc).
Hypothesis FC : few_copies sc.
Lemma rel_sym v u : length v = n -> LPProofs4.related syms v u -> LPProofs4.related syms u v.
Proof. destruct (LPProofs8.scenario_symmetries sc W Hout true). pose proof (LPProofs8.scenario_syms_ne sc). apply LPProofs4.related_sym; auto. Qed.
Lemma rel_trans v u w : LPProofs4.related syms v u -> LPProofs4.related syms u w -> LPProofs4.related syms v w.
Proof. destruct (LPProofs8.scenario_symmetries sc W Hout true). pose proof (LPProofs8.scenario_syms_ne sc). apply (LPProofs4.related_trans n); auto. Qed.
Lemma rep_moved f f' : rep sc f = rep sc f' -> exists sg g, moved sc sg g f f'.
Proof.
  intros E. apply (related_moved sc W). eapply rel_trans; [apply (rep_related sc W Hout)|]. rewrite E. apply rel_sym; [apply event_of_length|apply (rep_related sc W Hout)].
Qed.
Lemma apart_perm fs fs' : NoDup fs -> Permutation fs fs' -> apart sc fs -> apart sc fs'.
Proof.
  intros N P A i j k k' Hi Hj Hk Hk' Sh. assert (N' : NoDup fs') by (eapply Permutation_NoDup; eassumption). apply (proj1 (NoDup_nth fs' []) N' i j Hi Hj).
  pose proof (Permutation_in _ (Permutation_sym P) (nth_In fs' [] Hi)) as Ii. pose proof (Permutation_in _ (Permutation_sym P) (nth_In fs' [] Hj)) as Ij.
  apply (In_nth _ _ []) in Ii as (a & Ha & Ea). apply (In_nth _ _ []) in Ij as (b & Hb & Eb). rewrite <- Ea, <- Eb. f_equal. apply (A a b k k' Ha Hb); [rewrite Ea; exact Hk|rewrite Eb; exact Hk'|exact Sh].
Qed.

Variables (prog : programme) (ao : bool) (EP : scenario_lp sc ao = Some prog).
Notation lists := (lists_of sc prog).
Notation atoms := (atomic_factors (lists_of sc prog)).
Notation cols := (map (moment_of atoms) lists).
Notation fac v := (factors sc (flatnonzero v)).
Let CF := columns_ok sc W Hout ao prog EP.
Lemma fac_facts v : In v (lp_columns prog) -> factor_facts sc (flatnonzero v) (fac v).
Proof. intros Hv. assert (L := cf_length _ _ CF v Hv). apply (factors_ok sc W v L (always_small sc FC v L)). Qed.
Lemma fac_range v k : In v (lp_columns prog) -> In k (flatnonzero v) -> k < n.
Proof. intros Hv. apply flat_range, (cf_length _ _ CF v Hv). Qed.
Lemma fac_atom v f : In v (lp_columns prog) -> In f (fac v) -> In (rep sc f) atoms.
Proof. intros Hv Hf. apply atoms_in. exists (map (rep sc) (fac v)). split; [|apply in_map, Hf]. apply (in_map (fun v => map (rep sc) (fac v))), Hv. Qed.
Lemma fac_event v fs : In v (lp_columns prog) -> Permutation (fac v) fs -> event_of sc (concat fs) = v.
Proof.
  intros Hv P. rewrite <- (event_of_flat sc v (cf_length _ _ CF v Hv)) at 1. apply event_of_ext. intros i _. rewrite <- (concat_perm_in _ _ P), (ff_in _ _ _ (fac_facts v Hv)), in_concat. tauto.
Qed.
(** the numbers determine the atoms *)
Lemma number_back l : (forall a, In a l -> In a atoms) -> map (fun i => nth i atoms []) (map (number atoms) l) = l.
Proof.
  intros H. rewrite map_map. rewrite <- (map_id l) at 2. apply map_ext_in. intros a Ha. apply (number_ok sc prog), H, Ha.
Qed.
Lemma moment_same v w : In v (lp_columns prog) -> In w (lp_columns prog) ->
  moment_of atoms (map (rep sc) (fac v)) = moment_of atoms (map (rep sc) (fac w)) -> LPProofs4.related syms v w.
Proof.
  intros Hv Hw E. unfold moment_of in E.
  assert (P : Permutation (map (number atoms) (map (rep sc) (fac v))) (map (number atoms) (map (rep sc) (fac w)))).
  { eapply perm_trans; [apply Permutation_sym, sort_atoms_perm|]. rewrite E. apply sort_atoms_perm. }
  apply (Permutation_map (fun i => nth i atoms [])) in P. rewrite !number_back in P.
  2:{ intros a Ha. apply in_map_iff in Ha as (f & <- & Hf). apply (fac_atom w f Hw Hf). }
  2:{ intros a Ha. apply in_map_iff in Ha as (f & <- & Hf). apply (fac_atom v f Hv Hf). }
  destruct (Permutation_map_inv _ _ P) as (fs & Efs & Pfs).
  assert (F2 : Forall2 (fun f f' => exists sg g, moved sc sg g f f') (fac v) fs).
  { clear - Efs W Hout. revert fs Efs. induction (fac v) as [|f l IH]; intros [|f' fs] E; try discriminate; constructor.
    - apply rep_moved. cbn [map] in E. congruence.
    - apply IH. cbn [map] in E. congruence. }
  assert (R : forall u g, In u (lp_columns prog) -> Permutation (fac u) g -> apart sc g /\ in_bounds sc g).
  { intros u g Hu Pg. split.
    - apply (apart_perm (fac u) g); [apply (factors_apart_nodup sc W (flatnonzero u)); [intros k; apply fac_range, Hu|apply fac_facts, Hu]|exact Pg|exact (ff_apart _ _ _ (fac_facts u Hu))].
    - intros f k Hf Hk. apply (fac_range u k Hu). apply (ff_in _ _ _ (fac_facts u Hu)). exists f. split; [apply (Permutation_in _ (Permutation_sym Pg)), Hf|exact Hk]. }
  destruct (R v (fac v) Hv (Permutation_refl _)) as [A1 B1]. destruct (R w fs Hw Pfs) as [A2 B2].
  destruct (glue sc W (fac v) fs A1 A2 B1 B2 F2) as (sg & g & M).
  assert (K : LPProofs4.related syms (event_of sc (concat (fac v))) (event_of sc (concat fs))) by (apply (related_moved sc W); eauto).
  rewrite (fac_event v _ Hv (Permutation_refl _)), (fac_event w fs Hw Pfs) in K. exact K.
Qed.
Lemma cols_is : cols = map (fun v => moment_of atoms (map (rep sc) (fac v))) (lp_columns prog).
Proof. unfold lists_of. rewrite map_map. reflexivity. Qed.
Lemma cols_nodup : NoDup cols.
Proof.
  rewrite cols_is. apply (NoDup_nth _ []). rewrite map_length. intros i j Hi Hj E.
  rewrite !(nth_indep _ [] ((fun v => moment_of atoms (map (rep sc) (fac v))) [])) in E by (rewrite map_length; assumption). rewrite !(map_nth (fun v => moment_of atoms (map (rep sc) (fac v)))) in E.
  apply (cf_distinct _ _ CF i j Hi Hj). apply moment_same; [apply nth_In, Hi|apply nth_In, Hj|exact E].
Qed.
Lemma cols_first : hd [0] cols = One.
Proof.
  rewrite cols_is. destruct (cf_first _ _ CF) as (l & E). assert (Hb : In (LPModel.blank n) (lp_columns prog)) by (rewrite E; left; reflexivity). rewrite E. cbn [map hd].
  assert (Z : fac (LPModel.blank n) = []); [|rewrite Z; reflexivity]. pose proof (fac_facts _ Hb) as F. destruct (fac (LPModel.blank n)) as [|f fs]; [reflexivity|]. exfalso. apply (ff_nonempty _ _ _ F f (or_introl eq_refl)).
  destruct f as [|k f]; [reflexivity|]. exfalso. assert (K : In k (flatnonzero (LPModel.blank n))) by (apply (ff_in _ _ _ F); exists (k :: f); split; left; reflexivity).
  apply flatnonzero_in in K. unfold LPModel.blank in K. rewrite nth_repeat in K. discriminate.
Qed.
(** a part of the factors of a column is a column *)
Lemma part_column v p : In v (lp_columns prog) -> In (moment_of atoms (map (rep sc) (filter p (fac v)))) cols.
Proof.
  intros Hv. set (fs0 := filter p (fac v)). pose proof (fac_facts v Hv) as F. assert (B : forall k, In k (flatnonzero v) -> k < n) by (intros k; apply fac_range, Hv).
  pose proof (factors_part sc W _ _ fs0 B F (ex_intro _ p eq_refl)) as F0.
  assert (Sub : forall k, In k (concat fs0) -> In k (flatnonzero v)).
  { intros k Hk. apply in_concat in Hk as (f & Hf & Hk). apply (ff_in _ _ _ F). exists f. split; [apply filter_In in Hf; apply Hf|exact Hk]. }
  destruct (cf_closed _ _ CF v (event_of sc (concat fs0)) Hv (event_of_length sc _)) as (w & Hw & Rw).
  { intros i Hi. apply event_of_nth in Hi as [_ Hi]. apply flatnonzero_in, Sub, Hi. }
  rewrite <- (event_of_flat sc w (cf_length _ _ CF w Hw)) in Rw. apply (related_moved sc W) in Rw as (sg & g & M).
  pose proof (factors_moved sc W sg g _ _ fs0 M (fun k Hk => B k (Sub k Hk)) (fun k Hk => fac_range w k Hw Hk) F0) as F1.
  pose proof (factors_unique sc W _ _ _ _ (fun k Hk => fac_range w k Hw Hk) (fun k => iff_refl _) F1 (fac_facts w Hw)) as P.
  rewrite cols_is. apply in_map_iff. exists w. split; [|exact Hw]. unfold moment_of. apply sort_atoms_same, Permutation_map.
  eapply perm_trans; [apply Permutation_map, Permutation_sym, P|]. rewrite map_map.
  replace (map (fun x => rep sc (preimage sc g x)) fs0) with (map (rep sc) fs0); [apply Permutation_refl|].
  apply map_ext_in. intros f Hf. apply (rep_same sc W Hout). apply (related_moved sc W). exists sg, g. destruct M as (R & J & _). split; [exact R|]. split; [exact J|]. intros i Hi. rewrite preimage_in. tauto.
Qed.
Lemma sub_column m q : In m cols -> In (sort_atoms (filter q m)) cols.
Proof.
  intros H. rewrite cols_is in H. apply in_map_iff in H as (v & <- & Hv).
  replace (sort_atoms (filter q (moment_of atoms (map (rep sc) (fac v))))) with (moment_of atoms (map (rep sc) (filter (fun f => q (number atoms (rep sc f))) (fac v)))); [apply part_column, Hv|].
  unfold moment_of. rewrite (sort_atoms_same _ _ (filter_perm q _ _ (sort_atoms_perm _))). f_equal. rewrite !map_map, filter_of_map. reflexivity.
Qed.
Lemma atom_column i : i < length atoms -> In [i] cols.
Proof.
  intros Hi. destruct (atom_is sc prog (nth i atoms []) (nth_In _ _ Hi)) as (v & f & Hv & Hf & E).
  assert (K : In (moment_of atoms (map (rep sc) (filter (row_eqb f) (fac v)))) cols) by (apply part_column, Hv).
  assert (N : NoDup (fac v)) by (apply (factors_apart_nodup sc W (flatnonzero v)); [intros k; apply fac_range, Hv|apply fac_facts, Hv]).
  assert (Z : filter (row_eqb f) (fac v) = [f]).
  { clear - N Hf. induction (fac v) as [|g l IH]; [destruct Hf|]. cbn [filter]. inversion N as [|? ? N1 N2]; subst. destruct (row_eqb f g) eqn:Eq.
    - apply FactorProofs.row_eqb_true in Eq. subst g. f_equal. destruct (filter (row_eqb f) l) as [|h l'] eqn:El; [reflexivity|]. exfalso. assert (I : In h (filter (row_eqb f) l)) by (rewrite El; left; reflexivity).
      apply filter_In in I as [I I']. apply FactorProofs.row_eqb_true in I'. subst h. contradiction.
    - destruct Hf as [->|Hf]; [rewrite (proj2 (FactorProofs.row_eqb_true f f) eq_refl) in Eq; discriminate|]. apply IH; assumption. }
  rewrite Z in K. cbn [map] in K. rewrite <- E in K. unfold moment_of in K. cbn [map] in K. rewrite (number_nth sc prog i Hi) in K. exact K.
Qed.
End Generate.

(** ** The programme *)
Section Programme.
Variables (sc : scenario) (W : wf_scenario sc) (Hout : forall o, In o (outcomes sc) -> 1 <= o).
Notation n := (length (lexorder sc)).
Hypothesis FC : few_copies sc.
Theorem generate_some ao sup : exists r, generate sc ao sup = Some r.
Proof.
  unfold generate. destruct (LPProofs10.programme_exact sc W Hout ao) as (prog & E & _). rewrite E. pose proof (columns_ok sc W Hout ao prog E) as CF.
  destruct (all_atoms_rep sc W Hout (lp_columns prog) []) as (c' & EA & _).
  { intros k m []. }
  { intros v Hv. assert (L := cf_length _ _ CF v Hv). split; [exact L|apply always_small; assumption]. }
  rewrite EA. fold (lists_of sc prog). cbv zeta. pose proof (cols_first sc W Hout FC prog ao E) as E1. pose proof (nodup_length _ (cols_nodup sc W Hout FC prog ao E)) as E2. rewrite E1, E2, Nat.eqb_refl.
  destruct (meq One One); [|congruence]. eexists. reflexivity.
Qed.
End Programme.
