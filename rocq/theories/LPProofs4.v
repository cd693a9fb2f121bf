(** Proofs about the generated linear programme: orbits and columns. *)
From Coq Require Import Permutation Sorted.
From Verif Require Import MargModel QcSum LPModel LPSpec CliqueSpec CliqueProofs LPProofs LPProofs2 LPProofs3.
From Verif Require ScenarioProofs OrbitProofs UniqueProofs ColumnProofs2 SymProofs.
Close Scope Q_scope. Close Scope Qc_scope. Open Scope nat_scope.

(** * lookups *)
Lemma bfind_some raw : NoDup raw -> forall i v k, bfind i raw v = Some k <-> i <= k /\ nth_error raw (k - i) = Some v.
Proof.
  induction 1 as [|x raw Hx N IH]; intros i v k; cbn [bfind].
  - split; [discriminate|]. intros [_ H]. destruct (k - i); discriminate.
  - destruct (bfind (S i) raw v) as [m|] eqn:E.
    + assert (E' := E). apply IH in E' as [L1 L2]. split.
      * intros [= <-]. split; [lia|]. replace (m - i) with (S (m - S i)) by lia. exact L2.
      * intros [K1 K2]. destruct (k - i) as [|d] eqn:Ed; cbn in K2.
        -- injection K2 as ->. exfalso. apply Hx. eapply nth_error_In, L2.
        -- f_equal. assert (bfind (S i) raw v = Some k); [|congruence]. apply IH. split; [lia|]. replace (k - S i) with d by lia. exact K2.
    + destruct (bvec_eqb x v) eqn:Ev.
      * apply bvec_eqb_spec in Ev. subst. split; [intros [= <-]; split; [lia|]; rewrite Nat.sub_diag; reflexivity|].
        intros [K1 K2]. destruct (k - i) as [|d] eqn:Ed; [f_equal; lia|]. cbn in K2.
        exfalso. apply Hx. eapply nth_error_In, K2.
      * split; [discriminate|]. intros [K1 K2]. destruct (k - i) as [|d] eqn:Ed; cbn in K2.
        -- injection K2 as ->. rewrite (proj2 (bvec_eqb_spec v v) eq_refl) in Ev. discriminate.
        -- assert (bfind (S i) raw v = Some k); [|congruence]. apply IH. split; [lia|]. replace (k - S i) with d by lia. exact K2.
Qed.
Lemma bfind_0 raw v k : NoDup raw -> (bfind 0 raw v = Some k <-> nth_error raw k = Some v).
Proof. intros N. rewrite (bfind_some raw N). rewrite Nat.sub_0_r. intuition lia. Qed.
Lemma bfind_nth raw v k : NoDup raw -> (bfind 0 raw v = Some k <-> k < length raw /\ nth k raw [] = v).
Proof.
  intros N. rewrite bfind_0 by exact N. split.
  - intros H. split; [apply nth_error_Some; congruence|]. erewrite nth_error_nth by exact H. reflexivity.
  - intros [H <-]. apply nth_error_nth'. exact H.
Qed.
Lemma bfind_in raw v : NoDup raw -> In v raw -> exists k, bfind 0 raw v = Some k.
Proof. intros N H. apply In_nth_error in H as [k Hk]. exists k. apply bfind_0; assumption. Qed.
Lemma keep_some_in {A} (l : list (option A)) x : In x (keep_some l) <-> In (Some x) l.
Proof.
  induction l as [|[y|] l IH]; cbn; [tauto| |]; rewrite ?IH.
  - split; [intros [->|H]; auto|intros [[= ->]|H]; auto].
  - split; [auto|intros [H|H]; [discriminate|exact H]].
Qed.
Lemma set_at_length {A} (l : list A) k x : length (set_at l k x) = length l.
Proof. revert k. induction l as [|y l IH]; destruct k; cbn; auto. Qed.
Lemma nth_set_at {A} (l : list A) k x j d : nth j (set_at l k x) d = if (j =? k) && (j <? length l) then x else nth j l d.
Proof.
  revert k j. induction l as [|y l IH]; intros k j; cbn [set_at length]; [rewrite andb_false_r; reflexivity|].
  destruct k, j; cbn; auto. rewrite IH. reflexivity.
Qed.
Lemma fold_set_at {A} ks (l : list A) x : length (fold_left (fun o k => set_at o k x) ks l) = length l /\
  forall j d, j < length l -> (In j ks -> nth j (fold_left (fun o k => set_at o k x) ks l) d = x) /\
   (~ In j ks -> nth j (fold_left (fun o k => set_at o k x) ks l) d = nth j l d).
Proof.
  revert l. induction ks as [|k ks IH]; intros l; cbn [fold_left]; [split; [reflexivity|intros j d _; split; [intros []|reflexivity]]|].
  destruct (IH (set_at l k x)) as [I1 I2]. rewrite set_at_length in I1. split; [exact I1|]. intros j d Hj.
  destruct (I2 j d) as [J1 J2]; [rewrite set_at_length; exact Hj|]. rewrite nth_set_at, (proj2 (Nat.ltb_lt _ _) Hj), andb_true_r in J2. split.
  - intros [E|H]; [|auto]. subst k. destruct (in_dec Nat.eq_dec j ks) as [H|H]; [auto|]. rewrite (J2 H), Nat.eqb_refl. reflexivity.
  - intros H. rewrite J2 by (intros K; apply H; right; exact K). destruct (Nat.eqb_spec j k) as [->|]; [|reflexivity]. exfalso. apply H. left. reflexivity.
Qed.

Lemma vtake_id n v : length v = n -> vtake v (seq 0 n) = v.
Proof. intros H. apply (bvec_ext n); [rewrite vtake_length, seq_length; reflexivity|exact H|]. intros i Hi. rewrite nth_vtake, seq_nth by (rewrite ?seq_length; exact Hi). reflexivity. Qed.
Lemma vtake_vtake v g h : (forall i, In i h -> i < length g) -> vtake (vtake v g) h = vtake v (map (fun k => nth k g 0) h).
Proof. intros H. unfold vtake at 1 3. rewrite map_map. apply map_ext_in. intros k Hk. apply nth_vtake, H, Hk. Qed.

Lemma least_element (Q : nat -> Prop) : (forall m, {Q m} + {~ Q m}) -> forall k, Q k -> exists m, m <= k /\ Q m /\ forall i, i < m -> ~ Q i.
Proof.
  intros D k. induction k as [k IH] using (well_founded_induction lt_wf). intros H.
  assert (C : {i | i < k /\ Q i} + {forall i, i < k -> ~ Q i}).
  { clear - D. induction k as [|k [(i & Hi & Qi)|C]].
    - right. intros i Hi. lia.
    - left. exists i. split; [lia|exact Qi].
    - destruct (D k) as [K|K]; [left; exists k; split; [lia|exact K]|right]. intros i Hi Qi. destruct (Nat.eq_dec i k) as [->|]; [contradiction|]. apply (C i); [lia|exact Qi]. }
  destruct C as [(i & Hi & Qi)|C].
  - destruct (IH i Hi Qi) as (m & Hm & K). exists m. split; [lia|exact K].
  - exists k. auto.
Qed.

Section Orbits.
Variables (n : nat) (syms : list (list nat)).
Hypothesis Hhead : hd [] syms = seq 0 n.
Hypothesis Hne : syms <> [].
Hypothesis Hrange : forall g, In g syms -> length g = n /\ (forall i, In i g -> i < n) /\ NoDup g.
Hypothesis Hcomp : forall g h, In g syms -> In h syms -> In (map (fun k => nth k g 0) h) syms.
Hypothesis Hinv : forall g, In g syms -> exists h, In h syms /\ map (fun k => nth k g 0) h = seq 0 n.
Variable raw : list bvec.
Hypothesis Hlen : forall v, In v raw -> length v = n.
Hypothesis Nraw : NoDup raw.
Local Notation N := (length raw).
Local Notation R i := (nth i raw []).

Definition related (v u : bvec) := exists g, In g syms /\ vtake v g = u.
Lemma id_in : In (seq 0 n) syms.
Proof. destruct syms as [|g l]; [congruence|]. cbn in Hhead. subst. left. reflexivity. Qed.
Lemma related_refl v : length v = n -> related v v.
Proof. intros H. exists (seq 0 n). split; [apply id_in|]. apply vtake_id, H. Qed.
Lemma related_sym v u : length v = n -> related v u -> related u v.
Proof.
  intros H (g & Hg & <-). destruct (Hinv g Hg) as (h & Hh & E). exists h. split; [exact Hh|].
  rewrite vtake_vtake; [rewrite E; apply vtake_id, H|]. destruct (Hrange g Hg) as [-> _]. apply (Hrange h Hh).
Qed.
Lemma related_trans v u w : related v u -> related u w -> related v w.
Proof.
  intros (g & Hg & <-) (h & Hh & <-). exists (map (fun k => nth k g 0) h). split; [apply Hcomp; assumption|].
  symmetry. apply vtake_vtake. destruct (Hrange g Hg) as [-> _]. apply (Hrange h Hh).
Qed.
Lemma related_dec v u : {related v u} + {~ related v u}.
Proof.
  destruct (existsb (fun g => bvec_eqb (vtake v g) u) syms) eqn:E.
  - left. apply existsb_exists in E as (g & Hg & E). apply bvec_eqb_spec in E. exists g. auto.
  - right. intros (g & Hg & K). rewrite (proj2 (existsb_exists _ _)) in E; [discriminate|]. exists g. split; [exact Hg|]. apply bvec_eqb_spec, K.
Qed.
Lemma related_length v u : related v u -> length u = n.
Proof. intros (g & Hg & <-). rewrite vtake_length. apply (Hrange g Hg). Qed.
Lemma R_len i : i < N -> length (R i) = n.
Proof. intros H. apply Hlen, nth_In, H. Qed.
Lemma R_inj i j : i < N -> j < N -> R i = R j -> i = j.
Proof. intros Hi Hj E. apply (proj1 (NoDup_nth raw []) Nraw); assumption. Qed.

(** [m] is the first monomial of the class of [j] *)
Definition first_of j m := m < N /\ related (R j) (R m) /\ forall i, i < m -> ~ related (R m) (R i).
Lemma first_exists j : j < N -> exists m, first_of j m /\ m <= j.
Proof.
  intros Hj. destruct (least_element (fun m => related (R j) (R m)) (fun m => related_dec _ _) j (related_refl _ (R_len _ Hj))) as (m & Hm & Q & L).
  exists m. split; [|exact Hm]. split; [lia|]. split; [exact Q|]. intros i Hi K. apply (L i Hi). eapply related_trans; eauto.
Qed.
Lemma first_unique j m m' : j < N -> first_of j m -> first_of j m' -> m = m'.
Proof.
  intros Hj (A1 & A2 & A3) (B1 & B2 & B3). assert (K : related (R m) (R m')) by (eapply related_trans; [apply related_sym; [apply R_len, Hj|exact A2]|exact B2]).
  destruct (lt_eq_lt_dec m m') as [[L|E]|L]; [|exact E|].
  - exfalso. apply (B3 m L). apply related_sym; [apply R_len, A1|exact K].
  - exfalso. apply (A3 m' L). exact K.
Qed.

Definition oinv k (o : list (option nat)) := length o = N /\ forall j, j < N -> forall m, nth j o None = Some m <-> m < k /\ first_of j m.
Lemma oinv_step k o : k < N -> oinv k o -> oinv (S k) (orbit_step syms raw o k).
Proof.
  intros Hk [Lo I]. unfold orbit_step. destruct (nth k o None) as [m|] eqn:E.
  - split; [exact Lo|]. intros j Hj m'. rewrite (I j Hj m'). split; [intros [H1 H2]; split; [lia|exact H2]|].
    intros [H1 H2]. split; [|exact H2]. destruct (Nat.eq_dec m' k) as [->|]; [|lia]. exfalso.
    apply (I k Hk) in E as [E1 (E2 & E3 & _)]. destruct H2 as (_ & _ & H2). apply (H2 m E1 E3).
  - set (ks := keep_some _). destruct (fold_set_at ks (set_at o k (Some k)) (Some k)) as [L1 L2]. rewrite set_at_length in L1, L2.
    assert (Kmin : forall i, i < k -> ~ related (R k) (R i)).
    { destruct (first_exists k Hk) as (m & Hm & Lm). destruct (Nat.eq_dec m k) as [->|]; [apply Hm|].
      assert (nth k o None = Some m) by (apply I; [exact Hk|split; [lia|exact Hm]]). congruence. }
    assert (Kin : forall j, j < N -> (In j ks \/ j = k <-> related (R k) (R j))).
    { intros j Hj. unfold ks. rewrite keep_some_in, in_map_iff. split.
      - intros [(v & Hf & Hv)| ->]; [|apply related_refl, R_len, Hk]. apply filter_In in Hv as [Hv _]. apply in_map_iff in Hv as (g & <- & Hg).
        apply bfind_nth in Hf as [_ Hf]; [|exact Nraw]. exists g. split; [|symmetry; exact Hf]. destruct syms; [destruct Hg|right; exact Hg].
      - intros (g & Hg & E2). destruct (Nat.eq_dec j k) as [->|Hjk]; [right; reflexivity|left]. exists (R j). split; [apply bfind_nth; auto|].
        assert (D : R j <> R k) by (intros K; apply Hjk, R_inj; auto).
        apply filter_In. split.
        + apply in_map_iff. exists g. split; [exact E2|]. destruct syms as [|g0 l]; [destruct Hg|]. destruct Hg as [<-|Hg]; [|exact Hg].
          exfalso. apply D. cbn in Hhead. subst g0. rewrite <- E2. apply vtake_id, R_len, Hk.
        + apply negb_true_iff. destruct (bvec_eqb (R j) (R k)) eqn:Eb; [|reflexivity]. apply bvec_eqb_spec in Eb. contradiction. }
    split; [rewrite L1; exact Lo|]. intros j Hj m. destruct (L2 j None) as [J1 J2]; [lia|].
    destruct (related_dec (R k) (R j)) as [Rk|Rk].
    + assert (V : nth j (fold_left (fun o k0 => set_at o k0 (Some k)) ks (set_at o k (Some k))) None = Some k).
      { destruct (in_dec Nat.eq_dec j ks) as [Hi|Hi]; [apply J1, Hi|]. rewrite (J2 Hi), nth_set_at.
        apply Kin in Rk; [|exact Hj]. destruct Rk as [Rk| ->]; [contradiction|]. rewrite Nat.eqb_refl, (proj2 (Nat.ltb_lt _ _)) by lia. reflexivity. }
      rewrite V. assert (F : first_of j k) by (split; [exact Hk|]; split; [apply related_sym; [apply R_len, Hk|exact Rk]|exact Kmin]). split.
      * intros [= <-]. split; [lia|exact F].
      * intros [_ F']. f_equal. apply (first_unique j); assumption.
    + assert (Hi : ~ In j ks /\ j <> k) by (split; intros K; apply Rk, Kin; auto). destruct Hi as [Hi Hjk].
      rewrite (J2 Hi), nth_set_at. destruct (Nat.eqb_spec j k) as [|_]; [contradiction|]. cbn [andb]. rewrite (I j Hj). split.
      * intros [H1 H2]. split; [lia|exact H2].
      * intros [H1 H2]. split; [|exact H2]. destruct (Nat.eq_dec m k) as [->|]; [|lia]. exfalso. apply Rk. destruct H2 as (_ & H2 & _). apply related_sym; [apply R_len, Hj|exact H2].
Qed.
Lemma oinv_loop k : k <= N -> oinv k (fold_left (orbit_step syms raw) (seq 0 k) (repeat None N)).
Proof.
  induction k as [|k IH]; intros Hk.
  - cbn. split; [apply repeat_length|]. intros j Hj m. rewrite nth_repeat. split; [discriminate|intros [H _]; lia].
  - rewrite seq_S, fold_left_app. cbn [fold_left]. apply oinv_step; [lia|]. apply IH. lia.
Qed.
Definition orbs := discover_inflation_orbits syms raw.
Theorem orbits_first : length orbs = N /\ forall j, j < N -> first_of j (nth j orbs 0).
Proof.
  unfold orbs, discover_inflation_orbits. destruct (1 <? length syms) eqn:E.
  - destruct (oinv_loop N (le_n _)) as [L I]. set (o := fold_left _ _ _) in *. split; [rewrite map_length; exact L|]. intros j Hj.
    destruct (first_exists j Hj) as (m & Hm & _). assert (K : nth j o None = Some m) by (apply I; [exact Hj|]; split; [apply Hm|exact Hm]).
    set (f := fun o : option nat => match o with Some x => x | None => 0 end).
    assert (Z : nth j (map f o) (f None) = m) by (rewrite map_nth, K; reflexivity). change (f None) with 0 in Z. rewrite Z. exact Hm.
  - split; [apply seq_length|]. intros j Hj. rewrite seq_nth by exact Hj. cbn [plus].
    apply Nat.ltb_ge in E. assert (Es : syms = [seq 0 n]).
    { destruct syms as [|g [|]]; [congruence| |cbn in E; lia]. cbn in Hhead. congruence. }
    split; [exact Hj|]. split; [apply related_refl, R_len, Hj|]. intros i Hi (g & Hg & K). rewrite Es in Hg. destruct Hg as [<-|[]].
    rewrite vtake_id in K by (apply R_len, Hj). apply R_inj in K; lia.
Qed.
(** two monomials get the same label exactly when a symmetry maps one to the other; the
    label is the position of the first monomial of the class *)
Theorem orbits_classes i j : i < N -> j < N -> (nth i orbs 0 = nth j orbs 0 <-> related (R i) (R j)).
Proof.
  intros Hi Hj. destruct orbits_first as [_ F]. pose proof (F i Hi) as Fi. pose proof (F j Hj) as Fj. split.
  - intros E. rewrite E in Fi. eapply related_trans; [apply Fi|]. apply related_sym; [apply R_len, Hj|apply Fj].
  - intros K. apply (first_unique i); [exact Hi|exact Fi|]. destruct Fj as (A & B & C). split; [exact A|]. split; [eapply related_trans; eauto|exact C].
Qed.

Variable symmetrize : bool.
Local Notation reps := (representatives syms symmetrize raw).
Local Notation colof := (column_of syms symmetrize raw).
Lemma reps_column k : k < N -> exists c, nth k (inverse_of syms symmetrize raw) 0 = c /\ c < length reps /\ related (R k) (nth c reps []) /\ In (nth c reps []) raw.
Proof.
  intros Hk. unfold representatives, rep_indices, inverse_of. fold orbs. destruct orbits_first as [L F]. destruct symmetrize.
  - eexists. split; [reflexivity|]. destruct (OrbitProofs.ui_spec orbs k) as [U1 U2]; [lia|]. set (c := nth k (unique_inv orbs) 0) in *.
    rewrite map_length, OrbitProofs.up_length. split; [exact U1|].
    rewrite (nth_indep (map (fun k => nth k raw []) _) [] (nth 0 raw [])) by (rewrite map_length, OrbitProofs.up_length; exact U1). rewrite (map_nth (fun k => nth k raw [])).
    destruct (OrbitProofs.up_spec orbs c U1) as (P1 & P2 & _). rewrite L in P1. split; [|apply nth_In, P1].
    apply orbits_classes; [exact Hk|exact P1|]. congruence.
  - exists k. rewrite seq_nth by exact Hk. split; [reflexivity|]. rewrite map_length, seq_length. split; [exact Hk|].
    rewrite (nth_indep (map (fun k => nth k raw []) _) [] (nth 0 raw [])) by (rewrite map_length, seq_length; exact Hk). rewrite (map_nth (fun k => nth k raw [])), seq_nth by exact Hk.
    split; [apply related_refl, R_len, Hk|apply nth_In, Hk].
Qed.
Theorem column_exists v : In v raw -> exists c, colof v = Some c /\ c < length reps /\ related v (nth c reps []) /\ In (nth c reps []) raw.
Proof.
  intros H. destruct (bfind_in raw v Nraw H) as [k E]. unfold column_of. rewrite E. cbn [option_map]. apply bfind_nth in E as [Hk <-]; [|exact Nraw].
  destruct (reps_column k Hk) as (c & <- & K). eexists. split; [reflexivity|exact K].
Qed.
Theorem column_in v c : colof v = Some c -> In v raw.
Proof. unfold column_of. destruct (bfind 0 raw v) as [k|] eqn:E; [|discriminate]. intros _. apply bfind_nth in E as [Hk <-]; [|exact Nraw]. apply nth_In, Hk. Qed.
Theorem column_rep c : c < length reps -> colof (nth c reps []) = Some c /\ In (nth c reps []) raw.
Proof.
  intros Hc. destruct orbits_first as [L F]. unfold column_of, representatives, rep_indices, inverse_of in *. fold orbs in *. destruct symmetrize.
  - rewrite map_length, OrbitProofs.up_length in Hc. destruct (OrbitProofs.up_spec orbs c Hc) as (P1 & P2 & _). rewrite L in P1.
    rewrite (nth_indep (map (fun k => nth k raw []) _) [] (nth 0 raw [])) by (rewrite map_length, OrbitProofs.up_length; exact Hc). rewrite (map_nth (fun k => nth k raw [])).
    rewrite (proj2 (bfind_nth raw _ _ Nraw) (conj P1 eq_refl)). cbn [option_map]. rewrite OrbitProofs.ui_up by exact Hc. split; [reflexivity|apply nth_In, P1].
  - rewrite map_length, seq_length in Hc. rewrite (nth_indep (map (fun k => nth k raw []) _) [] (nth 0 raw [])) by (rewrite map_length, seq_length; exact Hc).
    rewrite (map_nth (fun k => nth k raw [])), seq_nth by exact Hc. cbn [plus]. rewrite (proj2 (bfind_nth raw _ _ Nraw) (conj Hc eq_refl)). cbn [option_map plus].
    rewrite seq_nth by exact Hc. split; [reflexivity|apply nth_In, Hc].
Qed.
Theorem column_first : raw <> [] -> colof (R 0) = Some 0 /\ nth 0 reps [] = R 0.
Proof.
  intros Hr. assert (H0 : 0 < N) by (destruct raw; [congruence|cbn; lia]). destruct orbits_first as [L F].
  assert (O0 : nth 0 orbs 0 = 0).
  { pose proof (F 0 H0) as F0. destruct (first_exists 0 H0) as (m & Hm & Lm). assert (m = 0) by lia. subst. apply (first_unique 0); assumption. }
  unfold column_of, representatives, rep_indices, inverse_of. fold orbs. rewrite (proj2 (bfind_nth raw _ _ Nraw) (conj H0 eq_refl)). cbn [option_map]. destruct symmetrize.
  - assert (U0 : nth 0 (unique_values orbs) 0 = 0 /\ 0 < length (unique_values orbs)).
    { assert (In 0 (unique_values orbs)) by (apply OrbitProofs.uv_in; rewrite <- O0; apply nth_In; lia).
      pose proof (OrbitProofs.uv_SS orbs) as Hs. destruct (unique_values orbs) as [|x l]; [destruct H|]. cbn. split; [|lia].
      destruct H as [->|H]; [reflexivity|]. inversion Hs as [|? ? _ Ff]; subst. rewrite Forall_forall in Ff. specialize (Ff 0 H). lia. }
    destruct U0 as [U0 U1]. destruct (OrbitProofs.ui_spec orbs 0) as [V1 V2]; [lia|]. rewrite O0 in V2.
    assert (V : nth 0 (unique_inv orbs) 0 = 0).
    { destruct (Nat.eq_dec (nth 0 (unique_inv orbs) 0) 0) as [|K]; [assumption|]. exfalso.
      apply K. apply (proj1 (NoDup_nth _ 0) (OrbitProofs.uv_NoDup orbs)); [exact V1|exact U1|congruence]. }
    rewrite V. split; [reflexivity|]. destruct (OrbitProofs.up_spec orbs 0 U1) as (P1 & P2 & P3).
    rewrite (nth_indep (map (fun k => nth k raw []) _) [] (nth 0 raw [])) by (rewrite map_length, OrbitProofs.up_length; exact U1). rewrite (map_nth (fun k => nth k raw [])).
    f_equal. rewrite U0 in P2, P3. destruct (nth 0 (unique_pos orbs) 0) eqn:Ep; [reflexivity|]. exfalso. pose proof (OrbitProofs.index_first orbs 0 0 O0 ltac:(lia)). lia.
  - rewrite seq_nth by exact H0. split; [reflexivity|]. destruct raw; [congruence|reflexivity].
Qed.
Hypothesis Hsym : symmetrize = false -> syms = [seq 0 n].
Theorem column_same v u : In v raw -> In u raw -> (colof v = colof u <-> related v u).
Proof.
  intros Hv Hu. destruct (column_exists v Hv) as (c & Ec & Hc & Rc & _), (column_exists u Hu) as (d & Ed & Hd & Rd & _). split.
  - intros E. assert (c = d) by congruence. subst d. eapply related_trans; [exact Rc|]. apply related_sym; [apply Hlen, Hu|exact Rd].
  - intros K. unfold column_of in *. destruct (bfind 0 raw v) as [i|] eqn:Ei; [|discriminate]. destruct (bfind 0 raw u) as [j|] eqn:Ej; [|discriminate].
    apply bfind_nth in Ei as [Hi <-], Ej as [Hj <-]; try exact Nraw. cbn [option_map]. f_equal. unfold inverse_of. destruct symmetrize.
    + apply orbits_classes in K; [|exact Hi|exact Hj]. fold orbs. unfold unique_inv.
      destruct orbits_first as [L _].
      rewrite !(nth_indep (map _ orbs) 0 (index_of Nat.eqb 0 (unique_values orbs))) by (rewrite map_length; lia).
      rewrite !(map_nth (fun x => index_of Nat.eqb x (unique_values orbs))), K. reflexivity.
    + destruct K as (g & Hg & K). rewrite (Hsym eq_refl) in Hg. destruct Hg as [<-|[]]. rewrite vtake_id in K by (apply R_len, Hi). apply R_inj in K; [|exact Hi|exact Hj]. subst. reflexivity.
Qed.
End Orbits.
