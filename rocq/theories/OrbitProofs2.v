From Coq Require Import Permutation Sorted.
From Verif Require Import OrbitModel OrbitSpec ScenarioProofs UniqueProofs OrbitProofs.

(** ** a prefix of fixed points keeps its labels *)
Section Prefix.
Variables (K : nat) (acts : list (nat -> nat)) (p : nat).
Hypothesis a_range : forall a k, In a acts -> k < K -> a k < K.
Hypothesis E_sym : forall k x, k < K -> x < K -> E acts k x -> E acts x k.
Hypothesis E_trans : forall k x y, k < K -> x < K -> y < K -> E acts k x -> E acts x y -> E acts k y.
Hypothesis pK : p <= K.
Hypothesis fixed : forall j a, j < p -> In a acts -> a j = j.
Definition pre (T : list nat) := forall j, j < p -> nth j T 0 = j.
Lemma fixed_E j x : j < p -> E acts j x -> x = j.
Proof. intros Hj [->|(a & Ha & ->)]; auto. Qed.
Lemma sorted_prefix u j : StronglySorted lt u -> (forall i, i <= j -> In i u) -> nth j u 0 = j /\ j < length u.
Proof.
  intros S. revert j. assert (G : forall u d, StronglySorted lt u -> (forall x, In x u -> d <= x) -> forall j, (forall i, i <= j -> In (d + i) u) -> nth j u 0 = d + j /\ j < length u).
  { clear. induction u as [|x u IH]; intros d S L j H; [destruct (H 0 ltac:(lia))|]. inversion S as [|? ? S' F]; subst. rewrite Forall_forall in F.
    assert (x = d).
    { destruct (H 0 ltac:(lia)) as [Q|Q]; [lia|]. specialize (F _ Q). specialize (L x (or_introl eq_refl)). lia. }
    subst x. destruct j as [|j]; [cbn; lia|]. cbn [nth length].
    destruct (IH (Datatypes.S d) S') with (j := j) as [A B].
    - intros x Hx. specialize (F x Hx). lia.
    - intros i Hi. destruct (H (Datatypes.S i) ltac:(lia)) as [Q|Q]; [lia|]. replace (Datatypes.S d + i) with (d + Datatypes.S i) by lia. exact Q.
    - lia. }
  intros j H. apply (G u 0 S); [intros; lia|exact H].
Qed.
Lemma pre_merge done R T a : AI K acts done R T -> In a acts -> pre T -> pre (map (fun t => nth t (unique_inv (anew a R T)) 0) T).
Proof.
  intros I Ha PT j Hj. set (new := anew a R T). assert (Hk : j < K) by lia.
  rewrite (nth_indep _ 0 ((fun t => nth t (unique_inv new) 0) 0)) by (rewrite map_length, (ai_len _ _ _ _ _ I); exact Hk).
  rewrite (map_nth (fun t => nth t (unique_inv new) 0)). rewrite (PT j Hj).
  assert (N : forall i, i < p -> i < length R /\ nth i new 0 = i).
  { intros i Hi. pose proof (ai_T _ _ _ _ _ I i ltac:(lia)) as L. rewrite (PT i Hi) in L. split; [exact L|].
    unfold new. rewrite anew_nth by exact L. pose proof (ai_E _ _ _ _ _ I i ltac:(lia)) as Ei. rewrite (PT i Hi) in Ei.
    apply fixed_E in Ei; [|exact Hi]. rewrite Ei, (fixed i a Hi Ha), (PT i Hi). apply Nat.min_id. }
  destruct (N j Hj) as [Lj Nj]. destruct (ui_spec new j) as [U1 U2]; [unfold new; rewrite anew_length; exact Lj|]. rewrite Nj in U2.
  destruct (sorted_prefix (unique_values new) j (uv_SS new)) as [S1 S2].
  - intros i Hi. apply uv_in. destruct (N i ltac:(lia)) as [Li Ni]. rewrite <- Ni. apply nth_In. unfold new. rewrite anew_length. exact Li.
  - apply (proj1 (NoDup_nth _ 0) (uv_NoDup new)); [exact U1|exact S2|]. congruence.
Qed.
End Prefix.

(** ** the concrete loop *)
Lemma ravel_length n M : length (ravel n M) = n * n.
Proof.
  unfold ravel. assert (G : forall m k, length (flat_map (fun i => map (M i) (seq 0 n)) (seq k m)) = m * n).
  { induction m as [|m IH]; intros k; [reflexivity|]. cbn [seq flat_map]. rewrite app_length, map_length, seq_length, IH. lia. }
  apply G.
Qed.
Lemma ravel_nth n M i j : i < n -> j < n -> nth (i * n + j) (ravel n M) 0 = M i j.
Proof.
  intros Hi Hj. unfold ravel.
  assert (G : forall m k i, i < m -> nth (i * n + j) (flat_map (fun i => map (M i) (seq 0 n)) (seq k m)) 0 = M (k + i) j).
  { induction m as [|m IH]; intros k i' H; [lia|]. cbn [seq flat_map]. destruct i' as [|i'].
    - rewrite app_nth1 by (rewrite map_length, seq_length; lia). cbn [Nat.mul Nat.add].
      rewrite (nth_indep _ 0 (M k 0)) by (rewrite map_length, seq_length; exact Hj). rewrite map_nth, seq_nth by exact Hj. f_equal. lia.
    - rewrite app_nth2 by (rewrite map_length, seq_length; lia). rewrite map_length, seq_length.
      replace (Datatypes.S i' * n + j - n) with (i' * n + j) by lia. rewrite IH by lia. f_equal. lia. }
  rewrite G by exact Hi. reflexivity.
Qed.

Lemma apply_nonempty n M syms : syms <> [] -> apply_inflation_symmetries n M syms =
      match fold_left (orb_step n) syms (Some (orb_init n M)) with
      | None => None
      | Some s =>
          let old := unique_values (ravel n M) in
          let m := hd 0 old in
          let new := if m =? 0 then o_new_indices s else map (fun x => x + m) (o_new_indices s) in
          Some (fun i j => nth (o_inverse s i j) new 0,
                combine old (map (fun t => nth t new 0) (o_tracker s)),
                o_repr s)
      end.
Proof. destruct syms; [congruence|reflexivity]. Qed.

Section Conc.
Variables (n : nat) (M : matrix) (syms : list (list nat)).
Hypothesis GR : group_with_identity n syms.
Hypothesis AC : acts_on_entries n M syms.
Let flat := ravel n M.
Let old := unique_values flat.
Let K := length old.
Let V i j := nth (i * n + j) (unique_inv flat) 0.
Let pos k := unravel n (nth k (unique_pos flat) 0).
Let act (g : list nat) k := V (nth (fst (pos k)) g 0) (nth (snd (pos k)) g 0).
Let acts := map act syms.

Lemma flat_idx i j : i < n -> j < n -> i * n + j < length flat.
Proof. intros. unfold flat. rewrite ravel_length. nia. Qed.
Lemma V_spec i j : i < n -> j < n -> V i j < K /\ nth (V i j) old 0 = M i j.
Proof.
  intros Hi Hj. unfold V. destruct (ui_spec flat (i * n + j) (flat_idx i j Hi Hj)) as [H1 H2]. split; [exact H1|].
  fold old in H2. rewrite H2. apply ravel_nth; assumption.
Qed.
Lemma V_inj i j i' j' : i < n -> j < n -> i' < n -> j' < n -> (V i j = V i' j' <-> M i j = M i' j').
Proof.
  intros. destruct (V_spec i j) as [A1 A2]; auto. destruct (V_spec i' j') as [B1 B2]; auto. split; intros Q.
  - congruence.
  - apply (proj1 (NoDup_nth old 0) (uv_NoDup flat)); auto. congruence.
Qed.
Lemma pos_spec k : k < K -> fst (pos k) < n /\ snd (pos k) < n /\ V (fst (pos k)) (snd (pos k)) = k /\ M (fst (pos k)) (snd (pos k)) = nth k old 0.
Proof.
  intros Hk. destruct (up_spec flat k Hk) as (U1 & U2 & _). unfold pos, unravel. cbn [fst snd]. set (q := nth k (unique_pos flat) 0) in *.
  assert (Lq : q < n * n) by (unfold flat in U1; rewrite ravel_length in U1; exact U1).
  assert (Hn : n <> 0) by nia.
  assert (Q : q / n * n + q mod n = q) by (rewrite Nat.mul_comm; symmetry; apply Nat.div_mod, Hn).
  assert (A : q / n < n) by (apply Nat.div_lt_upper_bound; [exact Hn|exact Lq]).
  assert (B : q mod n < n) by (apply Nat.mod_upper_bound, Hn).
  repeat split; auto.
  - unfold V. rewrite Q. apply ui_up, Hk.
  - rewrite <- (ravel_nth n M _ _ A B), Q. fold flat. exact U2.
Qed.
Lemma perm_range g i : (g = id_perm n \/ In g syms) -> i < n -> nth i g 0 < n.
Proof.
  intros Hg Hi. destruct GR as (P & _). specialize (P g Hg).
  assert (L : length g = n) by (rewrite (Permutation_length P); unfold id_perm; apply seq_length).
  assert (In (nth i g 0) (id_perm n)) by (eapply Permutation_in; [exact P|]; apply nth_In; lia).
  unfold id_perm in H. apply in_seq in H. lia.
Qed.
Lemma act_V g i j : In g syms -> i < n -> j < n -> V (nth i g 0) (nth j g 0) = act g (V i j).
Proof.
  intros Hg Hi Hj. destruct (V_spec i j Hi Hj) as [A1 A2]. destruct (pos_spec _ A1) as (P1 & P2 & P3 & P4). unfold act.
  apply V_inj; try (apply perm_range; auto). apply AC; auto. congruence.
Qed.
Lemma act_range a k : In a acts -> k < K -> a k < K.
Proof.
  intros Ha Hk. apply in_map_iff in Ha as (g & <- & Hg). destruct (pos_spec k Hk) as (P1 & P2 & _). apply V_spec; apply perm_range; auto.
Qed.
(** E in terms of the matrix *)
Lemma E_orbit i j y : i < n -> j < n -> (E acts (V i j) y <-> exists g, (g = id_perm n \/ In g syms) /\ y = V (nth i g 0) (nth j g 0)).
Proof.
  intros Hi Hj. unfold E, acts. split.
  - intros [->|(a & Ha & ->)].
    + exists (id_perm n). split; [left; reflexivity|]. unfold id_perm. rewrite !seq_nth by assumption. reflexivity.
    + apply in_map_iff in Ha as (g & <- & Hg). exists g. split; [right; exact Hg|]. symmetry. apply act_V; assumption.
  - intros (g & [->|Hg] & ->).
    + left. unfold id_perm. rewrite !seq_nth by assumption. reflexivity.
    + right. exists (act g). split; [apply in_map, Hg|]. apply act_V; assumption.
Qed.
Lemma nth_compose g h i : (g = id_perm n \/ In g syms) -> (h = id_perm n \/ In h syms) -> i < n -> nth i (compose g h) 0 = nth (nth i h 0) g 0.
Proof.
  intros Hg Hh Hi. unfold compose. assert (L : length h = n).
  { destruct GR as (P & _). rewrite (Permutation_length (P h Hh)). apply seq_length. }
  rewrite (nth_indep _ 0 ((fun j => nth j g 0) 0)) by (rewrite map_length, L; exact Hi). rewrite (map_nth (fun j => nth j g 0)). reflexivity.
Qed.
Lemma K_pos k : k < K -> exists i j, i < n /\ j < n /\ V i j = k.
Proof. intros Hk. destruct (pos_spec k Hk) as (P1 & P2 & P3 & _). eauto. Qed.
Lemma E_sym' k x : k < K -> x < K -> E acts k x -> E acts x k.
Proof.
  intros Hk Hx. destruct (K_pos k Hk) as (i & j & Hi & Hj & <-). rewrite E_orbit by assumption. intros (g & Hg & ->).
  apply E_orbit; [apply perm_range; assumption|apply perm_range; assumption|].
  destruct GR as (_ & _ & Inv). destruct (Inv g Hg) as (h & Hh & C). exists h. split; [exact Hh|].
  rewrite <- !nth_compose by assumption. rewrite C. unfold id_perm. rewrite !seq_nth by assumption. reflexivity.
Qed.
Lemma E_trans' k x y : k < K -> x < K -> y < K -> E acts k x -> E acts x y -> E acts k y.
Proof.
  intros Hk Hx Hy. destruct (K_pos k Hk) as (i & j & Hi & Hj & <-). rewrite E_orbit by assumption. intros (g & Hg & ->).
  rewrite E_orbit by (apply perm_range; assumption). intros (h & Hh & ->). apply E_orbit; [assumption|assumption|].
  exists (compose h g). split; [apply GR; assumption|]. rewrite !nth_compose by assumption. reflexivity.
Qed.
Lemma E_same_orbit i j i' j' : i < n -> j < n -> i' < n -> j' < n ->
  (E acts (V i j) (V i' j') <-> same_orbit n M syms (M i j) (M i' j')).
Proof.
  intros Hi Hj Hi' Hj'. rewrite E_orbit by assumption. unfold same_orbit. split.
  - intros (g & Hg & Q). exists g, i, j. apply V_inj in Q; auto using perm_range.
  - intros (g & a & b & Hg & Ha & Hb & Q1 & Q2). exists g. split; [exact Hg|]. apply V_inj; auto using perm_range.
    rewrite <- Q2. destruct Hg as [->|Hg].
    + unfold id_perm. rewrite !seq_nth by assumption. auto.
    + apply AC; auto.
Qed.

Record Sim (s : orb_state) (R T : list nat) : Prop := {
  sim_inv : forall i j, i < n -> j < n -> o_inverse s i j = nth (V i j) T 0;
  sim_flat : o_flat_pos s = map (fun r => nth r (unique_pos flat) 0) R;
  sim_new : o_new_indices s = seq 0 (length R);
  sim_trk : o_tracker s = T;
  sim_repr : o_repr s = map (fun r => nth r old 0) R;
  sim_rc : (if o_changed s then map (unravel n) (o_flat_pos s) else o_rc s) = map pos R;
  sim_count : o_count s = length R
}.
Lemma sim_init : Sim (orb_init n M) (seq 0 K) (seq 0 K).
Proof.
  unfold orb_init. fold flat. fold old. fold K. split; cbn [o_inverse o_flat_pos o_new_indices o_tracker o_repr o_changed o_count].
  - intros i j Hi Hj. fold (V i j). rewrite seq_nth; [reflexivity|]. apply V_spec; assumption.
  - apply (nth_ext _ _ 0 0); [rewrite map_length, seq_length; apply up_length|]. rewrite up_length. fold old. fold K. intros k Hk.
    set (f := fun r => nth r (unique_pos flat) 0). rewrite (nth_indep (map f _) 0 (f 0)) by (rewrite map_length, seq_length; exact Hk).
    rewrite map_nth, seq_nth by exact Hk. reflexivity.
  - rewrite seq_length. reflexivity.
  - reflexivity.
  - apply (nth_ext _ _ 0 0); [rewrite map_length, seq_length; reflexivity|]. fold K. intros k Hk.
    set (f := fun r => nth r old 0). rewrite (nth_indep (map f _) 0 (f 0)) by (rewrite map_length, seq_length; exact Hk).
    rewrite map_nth, seq_nth by exact Hk. reflexivity.
  - apply (nth_ext _ _ (0,0) (0,0)); [rewrite !map_length, seq_length; apply up_length|]. rewrite map_length, up_length. fold old. fold K. intros k Hk.
    rewrite (nth_indep (map pos _) (0,0) (pos 0)) by (rewrite map_length, seq_length; exact Hk). rewrite map_nth, seq_nth by exact Hk.
    rewrite (nth_indep _ (0,0) (unravel n 0)) by (rewrite map_length, up_length; exact Hk). rewrite map_nth. reflexivity.
  - rewrite seq_length. reflexivity.
Qed.
Lemma map_nth_comp {A} (f : nat -> A) (R P : list nat) d : (forall p, In p P -> p < length R) ->
  map (fun k => nth k (map f R) d) P = map f (map (fun k => nth k R 0) P).
Proof.
  intros H. rewrite map_map. apply map_ext_in. intros k Hk. rewrite (nth_indep _ d (f 0)) by (rewrite map_length; auto). apply map_nth.
Qed.
Lemma sim_step s R T done g : Sim s R T -> AI K acts done R T -> In g syms ->
  exists s' R' T', orb_step n (Some s) g = Some s' /\ Sim s' R' T' /\ AI K acts (act g :: done) R' T' /\
    (forall p, (forall j a, j < p -> In a acts -> a j = j) -> p <= K -> pre p T -> pre p T').
Proof.
  intros S I Hg. assert (Ha : In (act g) acts) by (apply in_map, Hg).
  unfold orb_step. rewrite (sim_rc _ _ _ S).
  assert (HR : forall c, In c R -> c < K).
  { intros c Hc. apply (In_nth _ _ 0) in Hc as (k & Hk & <-). apply (ai_R _ _ _ _ _ I), Hk. }
  assert (Q1 : map (fun p => o_inverse s (fst p) (snd p)) (map pos R) = seq 0 (length R)).
  { rewrite map_map. apply (nth_ext _ _ 0 0); [rewrite map_length, seq_length; reflexivity|]. rewrite map_length. intros c Hc.
    rewrite seq_nth by exact Hc. set (f := fun x => _). rewrite (nth_indep _ 0 (f 0)) by (rewrite map_length; exact Hc). rewrite map_nth. unfold f.
    destruct (ai_R _ _ _ _ _ I c Hc) as [A1 A2]. destruct (pos_spec _ A1) as (P1 & P2 & P3 & _). rewrite (sim_inv _ _ _ S) by assumption.
    rewrite P3, A2. reflexivity. }
  rewrite Q1, (sim_new _ _ _ S). destruct (list_eq_dec Nat.eq_dec (seq 0 (length R)) (seq 0 (length R))) as [_|N]; [|congruence].
  assert (Q2 : map (fun q => Nat.min (fst q) (snd q)) (combine (seq 0 (length R)) (map (fun p => o_inverse s (nth (fst p) g 0) (nth (snd p) g 0)) (map pos R)))
               = anew (act g) R T).
  { unfold anew. rewrite map_map.
    assert (Q3 : map (fun x => o_inverse s (nth (fst (pos x)) g 0) (nth (snd (pos x)) g 0)) R = map (fun c => nth (act g c) T 0) R).
    { apply map_ext_in. intros c Hc. destruct (pos_spec c (HR c Hc)) as (P1 & P2 & P3 & _). rewrite (sim_inv _ _ _ S) by (apply perm_range; auto). reflexivity. }
    rewrite Q3. set (f := fun c => nth (act g c) T 0).
    assert (G : forall R' k, (forall c, c < length R' -> nth (k + c) R 0 = nth c R' 0) ->
       map (fun q => Nat.min (fst q) (snd q)) (combine (seq k (length R')) (map f R')) = map (fun c => Nat.min c (f (nth c R 0))) (seq k (length R'))).
    { induction R' as [|x R' IH]; intros k H; [reflexivity|]. cbn [length seq map combine fst snd]. f_equal.
      - f_equal. f_equal. specialize (H 0 ltac:(cbn; lia)). rewrite Nat.add_0_r in H. exact (eq_sym H).
      - apply IH. intros c Hc. specialize (H (Datatypes.S c) ltac:(cbn; lia)). cbn [nth] in H. rewrite <- H. f_equal. lia. }
    exact (G R 0 (fun c _ => eq_refl)). }
  rewrite Q2. set (new := anew (act g) R T) in *. rewrite (sim_count _ _ _ S).
  assert (UP : forall p, In p (unique_pos new) -> p < length R).
  { intros p Hp. apply (In_nth _ _ 0) in Hp as (k & Hk & <-). rewrite up_length in Hk. destruct (up_spec new k Hk) as (U & _). unfold new in U. rewrite anew_length in U. exact U. }
  destruct (Nat.ltb_spec (length (unique_values new)) (length R)) as [L|L].
  - eexists _, (map (fun k => nth k R 0) (unique_pos new)), (map (fun t => nth t (unique_inv new) 0) T). split; [reflexivity|].
    assert (LR : length (map (fun k => nth k R 0) (unique_pos new)) = length (unique_values new)) by (rewrite map_length; apply up_length).
    split; [|split].
    + split; cbn [o_inverse o_flat_pos o_new_indices o_tracker o_repr o_changed o_count o_rc].
      * intros i j Hi Hj. rewrite (sim_inv _ _ _ S) by assumption. rewrite (nth_indep (map _ T) 0 ((fun t => nth t (unique_inv new) 0) 0)).
        -- rewrite (map_nth (fun t => nth t (unique_inv new) 0)). reflexivity.
        -- rewrite map_length, (ai_len _ _ _ _ _ I). apply V_spec; assumption.
      * rewrite (sim_flat _ _ _ S). apply map_nth_comp, UP.
      * rewrite LR. reflexivity.
      * rewrite (sim_trk _ _ _ S). reflexivity.
      * rewrite (sim_repr _ _ _ S). apply map_nth_comp, UP.
      * rewrite (sim_flat _ _ _ S). rewrite map_nth_comp by exact UP. rewrite map_map. reflexivity.
      * rewrite LR. reflexivity.
    + apply AI_merge; auto using act_range, E_sym'. apply E_trans'.
    + intros p Hf Hp PT. eapply pre_merge; eauto.
  - eexists _, R, T. split; [reflexivity|]. destruct (AI_same K acts) with (done := done) (R := R) (T := T) (a := act g) as [Q AI']; auto using act_range, E_sym'.
    split; [|split; [exact AI'|auto]].
    split; cbn [o_inverse o_flat_pos o_new_indices o_tracker o_repr o_changed o_count o_rc]; try apply S.
    + exact Q.
    + reflexivity.
    + fold new in Q. rewrite Q. clear. generalize (length R). intros m. unfold unique_values.
      assert (N : NoDup (np_unique Nat.compare (seq 0 m))) by (apply np_unique_NoDup, nat_good_cmp).
      assert (P : Permutation (np_unique Nat.compare (seq 0 m)) (seq 0 m)).
      { apply NoDup_Permutation; [exact N|apply seq_NoDup|]. intros x. apply np_unique_in, nat_good_cmp. }
      rewrite (Permutation_length P). apply seq_length.
Qed.
Lemma sim_loop gs : incl gs syms -> forall s R T done, Sim s R T -> AI K acts done R T ->
  exists s' R' T' done', fold_left (orb_step n) gs (Some s) = Some s' /\ Sim s' R' T' /\ AI K acts done' R' T' /\
    incl (map act gs) done' /\ incl done done' /\
    (forall p, (forall j a, j < p -> In a acts -> a j = j) -> p <= K -> pre p T -> pre p T').
Proof.
  induction gs as [|g gs IH]; intros Inc s R T done S I.
  - exists s, R, T, done. split; [reflexivity|]. split; [exact S|]. split; [exact I|]. split; [intros x []|]. split; [apply incl_refl|auto].
  - cbn [fold_left]. destruct (sim_step s R T done g S I (Inc g (or_introl eq_refl))) as (s1 & R1 & T1 & E1 & S1 & I1 & P1). rewrite E1.
    destruct (IH (fun x Hx => Inc x (or_intror Hx)) s1 R1 T1 _ S1 I1) as (s2 & R2 & T2 & d2 & E2 & S2 & I2 & In2 & In3 & P2).
    exists s2, R2, T2, d2. split; [exact E2|]. split; [exact S2|]. split; [exact I2|]. split; [|split].
    + intros x [<-|Hx]; [apply In3; left; reflexivity|apply In2, Hx].
    + intros x Hx. apply In3. right. exact Hx.
    + intros p H1 H2 H3. apply P2; auto.
Qed.

Lemma assoc_combine_nth (ks vs : list nat) k : NoDup ks -> length vs = length ks -> k < length ks ->
  assoc (combine ks vs) (nth k ks 0) = Some (nth k vs 0).
Proof.
  revert vs k. induction ks as [|x ks IH]; intros [|v vs] k N L H; try (cbn in H, L; lia). inversion N as [|? ? Hx N']; subst.
  cbn [combine assoc nth]. destruct k as [|k].
  - rewrite Nat.eqb_refl. reflexivity.
  - cbn in H, L. destruct (Nat.eqb_spec x (nth k ks 0)) as [->|_]; [exfalso; apply Hx, nth_In; lia|]. apply IH; auto; lia.
Qed.

Theorem symmetrised_correct : syms <> [] ->
  exists M' orbits repr, apply_inflation_symmetries n M syms = Some (M', orbits, repr) /\
  (forall i j i' j', i < n -> j < n -> i' < n -> j' < n ->
     (M' i j = M' i' j' <-> same_orbit n M syms (M i j) (M i' j'))) /\
  (forall i j, i < n -> j < n -> assoc orbits (M i j) = Some (M' i j)) /\
  map fst orbits = old /\
  NoDup repr /\
  (forall x, In x repr <-> (exists i j, i < n /\ j < n /\ M i j = x) /\
      forall y, same_orbit n M syms x y -> x <= y) /\
  (* a prefix of values of the matrix, each of which is only moved to itself, is unchanged *)
  (forall p, (forall v, v < p -> (exists i j, i < n /\ j < n /\ M i j = hd 0 old + v) /\ forall y, same_orbit n M syms (hd 0 old + v) y -> y = hd 0 old + v) ->
     forall i j, i < n -> j < n -> M i j < hd 0 old + p -> M' i j = M i j) /\
  (forall i j, i < n -> j < n -> hd 0 old <= M' i j < hd 0 old + length repr) /\
  (forall v, hd 0 old <= v < hd 0 old + length repr -> exists i j, i < n /\ j < n /\ M' i j = v) /\
  (forall i j, i < n -> j < n -> exists a b, a < n /\ b < n /\ In (M a b) repr /\ M' a b = M' i j).
Proof.
  intros NE.
  destruct (sim_loop syms (incl_refl _) _ _ _ [] sim_init (AI_init K acts E_sym')) as (s & R & T & done & EL & S & I & In1 & _ & PRE).
  rewrite (apply_nonempty n M syms NE). clear NE.
  rewrite EL. cbv zeta. fold flat. fold old. set (m := hd 0 old).
  destruct (AI_final K acts act_range E_sym' E_trans' done R T I In1) as [F1 F2].
  assert (NEW : forall c, c < length R -> nth c (if m =? 0 then o_new_indices s else map (fun x => x + m) (o_new_indices s)) 0 = m + c).
  { intros c Hc. rewrite (sim_new _ _ _ S). destruct (Nat.eqb_spec m 0) as [->|_].
    - rewrite seq_nth by exact Hc. reflexivity.
    - rewrite (nth_indep _ 0 ((fun x => x + m) 0)) by (rewrite map_length, seq_length; exact Hc). rewrite (map_nth (fun x => x + m)), seq_nth by exact Hc. lia. }
  set (new := if m =? 0 then _ else _) in *.
  assert (MV : forall i j, i < n -> j < n -> nth (V i j) T 0 < length R /\ nth (o_inverse s i j) new 0 = m + nth (V i j) T 0).
  { intros i j Hi Hj. destruct (V_spec i j Hi Hj) as [A _]. pose proof (ai_T _ _ _ _ _ I _ A) as B. split; [exact B|].
    rewrite (sim_inv _ _ _ S) by assumption. apply NEW, B. }
  eexists _, _, _. split; [reflexivity|].
  assert (NDR : NoDup R).
  { apply (NoDup_nth R 0). intros c d Hc Hd Q. destruct (ai_R _ _ _ _ _ I c Hc) as [_ A]. destruct (ai_R _ _ _ _ _ I d Hd) as [_ B]. congruence. }
  split; [|split; [|split; [|split; [|split; [|split; [|split; [|split]]]]]]]; cbv beta.
  - intros i j i' j' Hi Hj Hi' Hj'. destruct (MV i j Hi Hj) as [A1 A2]. destruct (MV i' j' Hi' Hj') as [B1 B2]. rewrite A2, B2.
    rewrite <- E_same_orbit by assumption. rewrite <- F1 by (apply V_spec; assumption). lia.
  - intros i j Hi Hj. destruct (V_spec i j Hi Hj) as [A1 A2]. rewrite <- A2, assoc_combine_nth.
    + f_equal. destruct (MV i j Hi Hj) as [B1 B2]. rewrite B2, (sim_trk _ _ _ S).
      rewrite (nth_indep _ 0 ((fun t => nth t new 0) 0)) by (rewrite map_length, (ai_len _ _ _ _ _ I); exact A1).
      rewrite (map_nth (fun t => nth t new 0)). apply NEW, B1.
    + apply uv_NoDup.
    + rewrite map_length, (sim_trk _ _ _ S). apply (ai_len _ _ _ _ _ I).
    + exact A1.
  - assert (G : forall (a b : list nat), length a = length b -> map fst (combine a b) = a).
    { induction a as [|x a IH]; intros [|y b] L; try discriminate; [reflexivity|]. cbn. f_equal. apply IH. cbn in L; lia. }
    apply G. rewrite map_length, (sim_trk _ _ _ S), (ai_len _ _ _ _ _ I). reflexivity.
  - rewrite (sim_repr _ _ _ S). apply (NoDup_nth _ 0). rewrite map_length. intros c d Hc Hd Q.
    set (f := fun r => nth r old 0) in *. rewrite !(nth_indep (map f R) 0 (f 0)) in Q by (rewrite map_length; assumption). rewrite !map_nth in Q. unfold f in Q.
    apply (proj1 (NoDup_nth R 0) NDR); auto. apply (proj1 (NoDup_nth old 0) (uv_NoDup flat)); auto; apply (ai_R _ _ _ _ _ I); assumption.
  - intros x. rewrite (sim_repr _ _ _ S), in_map_iff.
    assert (OM : forall k, k < K -> (omin K acts k <-> forall y, same_orbit n M syms (nth k old 0) y -> nth k old 0 <= y)).
    { intros k Hk. destruct (K_pos k Hk) as (i & j & Hi & Hj & Q). destruct (V_spec i j Hi Hj) as [_ A]. rewrite Q in A. split.
      - intros [_ O] y SO. assert (SO' := SO). destruct SO as (g & a & b & Hg & Ha & Hb & Q1 & Q2).
        assert (Ra := perm_range g a Hg Ha). assert (Rb := perm_range g b Hg Hb).
        rewrite A in SO'. rewrite <- Q2 in SO'. apply E_same_orbit in SO'; auto. rewrite Q in SO'.
        destruct (V_spec _ _ Ra Rb) as [B1 B2]. specialize (O _ B1 SO'). rewrite <- Q2, <- B2. apply (uv_mono flat); auto.
      - intros O. split; [exact Hk|]. intros y Hy He. destruct (K_pos y Hy) as (i' & j' & Hi' & Hj' & Q'). destruct (V_spec i' j' Hi' Hj') as [_ A'].
        rewrite Q' in A'. rewrite <- Q, <- Q' in He. apply E_same_orbit in He; auto. rewrite <- A, <- A' in He. specialize (O _ He).
        apply (uv_mono flat); auto. }
    split.
    + intros (r & <- & Hr). apply (In_nth _ _ 0) in Hr as (c & Hc & <-). destruct (ai_R _ _ _ _ _ I c Hc) as [A1 A2].
      split; [destruct (K_pos _ A1) as (i & j & Hi & Hj & Q); exists i, j; destruct (V_spec i j Hi Hj) as [_ B]; rewrite Q in B; auto|].
      apply OM; [exact A1|]. destruct (F2 _ A1) as [O _]. rewrite A2 in O. exact O.
    + intros [(i & j & Hi & Hj & Q) H]. destruct (V_spec i j Hi Hj) as [A1 A2]. exists (V i j). split; [congruence|].
      assert (O : omin K acts (V i j)) by (apply OM; [exact A1|]; rewrite A2, Q; exact H).
      destruct (ai_min _ _ _ _ _ I _ _ A1 O (or_introl eq_refl)) as [_ RM]. rewrite <- RM. apply nth_In, (ai_T _ _ _ _ _ I), A1.
  - intros p HP i j Hi Hj HM. destruct (MV i j Hi Hj) as [A1 A2]. rewrite A2. destruct (V_spec i j Hi Hj) as [B1 B2].
    (* the first p values of old are m, m+1, .. *)
    assert (OLD : forall v, v < p -> v < K /\ nth v old 0 = m + v).
    { assert (SSo := uv_SS flat). fold old in SSo.
      assert (G : forall (l : list nat) v, StronglySorted lt l -> l <> [] -> (forall w, w <= v -> In (hd 0 l + w) l) -> v < length l /\ nth v l 0 = hd 0 l + v).
      { clear. induction l as [|x l IH]; intros v S NE H; [congruence|]. destruct v as [|v]; [cbn; lia|]. inversion S as [|? ? S' F]; subst. rewrite Forall_forall in F.
        cbn [hd] in *. destruct l as [|y l].
        - destruct (H 1 ltac:(lia)) as [Q|[]]. lia.
        - assert (y = Datatypes.S x).
          { destruct (H 1 ltac:(lia)) as [Q|[Q|Q]]; [lia|lia|]. inversion S' as [|? ? _ F']; subst. rewrite Forall_forall in F'. specialize (F' _ Q). specialize (F y (or_introl eq_refl)). lia. }
          subst y. destruct (IH v S') as [P1 P2]; [discriminate| |].
          + intros w Hw. cbn [hd]. destruct (H (Datatypes.S w) ltac:(lia)) as [Q|Q]; [lia|]. replace (Datatypes.S x + w) with (x + Datatypes.S w) by lia. exact Q.
          + cbn [length nth] in *. cbn [hd] in P2. split; [lia|]. rewrite P2. lia. }
      intros v Hv. apply G; [exact SSo| |].
      - intros Q. unfold K in B1. rewrite Q in B1. cbn in B1. lia.
      - intros w Hw. destruct (HP w ltac:(lia)) as [(i0 & j0 & H1 & H2 & H3) _]. fold m in H3. fold m. rewrite <- H3. apply uv_in. unfold flat.
        rewrite <- (ravel_nth n M i0 j0) by assumption. apply nth_In. apply flat_idx; assumption. }
    assert (FIX : forall k a, k < p -> In a acts -> a k = k).
    { intros k a Hk Ha. destruct (OLD k Hk) as [K1 K2]. apply in_map_iff in Ha as (g & <- & Hg). destruct (pos_spec k K1) as (P1 & P2 & P3 & P4).
      unfold act. rewrite <- P3 at 3. apply V_inj; auto using perm_range. rewrite P4, K2. destruct (HP k Hk) as [_ HF]. apply HF.
      exists g, (fst (pos k)), (snd (pos k)). repeat split; auto. rewrite P4. exact K2. }
    assert (pK : p <= K).
    { destruct (Nat.eq_dec p 0) as [->|Hp]; [lia|]. destruct (OLD (p - 1) ltac:(lia)) as [X _]. lia. }
    assert (PT : pre p T).
    { apply PRE; auto. intros k Hk. rewrite seq_nth by lia. reflexivity. }
    assert (Hm : m <= M i j).
    { rewrite <- B2. replace m with (nth 0 old 0) by (unfold m; destruct old; reflexivity). apply (uv_mono flat); [fold old; fold K; lia|exact B1|lia]. }
    set (v := M i j - m). assert (Hv : v < p) by (unfold v, m in *; lia). destruct (OLD v Hv) as [O1 O2].
    assert (V i j = v) as -> by (apply (proj1 (NoDup_nth old 0) (uv_NoDup flat)); auto; rewrite B2, O2; unfold v; lia).
    rewrite (PT v Hv). unfold v. lia.
  - intros i j Hi Hj. destruct (MV i j Hi Hj) as [A1 A2]. rewrite A2, (sim_repr _ _ _ S), map_length. lia.
  - rewrite (sim_repr _ _ _ S), map_length. intros v Hv. set (c := v - m). assert (Hc : c < length R) by (unfold c; fold m in Hv; lia).
    destruct (ai_R _ _ _ _ _ I c Hc) as [C1 C2]. destruct (K_pos _ C1) as (i & j & Hi & Hj & Q). exists i, j. repeat split; auto.
    destruct (MV i j Hi Hj) as [A1 A2]. rewrite A2, Q, C2. unfold c. fold m in Hv. lia.
  - intros i j Hi Hj. destruct (MV i j Hi Hj) as [A1 A2]. set (c := nth (V i j) T 0) in *.
    destruct (ai_R _ _ _ _ _ I c A1) as [C1 C2]. destruct (K_pos _ C1) as (a & b & Ha & Hb & Q). exists a, b.
    split; [exact Ha|]. split; [exact Hb|]. destruct (V_spec a b Ha Hb) as [B1 B2]. destruct (MV a b Ha Hb) as [D1 D2].
    split; [|rewrite A2, D2, Q, C2; reflexivity].
    rewrite (sim_repr _ _ _ S), <- B2, Q. apply in_map_iff. exists (nth c R 0). split; [reflexivity|apply nth_In, A1].
Qed.
End Conc.
