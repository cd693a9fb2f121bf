From Coq Require Import Permutation Relation_Operators.
From Verif Require Import ScenarioModel ScenarioSpec SymModel SymSpec FactorModel FactorSpec ScenarioProofs SymProofs UniqueProofs.

(** ** breadth-first search *)
Lemma fold_right_max_le l c : fold_right Nat.max 0 l <= c <-> forall x, In x l -> x <= c.
Proof.
  induction l as [|y l IH]; cbn; [split; [intros _ x []|lia]|]. rewrite Nat.max_lub_iff, IH. split.
  - intros [H1 H2] x [<-|H]; auto.
  - intros H. split; auto.
Qed.

Section BFS.
Variables (n : nat) (adj : nat -> nat -> bool).
Hypothesis adj_sym : forall i j, adj i j = adj j i.
Definition edge (i j : nat) : Prop := i < n /\ j < n /\ adj i j = true.
Definition conn : nat -> nat -> Prop := clos_refl_trans nat edge.
Lemma conn_sym i j : conn i j -> conn j i.
Proof.
  induction 1 as [x y (H1 & H2 & H3)|x|x y z _ IH1 _ IH2].
  - apply rt_step. repeat split; auto. rewrite adj_sym. exact H3.
  - apply rt_refl.
  - eapply rt_trans; eassumption.
Qed.
Lemma conn_trans i j k : conn i j -> conn j k -> conn i k.
Proof. intros; eapply rt_trans; eassumption. Qed.

Definition cnt (s : list bool) : nat := length (filter (fun b => b) s).
Lemma cnt_le s : cnt s <= length s.
Proof. unfold cnt. induction s as [|[] s IH]; cbn; lia. Qed.
Lemma cnt_mono : forall s t, length s = length t -> (forall k, bget s k = true -> bget t k = true) -> cnt s <= cnt t.
Proof.
  induction s as [|b s IH]; intros [|c t] L H; try discriminate; [reflexivity|]. cbn in L.
  assert (H' : forall k, bget s k = true -> bget t k = true) by (intros k; apply (H (S k))).
  specialize (IH t ltac:(lia) H'). specialize (H 0). cbn in H. unfold cnt in *.
  destruct b; cbn; [rewrite H by reflexivity; cbn; lia|]. destruct c; cbn; lia.
Qed.
Lemma cnt_strict : forall s t k, length s = length t -> (forall k, bget s k = true -> bget t k = true) ->
  bget s k = false -> bget t k = true -> cnt s < cnt t.
Proof.
  induction s as [|b s IH]; intros [|c t] k L H Hs Ht; try discriminate; [destruct k; discriminate|]. cbn in L.
  assert (H' : forall k, bget s k = true -> bget t k = true) by (intros k'; apply (H (S k'))).
  destruct k as [|k]; cbn in Hs, Ht.
  - subst. pose proof (cnt_mono s t ltac:(lia) H'). unfold cnt in *. cbn. lia.
  - specialize (IH t k ltac:(lia) H' Hs Ht). specialize (H 0). cbn in H. unfold cnt in *.
    destruct b; cbn; [rewrite H by reflexivity; cbn; lia|]. destruct c; cbn; lia.
Qed.

Lemma bget_map f k : bget (map f (seq 0 n)) k = if k <? n then f k else false.
Proof.
  unfold bget. destruct (Nat.ltb_spec k n) as [H|H].
  - rewrite nth_indep with (d' := f 0) by (rewrite map_length, seq_length; exact H). rewrite map_nth, seq_nth by exact H. reflexivity.
  - apply nth_overflow. rewrite map_length, seq_length. exact H.
Qed.
Lemma bget_range s k : length s = n -> bget s k = true -> k < n.
Proof. intros L H. destruct (Nat.lt_ge_cases k n) as [Hl|Hl]; [exact Hl|]. unfold bget in H. rewrite nth_overflow in H by lia. discriminate. Qed.
Lemma existsb_combine s k : length s = n ->
  existsb (fun q : bool * nat => if fst q then adj (snd q) k else false) (combine s (seq 0 n)) = existsb (fun j => bget s j && adj j k) (seq 0 n).
Proof.
  intros <-. rewrite <- (Nat.add_0_r 0) at 1.
  assert (G : forall l pre, existsb (fun q : bool * nat => if fst q then adj (snd q) k else false) (combine l (seq (length pre) (length l)))
     = existsb (fun j => bget (pre ++ l) j && adj j k) (seq (length pre) (length l))).
  { induction l as [|b l IH]; intros pre; [reflexivity|]. cbn [length seq combine existsb fst snd].
    replace (bget (pre ++ b :: l) (length pre)) with b by (unfold bget; rewrite app_nth2, Nat.sub_diag; [reflexivity|lia]).
    f_equal. specialize (IH (pre ++ [b])). rewrite app_length in IH. cbn [length] in IH. rewrite Nat.add_1_r in IH.
    rewrite IH, <- app_assoc. reflexivity. }
  apply (G s []).
Qed.
Lemma any_false s : any s = false -> forall k, bget s k = false.
Proof. intros H k. destruct (bget s k) eqn:E; [|reflexivity]. assert (any s = true); [|congruence]. apply existsb_id. exists k. exact E. Qed.
Lemma any_true s : any s = true -> exists k, bget s k = true.
Proof. intros H. apply existsb_id in H. exact H. Qed.

Lemma bfs_spec i : forall fuel new search,
  length new = n -> length search = n ->
  (forall x, bget search x = true -> bget new x = true) ->
  (forall x, bget new x = true -> conn i x) ->
  (forall x k, bget new x = true -> bget search x = false -> k < n -> adj x k = true -> bget new k = true) ->
  n < cnt new + fuel ->
  exists comp, bfs n adj fuel new search = Some comp /\ length comp = n /\
    (forall x, bget new x = true -> bget comp x = true) /\
    (forall x, bget comp x = true -> conn i x) /\
    (forall x k, bget comp x = true -> k < n -> adj x k = true -> bget comp k = true).
Proof.
  induction fuel as [|fuel IH]; intros new search L1 L2 H1 H2 H3 HF.
  - pose proof (cnt_le new). lia.
  - cbn [bfs]. destruct (any search) eqn:EA; cbn [negb].
    2:{ exists new. repeat split; auto. intros x k Hx Hk Ha. eapply H3; eauto. apply any_false, EA. }
    set (new' := map (fun k => bget new k || existsb (fun q : bool * nat => if fst q then adj (snd q) k else false) (combine search (seq 0 n))) (seq 0 n)).
    set (search' := map (fun k => xorb (bget new' k) (bget new k)) (seq 0 n)).
    assert (N' : forall k, bget new' k = true <-> bget new k = true \/ (k < n /\ exists j, bget search j = true /\ adj j k = true)).
    { intros k. unfold new'. rewrite bget_map. destruct (Nat.ltb_spec k n) as [Hk|Hk].
      - rewrite (existsb_combine search _ L2), orb_true_iff, existsb_exists. split.
        + intros [H|(j & _ & H)]; [auto|]. apply andb_true_iff in H. right. split; [exact Hk|]. exists j. exact H.
        + intros [H|(_ & j & Hj & Ha)]; [auto|]. right. exists j. split; [apply in_seq; pose proof (bget_range _ _ L2 Hj); lia|].
          rewrite Hj, Ha. reflexivity.
      - split; [discriminate|]. intros [H|[H _]]; [|lia]. apply (bget_range _ _ L1) in H. lia. }
    assert (S' : forall k, bget search' k = true <-> bget new' k = true /\ bget new k = false).
    { intros k. unfold search'. rewrite bget_map. destruct (Nat.ltb_spec k n) as [Hk|Hk].
      - assert (Hm : bget new k = true -> bget new' k = true) by (intros Hb; apply N'; auto).
        destruct (bget new' k), (bget new k); cbn; split; try discriminate; try (intros [? ?]; discriminate); auto.
        intros _. specialize (Hm eq_refl). discriminate.
      - split; [discriminate|]. intros [H _]. apply bget_range in H; [lia|]. unfold new'. rewrite map_length, seq_length. reflexivity. }
    assert (L1' : length new' = n) by (unfold new'; rewrite map_length, seq_length; reflexivity).
    assert (L2' : length search' = n) by (unfold search'; rewrite map_length, seq_length; reflexivity).
    assert (M : forall x, bget new x = true -> bget new' x = true) by (intros x Hx; apply N'; auto).
    assert (C' : forall x, bget new' x = true -> conn i x).
    { intros x Hx. apply N' in Hx as [Hx|(Hk & j & Hj & Ha)]; [auto|].
      eapply rt_trans; [apply H2, H1, Hj|]. apply rt_step. repeat split; auto. apply (bget_range _ _ L2 Hj). }
    assert (K' : forall x k, bget new' x = true -> bget search' x = false -> k < n -> adj x k = true -> bget new' k = true).
    { intros x k Hx Hs Hk Ha. destruct (bget new x) eqn:En.
      - destruct (bget search x) eqn:Es; [apply N'; right; eauto|]. apply M. eapply H3; eauto.
      - assert (bget search' x = true) by (apply S'; auto). congruence. }
    destruct (any search') eqn:EA'.
    + destruct (IH new' search') as (comp & E & Lc & A1 & A2 & A3); auto.
      * intros x Hx. apply S' in Hx. apply Hx.
      * apply any_true in EA' as [k Hk]. apply S' in Hk as [Hk1 Hk2].
        pose proof (cnt_strict new new' k ltac:(lia) M Hk2 Hk1). lia.
      * exists comp. repeat split; auto.
    + assert (E : bfs n adj fuel new' search' = Some new') by (destruct fuel; cbn [bfs]; rewrite EA'; reflexivity).
      exists new'. repeat split; auto. intros x k Hx Hk Ha. eapply K'; eauto. apply any_false, EA'.
Qed.

Lemma bfs_correct i : i < n -> exists comp, bfs n adj (n + 1) (singleton n i) (singleton n i) = Some comp /\
  length comp = n /\ forall x, bget comp x = true <-> conn i x /\ x < n.
Proof.
  intros Hi.
  assert (S : forall k, bget (singleton n i) k = true <-> k = i).
  { intros k. unfold singleton. rewrite bget_map. destruct (Nat.ltb_spec k n); [apply Nat.eqb_eq|]. split; [discriminate|lia]. }
  assert (L : length (singleton n i) = n) by (unfold singleton; rewrite map_length, seq_length; reflexivity).
  destruct (bfs_spec i (n + 1) (singleton n i) (singleton n i)) as (comp & E & Lc & A1 & A2 & A3); auto.
  - intros x Hx. apply S in Hx as ->. apply rt_refl.
  - intros x k Hx Hx'. congruence.
  - lia.
  - exists comp. split; [exact E|]. split; [exact Lc|]. intros x. split.
    + intros Hx. split; [apply A2, Hx|apply (bget_range _ _ Lc Hx)].
    + intros [Hc Hx]. assert (G : forall a b, conn a b -> bget comp a = true -> bget comp b = true).
      { induction 1 as [a b (B1 & B2 & B3)|a|a b c _ IH1 _ IH2]; auto. intros Ha. eapply A3; eauto. }
      apply (G i x Hc), A1, S. reflexivity.
Qed.

(** ** labels *)
Definition lab_inv (m : nat) (labels : list nat) (c : nat) : Prop :=
  length labels = n /\ c <= m /\
  (forall j, j < n -> nth j labels 0 <= c) /\
  (forall j, j < n -> (nth j labels 0 <> 0 <-> exists i, i < m /\ conn i j)) /\
  (forall j k, j < n -> k < n -> nth j labels 0 <> 0 -> nth k labels 0 <> 0 -> (nth j labels 0 = nth k labels 0 <-> conn j k)) /\
  (forall l, 1 <= l <= c -> exists j, j < n /\ nth j labels 0 = l).

Lemma nth_map_seq {A} (f : nat -> A) k d : k < n -> nth k (map f (seq 0 n)) d = f k.
Proof. intros H. rewrite nth_indep with (d' := f 0) by (rewrite map_length, seq_length; exact H). rewrite map_nth, seq_nth by exact H. reflexivity. Qed.

Hypothesis n_small : n <= 255.

Lemma label_step_inv m labels c : m < n -> lab_inv m labels c ->
  exists labels' c', label_step n adj (Some (labels, c + 1)) m = Some (labels', c' + 1) /\ lab_inv (S m) labels' c'.
Proof.
  intros Hm (L & Cm & I1 & I2 & I3 & I4). unfold label_step. destruct (Nat.eqb_spec (nth m labels 0) 0) as [E0|E0].
  - destruct (bfs_correct m Hm) as (comp & Eb & Lc & HC). rewrite Eb.
    eexists _, (c + 1). split; [reflexivity|].
    assert (Hmod : (c + 1) mod 256 = c + 1) by (apply Nat.mod_small; lia).
    assert (E : forall j, j < n -> nth j (map (fun k => if bget comp k then (c + 1) mod 256 else nth k labels 0) (seq 0 n)) 0
       = if bget comp j then c + 1 else nth j labels 0).
    { intros j Hj. rewrite nth_map_seq by exact Hj. rewrite Hmod. reflexivity. }
    assert (Fresh : forall j, j < n -> bget comp j = true -> nth j labels 0 = 0).
    { intros j Hj Hc. apply HC in Hc as [Hc _]. destruct (Nat.eq_dec (nth j labels 0) 0) as [Z|Z]; [exact Z|].
      exfalso. apply (I2 j Hj) in Z as (i & Hi & Hij). assert (Q : nth m labels 0 <> 0); [|congruence].
      apply I2; [exact Hm|]. exists i. split; [exact Hi|]. eapply conn_trans; [exact Hij|apply conn_sym, Hc]. }
    split; [rewrite map_length, seq_length; reflexivity|]. split; [lia|]. split; [|split; [|split]].
    + intros j Hj. rewrite E by exact Hj. destruct (bget comp j); [lia|]. specialize (I1 j Hj). lia.
    + intros j Hj. rewrite E by exact Hj. destruct (bget comp j) eqn:Ej.
      * split; [|lia]. intros _. exists m. split; [lia|]. apply HC in Ej. apply Ej.
      * rewrite (I2 j Hj). split; intros (i & Hi & Hij); [exists i; split; [lia|exact Hij]|].
        destruct (Nat.eq_dec i m) as [->|]; [|exists i; split; [lia|exact Hij]].
        exfalso. assert (bget comp j = true) by (apply HC; auto). congruence.
    + intros j k Hj Hk. rewrite !E by assumption. destruct (bget comp j) eqn:Ej, (bget comp k) eqn:Ek.
      * intros _ _. split; [|reflexivity]. intros _. apply HC in Ej as [Ej _]. apply HC in Ek as [Ek _].
        eapply conn_trans; [apply conn_sym, Ej|exact Ek].
      * intros _ Hn. pose proof (I1 k Hk). split; [lia|]. intros Hjk. exfalso.
        assert (bget comp k = true); [|congruence]. apply HC. split; [|exact Hk]. apply HC in Ej as [Ej _]. eapply conn_trans; eassumption.
      * intros Hn _. pose proof (I1 j Hj). split; [lia|]. intros Hjk. exfalso.
        assert (bget comp j = true); [|congruence]. apply HC. split; [|exact Hj]. apply HC in Ek as [Ek _].
        eapply conn_trans; [exact Ek|apply conn_sym, Hjk].
      * apply I3; assumption.
    + intros l Hl. destruct (Nat.eq_dec l (c + 1)) as [->|Hne].
      * exists m. split; [exact Hm|]. rewrite E by exact Hm. replace (bget comp m) with true; [reflexivity|].
        symmetry. apply HC. split; [apply rt_refl|exact Hm].
      * destruct (I4 l ltac:(lia)) as (j & Hj & El). exists j. split; [exact Hj|]. rewrite E by exact Hj.
        destruct (bget comp j) eqn:Ej; [|exact El]. rewrite (Fresh j Hj Ej) in El. lia.
  - exists labels, c. split; [reflexivity|]. split; [exact L|]. split; [lia|]. split; [exact I1|]. split; [|split; assumption].
    intros j Hj. rewrite (I2 j Hj). split; intros (i & Hi & Hij); [exists i; split; [lia|exact Hij]|].
    destruct (Nat.eq_dec i m) as [->|]; [|exists i; split; [lia|exact Hij]].
    apply (I2 m Hm) in E0 as (i & Hi' & Him). exists i. split; [exact Hi'|]. eapply conn_trans; eassumption.
Qed.

Lemma label_loop m : m <= n -> exists labels c,
  fold_left (label_step n adj) (seq 0 m) (Some (repeat 0 n, 1)) = Some (labels, c + 1) /\ lab_inv m labels c.
Proof.
  induction m as [|m IH]; intros Hm.
  - exists (repeat 0 n), 0. split; [reflexivity|]. split; [apply repeat_length|]. split; [lia|].
    assert (Z : forall j, nth j (repeat 0 n) 0 = 0) by (intros; apply nth_repeat).
    split; [intros; rewrite Z; lia|]. split; [|split; [|lia]].
    + intros j Hj. rewrite Z. split; [congruence|]. intros (i & Hi & _). lia.
    + intros j k Hj Hk. rewrite Z. congruence.
  - destruct IH as (labels & c & E & I); [lia|]. rewrite seq_S, fold_left_app, E. cbn [Nat.add fold_left].
    apply label_step_inv; [lia|exact I].
Qed.

Theorem classify_correct : exists labels, nb_classify_disconnected_components n adj = Some labels /\ length labels = n /\
  (forall j k, j < n -> k < n -> (nth j labels 0 = nth k labels 0 <-> conn j k)) /\
  (0 < n -> forall l, l <= fold_right Nat.max 0 labels -> exists j, j < n /\ nth j labels 0 = l).
Proof.
  unfold nb_classify_disconnected_components.
  assert (Zmax : forall m, fold_right Nat.max 0 (repeat 0 m) = 0) by (induction m; cbn; auto).
  destruct ((n <=? 1) || forallb (fun i => forallb (adj i) (seq 0 n)) (seq 0 n)) eqn:ES.
  - exists (repeat 0 n). split; [reflexivity|]. split; [apply repeat_length|].
    assert (Z : forall j, nth j (repeat 0 n) 0 = 0) by (intros; apply nth_repeat). split.
    + intros j k Hj Hk. rewrite !Z. split; [|reflexivity]. intros _. apply orb_true_iff in ES as [E|E].
      * apply Nat.leb_le in E. assert (j = k) as -> by lia. apply rt_refl.
      * apply rt_step. repeat split; auto. rewrite forallb_forall in E. specialize (E j ltac:(apply in_seq; lia)).
        rewrite forallb_forall in E. apply E, in_seq. lia.
    + intros Hn l Hl. rewrite Zmax in Hl. exists 0. split; [exact Hn|]. rewrite Z. lia.
  - destruct (label_loop n (le_n n)) as (labels & c & E & (L & Cn & I1 & I2 & I3 & I4)). rewrite E.
    eexists. split; [reflexivity|]. split; [rewrite map_length; exact L|].
    assert (NZ : forall j, j < n -> 1 <= nth j labels 0 <= c).
    { intros j Hj. split; [|apply I1, Hj]. assert (nth j labels 0 <> 0); [|lia]. apply I2; [exact Hj|]. exists j. split; [exact Hj|apply rt_refl]. }
    assert (EQ : forall j, j < n -> nth j (map (fun l => (l + 255) mod 256) labels) 0 = nth j labels 0 - 1).
    { intros j Hj. rewrite nth_indep with (d' := (0 + 255) mod 256) by (rewrite map_length; lia).
      rewrite (map_nth (fun l => (l + 255) mod 256)). specialize (NZ j Hj).
      replace (nth j labels 0 + 255) with (nth j labels 0 - 1 + 1 * 256) by lia. rewrite Nat.mod_add by lia. apply Nat.mod_small. lia. }
    split.
    + intros j k Hj Hk. rewrite !EQ by assumption. pose proof (NZ j Hj). pose proof (NZ k Hk).
      rewrite <- I3 by lia. lia.
    + intros Hn l Hl.
      assert (Hmax : fold_right Nat.max 0 (map (fun l => (l + 255) mod 256) labels) <= c - 1).
      { apply (proj2 (fold_right_max_le _ _)). intros x Hx. apply In_nth with (d := 0) in Hx as (j & Hj & <-).
        rewrite map_length, L in Hj. rewrite EQ by exact Hj. pose proof (NZ j Hj). lia. }
      assert (1 <= c) by (pose proof (NZ 0 Hn); lia).
      destruct (I4 (l + 1) ltac:(lia)) as (j & Hj & Ej). exists j. split; [exact Hj|]. rewrite EQ by exact Hj. lia.
Qed.
End BFS.

(** ** factorisation *)
Lemma row_eqb_true a b : row_eqb a b = true <-> a = b.
Proof. destruct (row_eqb_spec a b); split; congruence. Qed.

Lemma select_piece lab mon q : length lab = length mon -> select lab q mon = piece mon lab q.
Proof.
  unfold select, piece. revert lab. induction mon as [|x mon IH]; intros [|y lab] L; try discriminate; [reflexivity|].
  cbn [combine filter fst length seq]. change (nth 0 (y :: lab) 0) with y. cbn in L. specialize (IH lab ltac:(lia)).
  assert (S : map (fun i => nth i (x :: mon) 0) (filter (fun i => nth i (y :: lab) 0 =? q) (seq 1 (length mon)))
     = map (fun i => nth i mon 0) (filter (fun i => nth i lab 0 =? q) (seq 0 (length mon)))).
  { rewrite <- seq_shift. clear. induction (seq 0 (length mon)) as [|k l IH]; [reflexivity|].
    cbn [map filter]. change (nth (S k) (y :: lab) 0) with (nth k lab 0). destruct (nth k lab 0 =? q); cbn [map]; rewrite IH; reflexivity. }
  destruct (y =? q); cbn [map snd]; rewrite S, IH; reflexivity.
Qed.

Section Fact.
Variables (sc : scenario) (W : wf_scenario sc) (mon : list nat).
Hypothesis valid : forall k, In k mon -> k < length (lexorder sc).
Let cp k := row_copies (nth k (lexorder sc) []).

Lemma op_valid k : k < length (lexorder sc) -> exists p s o, nth k (lexorder sc) [] = mkrow (p + 1) (cp k) s o /\ valid_operator sc p (cp k) s o.
Proof.
  intros Hk. destruct (lexorder_parts sc k W Hk) as (p & c & s & o & E & V).
  assert (En : nth k (lexorder sc) [] = mkrow (p + 1) c s o) by (apply nth_error_nth, E).
  assert (Ec : cp k = c) by (unfold cp; rewrite En; apply mkrow_copies). rewrite Ec. exists p, s, o. auto.
Qed.
Lemma cp_in k : k < length (lexorder sc) -> In (cp k) (all_unique_inflation_indices sc).
Proof.
  intros Hk. destruct (op_valid k Hk) as (p & s & o & _ & V). unfold all_unique_inflation_indices.
  apply (np_unique_in lex_compare lex_good_cmp), in_flat_map. exists p. split; [apply in_seq; destruct V; lia|].
  apply inflation_indices_in; [exact W|]. destruct V as (_ & V1 & V2 & _). auto.
Qed.
Lemma lff_nth k : k < length (lexorder sc) -> nth (lexorder_for_factorization sc k) (all_unique_inflation_indices sc) [] = cp k.
Proof. intros Hk. apply (index_of_in row_eqb row_eqb_true), cp_in, Hk. Qed.
Lemma lff_inj k k' : k < length (lexorder sc) -> k' < length (lexorder sc) ->
  (lexorder_for_factorization sc k = lexorder_for_factorization sc k' <-> cp k = cp k').
Proof.
  intros H H'. split; intros E.
  - rewrite <- (lff_nth k H), <- (lff_nth k' H'), E. reflexivity.
  - unfold lexorder_for_factorization. unfold cp in E. rewrite E. reflexivity.
Qed.
Lemma cp_self k : k < length (lexorder sc) -> share_copy (cp k) (cp k).
Proof.
  intros Hk. destruct (op_valid k Hk) as (p & s & o & _ & V). destruct V as (V1 & V2 & V3 & _).
  destruct (wf_sourced sc W p V1) as (src & Hs & Hr). apply In_nth_error in Hs as [j Hj].
  exists j. split; [|reflexivity]. destruct (V3 j src Hj) as [V _]. specialize (V Hr). lia.
Qed.
Lemma cp_len k : k < length (lexorder sc) -> length (cp k) = nr_sources sc.
Proof. intros Hk. destruct (op_valid k Hk) as (p & s & o & _ & V). apply V. Qed.

Lemma share_sym c c' : share_copy c c' -> share_copy c' c.
Proof. intros (k & H1 & H2). exists k. split; congruence. Qed.

Let positions := map (lexorder_for_factorization sc) mon.
Let U := np_unique Nat.compare positions.
Let adj := fun i j => nb_overlap_matrix (all_unique_inflation_indices sc) (nth i U 0) (nth j U 0).
Let key i := index_of Nat.eqb (lexorder_for_factorization sc (nth i mon 0)) U.

Lemma U_NoDup : NoDup U. Proof. apply np_unique_NoDup, nat_good_cmp. Qed.
Lemma U_in x : In x U <-> exists i, i < length mon /\ lexorder_for_factorization sc (nth i mon 0) = x.
Proof.
  unfold U. rewrite (np_unique_in _ nat_good_cmp). unfold positions. rewrite in_map_iff. split.
  - intros (k & E & Hk). apply In_nth with (d := 0) in Hk as (i & Hi & <-). eauto.
  - intros (i & Hi & E). exists (nth i mon 0). split; [exact E|apply nth_In, Hi].
Qed.
Lemma mon_valid i : i < length mon -> nth i mon 0 < length (lexorder sc).
Proof. intros H. apply valid, nth_In, H. Qed.
Lemma key_spec i : i < length mon -> key i < length U /\ nth (key i) U 0 = lexorder_for_factorization sc (nth i mon 0).
Proof. intros Hi. apply (index_of_in Nat.eqb Nat.eqb_eq), U_in. eauto. Qed.
Lemma key_surj a : a < length U -> exists i, i < length mon /\ key i = a.
Proof.
  intros Ha. destruct (proj1 (U_in (nth a U 0))) as (i & Hi & E); [apply nth_In, Ha|].
  exists i. split; [exact Hi|]. unfold key. rewrite E. apply (index_of_nth Nat.eqb Nat.eqb_eq); [apply U_NoDup|exact Ha].
Qed.
Lemma key_eq i j : i < length mon -> j < length mon -> (key i = key j <-> cp (nth i mon 0) = cp (nth j mon 0)).
Proof.
  intros Hi Hj. rewrite <- lff_inj by (apply mon_valid; assumption). split; intros E.
  - destruct (key_spec i Hi) as [_ K1]. destruct (key_spec j Hj) as [_ K2]. congruence.
  - unfold key. rewrite E. reflexivity.
Qed.
Lemma adj_sym' i j : adj i j = adj j i.
Proof. unfold adj, nb_overlap_matrix. rewrite (Nat.eqb_sym (nth i U 0)), Nat.max_comm, Nat.min_comm. reflexivity. Qed.
Lemma adj_key i j : i < length mon -> j < length mon ->
  (adj (key i) (key j) = true <-> share_copy (cp (nth i mon 0)) (cp (nth j mon 0))).
Proof.
  intros Hi Hj. unfold adj, nb_overlap_matrix. destruct (key_spec i Hi) as [_ ->]. destruct (key_spec j Hj) as [_ ->].
  pose proof (mon_valid i Hi) as Vi. pose proof (mon_valid j Hj) as Vj.
  destruct (Nat.eqb_spec (lexorder_for_factorization sc (nth i mon 0)) (lexorder_for_factorization sc (nth j mon 0))) as [E|E].
  - apply (lff_inj _ _ Vi Vj) in E. split; [|reflexivity]. intros _. rewrite <- E. apply cp_self, Vi.
  - cbn zeta. rewrite shared_source_spec.
    + destruct (Nat.max_dec (lexorder_for_factorization sc (nth i mon 0)) (lexorder_for_factorization sc (nth j mon 0))) as [M|M]; rewrite M.
      * replace (Nat.min _ _) with (lexorder_for_factorization sc (nth j mon 0)) by lia. rewrite !lff_nth by assumption. reflexivity.
      * replace (Nat.min _ _) with (lexorder_for_factorization sc (nth i mon 0)) by lia. rewrite !lff_nth by assumption.
        split; apply share_sym.
    + destruct (Nat.max_dec (lexorder_for_factorization sc (nth i mon 0)) (lexorder_for_factorization sc (nth j mon 0))) as [M|M]; rewrite M.
      * replace (Nat.min _ _) with (lexorder_for_factorization sc (nth j mon 0)) by lia. rewrite !lff_nth, !cp_len by assumption. reflexivity.
      * replace (Nat.min _ _) with (lexorder_for_factorization sc (nth i mon 0)) by lia. rewrite !lff_nth, !cp_len by assumption. reflexivity.
Qed.

Lemma conn_linked i j : i < length mon -> j < length mon -> (conn (length U) adj (key i) (key j) <-> linked sc mon i j).
Proof.
  intros Hi Hj. split.
  - assert (G : forall a b, conn (length U) adj a b -> a < length U -> b < length U /\
       forall x y, x < length mon -> y < length mon -> key x = a -> key y = b -> linked sc mon x y).
    { intros a b H. induction H as [a b (H1 & H2 & H3)|a|a b c H1 IH1 H2 IH2]; intros Ha.
      - split; [exact H2|]. intros x y Hx Hy <- <-. apply rst_step. repeat split; auto. apply adj_key; assumption.
      - split; [exact Ha|]. intros x y Hx Hy Ex Ey. apply rst_step. repeat split; auto. unfold copies_at. fold (cp (nth x mon 0)). fold (cp (nth y mon 0)).
        assert (E : cp (nth x mon 0) = cp (nth y mon 0)) by (apply key_eq; congruence). rewrite <- E. apply cp_self, mon_valid, Hx.
      - destruct (IH1 Ha) as [Hb G1]. destruct (IH2 Hb) as [Hc G2]. split; [exact Hc|]. intros x y Hx Hy Ex Ey.
        destruct (key_surj b Hb) as (z & Hz & Ez). eapply rst_trans; [apply (G1 x z); auto|apply (G2 z y); auto]. }
    intros H. apply (proj2 (G _ _ H (proj1 (key_spec i Hi)))); auto.
  - intros H. clear Hi Hj. induction H as [x y (H1 & H2 & H3)|x|x y _ IH|x y z _ IH1 _ IH2].
    + apply rt_step. repeat split; try apply key_spec; auto. apply adj_key; assumption.
    + apply rt_refl.
    + apply conn_sym; [exact adj_sym'|exact IH].
    + eapply rt_trans; eassumption.
Qed.

Lemma factorize_long_correct : distinct_copies sc mon <= 255 -> mon <> [] ->
  exists pieces lab, factorize_long sc mon = Some pieces /\ length lab = length mon /\
    pieces = map (piece mon lab) (seq 0 (length pieces)) /\
    (forall i, i < length mon -> nth i lab 0 < length pieces) /\
    (forall q, q < length pieces -> exists i, i < length mon /\ nth i lab 0 = q) /\
    (forall i j, i < length mon -> j < length mon -> (nth i lab 0 = nth j lab 0 <-> linked sc mon i j)).
Proof.
  intros HD Hne.
  assert (HU : length U <= 255).
  { etransitivity; [|exact HD]. unfold distinct_copies.
    rewrite <- (map_length (fun x => nth x (all_unique_inflation_indices sc) []) U).
    apply NoDup_incl_length.
    - assert (G : forall l, incl l U -> NoDup l -> NoDup (map (fun x => nth x (all_unique_inflation_indices sc) []) l)).
      { induction l as [|x l IH]; intros HI HN; cbn; [constructor|]. inversion HN; subst. constructor.
        - intros Hin. apply in_map_iff in Hin as (y & Ey & Hy).
          destruct (proj1 (U_in x)) as (i & Hi & <-); [apply HI; left; reflexivity|].
          destruct (proj1 (U_in y)) as (j & Hj & <-); [apply HI; right; exact Hy|].
          rewrite !lff_nth in Ey by (apply mon_valid; assumption).
          apply (lff_inj _ _ (mon_valid j Hj) (mon_valid i Hi)) in Ey. congruence.
        - apply IH; [intros z Hz; apply HI; right; exact Hz|assumption]. }
      apply G; [apply incl_refl|apply U_NoDup].
    - intros c Hc. apply in_map_iff in Hc as (x & <- & Hx). apply U_in in Hx as (i & Hi & <-).
      rewrite lff_nth by (apply mon_valid; assumption). apply nodup_In, in_map_iff. exists (nth i mon 0). split; [reflexivity|apply nth_In, Hi]. }
  assert (Upos : 0 < length U).
  { assert (H0 : 0 < length mon).
    { assert (length mon <> 0) by (intros Z; apply Hne, length_zero_iff_nil, Z). lia. }
    pose proof (key_spec 0 H0). lia. }
  destruct (classify_correct (length U) adj adj_sym' HU) as (labels & E & L & C1 & C2). specialize (C2 Upos).
  unfold factorize_long. fold positions. fold U. fold adj. rewrite E.
  set (lab := map (fun k => nth k labels 0) (map (fun x => index_of Nat.eqb x U) positions)).
  assert (Ll : length lab = length mon) by (unfold lab, positions; rewrite !map_length; reflexivity).
  assert (Nl : forall i, i < length mon -> nth i lab 0 = nth (key i) labels 0).
  { intros i Hi. unfold lab, positions. rewrite !map_map.
    rewrite nth_indep with (d' := (fun x => nth (index_of Nat.eqb (lexorder_for_factorization sc x) U) labels 0) 0) by (rewrite map_length; exact Hi).
    rewrite (map_nth (fun x => nth (index_of Nat.eqb (lexorder_for_factorization sc x) U) labels 0)). reflexivity. }
  eexists _, lab. split; [reflexivity|]. rewrite map_length, seq_length. split; [exact Ll|]. split; [|split; [|split]].
  - apply map_ext. intros q. apply select_piece, Ll.
  - intros i Hi. rewrite Nl by exact Hi. assert (nth (key i) labels 0 <= fold_right Nat.max 0 labels); [|lia].
    apply (proj1 (fold_right_max_le labels _) (le_n _)). apply nth_In. rewrite L. apply key_spec, Hi.
  - intros q Hq. destruct (C2 q ltac:(lia)) as (a & Ha & Ea). destruct (key_surj a Ha) as (i & Hi & Ei). exists i. split; [exact Hi|].
    rewrite Nl by exact Hi. congruence.
  - intros i j Hi Hj. rewrite !Nl by assumption. rewrite C1 by (apply key_spec; assumption). apply conn_linked; assumption.
Qed.

(** the shortcut *)
Lemma ever_false_share k k' : ever_factorizes sc = false -> k < length (lexorder sc) -> k' < length (lexorder sc) ->
  share_copy (cp k) (cp k').
Proof.
  intros EF Hk Hk'. destruct (op_valid k Hk) as (p & s & o & _ & V). destruct (op_valid k' Hk') as (p' & s' & o' & _ & V').
  assert (G : forall a b, a <= b -> b < nr_parties sc -> exists j, j < nr_sources sc /\ hypergraph sc j a = true /\ hypergraph sc j b = true /\ nth j (levels sc) 0 = 1).
  { intros a b Hab Hb. unfold ever_factorizes in EF.
    assert (Hin : In (a, b) (pairs_with_replacement (nr_parties sc))).
    { unfold pairs_with_replacement. apply in_flat_map. exists a. split; [apply in_seq; lia|]. apply in_map_iff. exists b. split; [reflexivity|apply in_seq; lia]. }
    rewrite <- not_true_iff_false, existsb_exists in EF.
    destruct (shared sc a b) as [|j sh] eqn:ES.
    - exfalso. apply EF. exists (a, b). split; [exact Hin|]. cbn [fst snd]. rewrite ES. reflexivity.
    - assert (Hj : In j (shared sc a b)) by (rewrite ES; left; reflexivity). unfold shared in Hj. apply filter_In in Hj as [Hj1 Hj2].
      apply in_seq in Hj1. apply andb_true_iff in Hj2 as [Hj2 Hj3]. exists j. repeat split; auto; [lia|].
      destruct (Nat.eqb_spec (nth j (levels sc) 0) 1) as [E1|E1]; [exact E1|]. exfalso. apply EF. exists (a, b). split; [exact Hin|].
      cbn [fst snd]. rewrite ES. cbn [length Nat.eqb negb orb forallb]. apply Nat.eqb_neq in E1. rewrite E1. reflexivity. }
  assert (G' : exists j, j < nr_sources sc /\ hypergraph sc j p = true /\ hypergraph sc j p' = true /\ nth j (levels sc) 0 = 1).
  { destruct (Nat.le_ge_cases p p') as [H|H].
    - apply G; [exact H|apply V'].
    - destruct (G p' p H ltac:(apply V)) as (j & A & B & C & D). exists j. auto. }
  destruct G' as (j & Hj & H1 & H2 & H3).
  destruct (nth_error (sources sc) j) as [src|] eqn:E; [|apply nth_error_None in E; unfold nr_sources in Hj; lia].
  apply (hypergraph_reaches sc j p src E) in H1. apply (hypergraph_reaches sc j p' src E) in H2.
  destruct V as (_ & _ & V & _). destruct V' as (_ & _ & V' & _). destruct (V j src E) as [V1 _]. destruct (V' j src E) as [V1' _].
  specialize (V1 H1). specialize (V1' H2). exists j. split; lia.
Qed.

Lemma select_zeros : forall l : list nat, select (map (fun _ => 0) l) 0 l = l.
Proof. unfold select. induction l as [|x l IH]; cbn; [reflexivity|]. f_equal. exact IH. Qed.

Lemma shortcut_sound : ever_factorizes sc = false -> factorize_long sc mon = Some [mon].
Proof.
  intros EF. unfold factorize_long. fold positions. fold U. fold adj.
  assert (E : nb_classify_disconnected_components (length U) adj = Some (repeat 0 (length U))).
  { unfold nb_classify_disconnected_components.
    replace (forallb (fun i => forallb (adj i) (seq 0 (length U))) (seq 0 (length U))) with true; [rewrite orb_true_r; reflexivity|].
    symmetry. apply forallb_forall. intros a Ha. apply forallb_forall. intros b Hb. apply in_seq in Ha, Hb.
    destruct (key_surj a ltac:(lia)) as (i & Hi & <-). destruct (key_surj b ltac:(lia)) as (j & Hj & <-).
    apply adj_key; auto. apply ever_false_share; auto; apply mon_valid; assumption. }
  rewrite E. assert (Z : forall m, fold_right Nat.max 0 (repeat 0 m) = 0) by (induction m; cbn; auto).
  rewrite Z. cbn [Nat.add seq map]. f_equal. f_equal.
  unfold positions. rewrite !map_map.
  rewrite (map_ext _ (fun _ => 0)) by (intros; apply nth_repeat). apply select_zeros.
Qed.
End Fact.

Lemma piece_all mon : piece mon (repeat 0 (length mon)) 0 = mon.
Proof.
  rewrite <- select_piece by apply repeat_length. unfold select. induction mon as [|x mon IH]; cbn; [reflexivity|]. f_equal. exact IH.
Qed.

Lemma factorize_correct sc mon : wf_scenario sc -> (forall k, In k mon -> k < length (lexorder sc)) ->
  distinct_copies sc mon <= 255 -> mon <> [] ->
  exists pieces lab, factorize_monomial_1d sc mon = Some pieces /\ length lab = length mon /\
    pieces = map (piece mon lab) (seq 0 (length pieces)) /\
    (forall i, i < length mon -> nth i lab 0 < length pieces) /\
    (forall q, q < length pieces -> exists i, i < length mon /\ nth i lab 0 = q) /\
    (forall i j, i < length mon -> j < length mon -> (nth i lab 0 = nth j lab 0 <-> linked sc mon i j)).
Proof.
  intros W V HD Hne. unfold factorize_monomial_1d.
  assert (G : (forall i j, i < length mon -> j < length mon -> linked sc mon i j) ->
   exists pieces lab, Some [mon] = Some pieces /\ length lab = length mon /\
    pieces = map (piece mon lab) (seq 0 (length pieces)) /\
    (forall i, i < length mon -> nth i lab 0 < length pieces) /\
    (forall q, q < length pieces -> exists i, i < length mon /\ nth i lab 0 = q) /\
    (forall i j, i < length mon -> j < length mon -> (nth i lab 0 = nth j lab 0 <-> linked sc mon i j))).
  { intros HL. exists [mon], (repeat 0 (length mon)). split; [reflexivity|]. split; [apply repeat_length|].
    split; [cbn [length seq map]; rewrite piece_all; reflexivity|]. split; [|split].
    - intros i _. rewrite nth_repeat. cbn. lia.
    - intros q Hq. cbn in Hq. exists 0. rewrite nth_repeat. split; [destruct mon; [contradiction|cbn; lia]|lia].
    - intros i j Hi Hj. rewrite !nth_repeat. split; auto. }
  destruct (ever_factorizes sc) eqn:EF; cbn [negb orb].
  - destruct (Nat.leb_spec (length mon) 1) as [Hl|Hl].
    + apply G. intros i j Hi Hj. assert (i = j) as -> by lia. apply rst_refl.
    + apply factorize_long_correct; assumption.
  - apply G. intros i j Hi Hj. apply rst_step. repeat split; auto.
    apply (ever_false_share sc W); auto; apply V, nth_In; assumption.
Qed.

Lemma concat_pieces_perm mon lab n : length lab = length mon -> (forall i, i < length mon -> nth i lab 0 < n) ->
  Permutation (concat (map (piece mon lab) (seq 0 n))) mon.
Proof.
  intros L H. rewrite (map_ext_in _ (fun q => select lab q mon)) by (intros; symmetry; apply select_piece, L).
  revert lab L H. induction mon as [|x mon IH]; intros lab L H.
  - destruct lab; [|discriminate]. assert (G : forall l, concat (map (fun q => select [] q ([] : list nat)) l) = []) by (induction l; cbn; auto).
    rewrite G. constructor.
  - destruct lab as [|y lab]; [discriminate|]. cbn in L.
    assert (Hy : y < n) by (apply (H 0); cbn; lia).
    assert (IH' := IH lab ltac:(lia) ltac:(intros i Hi; apply (H (S i)); cbn; lia)).
    assert (G : forall l, NoDup l -> Permutation (concat (map (fun q => select (y :: lab) q (x :: mon)) l))
      ((if in_dec Nat.eq_dec y l then [x] else []) ++ concat (map (fun q => select lab q mon) l))).
    { induction l as [|q l IHl]; intros N; [constructor|]. inversion N; subst. specialize (IHl ltac:(assumption)).
      cbn [map concat]. unfold select at 1. cbn [combine filter fst]. destruct (Nat.eqb_spec y q) as [->|Hne].
      - cbn [map snd]. fold (select lab q mon). rewrite IHl.
        destruct (in_dec Nat.eq_dec q l) as [Hin|_]; [contradiction|].
        destruct (in_dec Nat.eq_dec q (q :: l)) as [_|Hn]; [|exfalso; apply Hn; left; reflexivity]. reflexivity.
      - fold (select lab q mon). rewrite IHl. destruct (in_dec Nat.eq_dec y l) as [Hin|Hnin], (in_dec Nat.eq_dec y (q :: l)) as [Hin'|Hnin'].
        + cbn. rewrite Permutation_middle. reflexivity.
        + exfalso. apply Hnin'. right. exact Hin.
        + exfalso. destruct Hin' as [->|Hin']; contradiction.
        + reflexivity. }
    rewrite (G (seq 0 n) (seq_NoDup n 0)). destruct (in_dec Nat.eq_dec y (seq 0 n)) as [_|Hn]; [|exfalso; apply Hn, in_seq; lia].
    cbn [app]. rewrite IH'. reflexivity.
Qed.

Lemma factorize_perm sc mon : wf_scenario sc -> (forall k, In k mon -> k < length (lexorder sc)) -> distinct_copies sc mon <= 255 ->
  exists pieces, factorize_monomial_1d sc mon = Some pieces /\ Permutation (concat pieces) mon.
Proof.
  intros W V D. destruct mon as [|x m] eqn:E.
  - exists [[]]. split; [|reflexivity]. unfold factorize_monomial_1d. cbn [length Nat.leb]. rewrite orb_true_r. reflexivity.
  - rewrite <- E in *. destruct (factorize_correct sc mon W V D ltac:(rewrite E; discriminate)) as (pieces & lab & E1 & L & E2 & H1 & _).
    exists pieces. split; [exact E1|]. rewrite E2. apply concat_pieces_perm; assumption.
Qed.
