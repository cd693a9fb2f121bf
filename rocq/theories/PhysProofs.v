From Coq Require Import Permutation Relation_Operators.
From Verif Require Import CanonModel CanonSpec CanonProofs ScenarioModel ScenarioSpec SymModel SymSpec FactorModel FactorSpec
  ScenarioProofs SymProofs UniqueProofs FactorProofs PhysModel PhysSpec.

(** ** stripping *)
Lemma inner_snoc {A} (x : A) l y : inner (x :: l ++ [y]) = l.
Proof. unfold inner. cbn [tl]. apply List.removelast_last. Qed.
Lemma list_ends {A} (l : list A) : l = [] \/ (exists x, l = [x]) \/ exists x m y, l = x :: m ++ [y].
Proof.
  destruct l as [|x l]; [auto|]. destruct l as [|z l]; [right; left; eauto|].
  destruct (@exists_last A (z :: l) ltac:(discriminate)) as (m & y & E). rewrite E. right; right. eauto.
Qed.
Lemma last_snoc {A} (l : list A) y d : last (l ++ [y]) d = y.
Proof. induction l as [|a l IH]; [reflexivity|]. destruct l; [reflexivity|]. exact IH. Qed.
Lemma palin_ends {A} (x : A) m y : palindrome (x :: m ++ [y]) <-> x = y /\ palindrome m.
Proof.
  unfold palindrome. cbn [rev]. rewrite rev_app_distr. cbn [rev app]. split.
  - intros E. injection E as E1 E2. split; [congruence|]. apply app_inj_tail in E2 as [E2 _]. exact E2.
  - intros [-> E]. rewrite E. reflexivity.
Qed.
Lemma rlast_len {A} (l : list A) : length (removelast l) = length l - 1.
Proof. destruct (list_ends l) as [->|[(x & ->)|(x & m & y & ->)]]; [reflexivity..|]. change (x :: m ++ [y]) with ((x :: m) ++ [y]). rewrite List.removelast_last, app_length. cbn. lia. Qed.
Lemma flat_map_nil {A B} (f : A -> list B) l : (forall x, In x l -> f x = []) -> flat_map f l = [].
Proof. induction l as [|x l IH]; intros H; [reflexivity|]. cbn. rewrite (H x) by (left; reflexivity). apply IH. intros; apply H; right; assumption. Qed.
Lemma strip_len fuel : forall idx f, length idx = length f -> length (fst (strip fuel idx f)) = length (snd (strip fuel idx f)).
Proof.
  induction fuel as [|fuel IH]; intros idx f L; [exact L|]. cbn [strip]. destruct f as [|x f]; [exact L|].
  destruct (row_eqb x (last (x :: f) [])); [|exact L]. apply IH. unfold inner.
  destruct idx as [|k idx]; [discriminate|]. cbn [tl]. cbn [length] in L. injection L as L.
  rewrite !rlast_len, L. reflexivity.
Qed.
Lemma inner_incl {A} (l : list A) x : In x (inner l) -> In x l.
Proof.
  unfold inner. destruct l as [|y l]; [intros []|]. cbn [tl]. intros H. right.
  induction l as [|a l IH]; [destruct H|]. destruct l as [|b l]; [destruct H|]. cbn [removelast] in H. destruct H as [->|H]; [left; reflexivity|right; apply IH, H].
Qed.
Lemma strip_incl fuel : forall idx f k, In k (fst (strip fuel idx f)) -> In k idx.
Proof.
  induction fuel as [|fuel IH]; intros idx f k H; [exact H|]. cbn [strip] in H. destruct f as [|x f]; [exact H|].
  destruct (row_eqb x (last (x :: f) [])); [|exact H]. apply inner_incl, (IH _ _ _ H).
Qed.
Lemma strip_palindrome fuel : forall idx f, length f <= fuel -> (length (snd (strip fuel idx f)) <= 1 <-> palindrome f).
Proof.
  induction fuel as [|fuel IH]; intros idx f L.
  - destruct f; [|cbn in L; lia]. cbn. unfold palindrome. cbn. split; [reflexivity|lia].
  - cbn [strip]. destruct (list_ends f) as [->|[(x & ->)|(x & m & y & ->)]].
    + cbn. unfold palindrome. cbn. split; [reflexivity|lia].
    + cbn [last]. replace (row_eqb x x) with true by (symmetry; apply row_eqb_true; reflexivity).
      cbn [inner tl removelast]. unfold palindrome. cbn [rev app]. split; [reflexivity|]. intros _.
      destruct fuel; cbn; lia.
    + change (last (x :: m ++ [y]) []) with (last ((x :: m) ++ [y]) []). rewrite last_snoc. rewrite palin_ends.
      destruct (row_eqb x y) eqn:E.
      * apply row_eqb_true in E. subst. rewrite inner_snoc. rewrite IH; [tauto|].
        cbn [length] in L. rewrite app_length in L. cbn in L. lia.
      * cbn [snd]. split; [|intros [-> _]; rewrite (proj2 (row_eqb_true y y) eq_refl) in E; discriminate].
        cbn [length]. rewrite app_length. cbn [length]. lia.
Qed.

(** ** the labels *)
Lemma map_opt_spec {A B} (f : A -> option B) l : (forall x, In x l -> f x <> None) -> exists r, map_opt f l = Some r /\ Forall2 (fun x y => f x = Some y) l r.
Proof.
  induction l as [|x l IH]; intros H; [exists []; split; [reflexivity|constructor]|].
  destruct IH as (r & E & R); [intros; apply H; right; assumption|]. cbn [map_opt].
  destruct (f x) as [y|] eqn:Ex; [|exfalso; apply (H x); [left; reflexivity|exact Ex]]. rewrite E.
  exists (y :: r). split; [reflexivity|]. constructor; assumption.
Qed.

Lemma filter_len {A} (f : A -> bool) l : length (filter f l) <= length l.
Proof. induction l as [|x l IH]; cbn; [lia|]. destruct (f x); cbn; lia. Qed.
Section Phys.
Variables (m : list row) (ns : nat).
Hypothesis Hlen : length m <= 255.
Hypothesis Hcp : forall i, i < length m -> length (row_copies (nth i m [])) = ns.

Definition pidx (p : nat) : list nat := filter (fun k => row_party (nth k m []) =? p) (seq 0 (length m)).
Definition prow (p : nat) : list row := map (fun k => nth k m []) (pidx p).
Lemma pidx_in p k : In k (pidx p) <-> k < length m /\ row_party (nth k m []) = p.
Proof. unfold pidx. rewrite filter_In, in_seq, Nat.eqb_eq. clear Hlen Hcp. intuition lia. Qed.
Lemma pidx_len p : length (pidx p) <= length m.
Proof. unfold pidx. rewrite (filter_len _ (seq 0 (length m))), seq_length. reflexivity. Qed.
Lemma prow_len p : length (prow p) = length (pidx p).
Proof. apply map_length. Qed.
Lemma prow_nth p a : a < length (pidx p) -> nth a (prow p) [] = nth (nth a (pidx p) 0) m [].
Proof.
  intros H. unfold prow. rewrite nth_indep with (d' := nth 0 m []) by (rewrite map_length; exact H).
  apply (map_nth (fun k => nth k m [])).
Qed.
Lemma pidx_nth p a : a < length (pidx p) -> nth a (pidx p) 0 < length m /\ row_party (nth (nth a (pidx p) 0) m []) = p.
Proof. intros H. apply pidx_in, nth_In, H. Qed.

Let padj p := nb_overlap_matrix (map row_copies (prow p)).
Lemma padj_sym p i j : padj p i j = padj p j i.
Proof. unfold padj, nb_overlap_matrix. rewrite (Nat.eqb_sym i), Nat.max_comm, Nat.min_comm. reflexivity. Qed.
Lemma padj_spec p a b : a < length (pidx p) -> b < length (pidx p) -> a <> b ->
  (padj p a b = true <-> party_adjacent m (nth a (pidx p) 0) (nth b (pidx p) 0)).
Proof.
  intros Ha Hb Hne. unfold padj, nb_overlap_matrix. replace (a =? b) with false by (symmetry; apply Nat.eqb_neq; exact Hne).
  assert (Ec : forall k, k < length (pidx p) -> nth k (map row_copies (prow p)) [] = row_copies (nth (nth k (pidx p) 0) m [])).
  { intros k Hk. rewrite nth_indep with (d' := row_copies []) by (rewrite map_length, prow_len; exact Hk).
    rewrite (map_nth row_copies), prow_nth by exact Hk. reflexivity. }
  destruct (pidx_nth p a Ha) as [Va Pa]. destruct (pidx_nth p b Hb) as [Vb Pb].
  assert (G : forall x y, x < length (pidx p) -> y < length (pidx p) ->
     (nb_exists_shared_source (nth x (map row_copies (prow p)) []) (nth y (map row_copies (prow p)) []) = true <->
      share_copy (row_copies (nth (nth x (pidx p) 0) m [])) (row_copies (nth (nth y (pidx p) 0) m [])))).
  { intros x y Hx Hy. rewrite !Ec by assumption. apply shared_source_spec. destruct (pidx_nth p x Hx), (pidx_nth p y Hy). rewrite !Hcp; auto. }
  unfold party_adjacent. destruct (Nat.le_ge_cases a b).
  - rewrite Nat.max_r, Nat.min_l by assumption. rewrite G by assumption. split.
    + intros (k & H1 & H2). repeat split; try assumption; [congruence|]. exists k. split; congruence.
    + intros (_ & _ & _ & k & H1 & H2). exists k. split; congruence.
  - rewrite Nat.max_l, Nat.min_r by assumption. rewrite G by assumption. split.
    + intros Hs. repeat split; try assumption. congruence.
    + intros (_ & _ & _ & Hs). exact Hs.
Qed.

Definition plab (p : nat) : list nat := match nb_monomial_to_components (prow p) with Some l => l | None => [] end.
Lemma plab_raw p : nb_monomial_to_components (prow p) = Some (plab p) /\ length (plab p) = length (pidx p) /\
  forall a b, a < length (pidx p) -> b < length (pidx p) -> (nth a (plab p) 0 = nth b (plab p) 0 <-> conn (length (prow p)) (padj p) a b).
Proof.
  unfold plab, nb_monomial_to_components. destruct (Nat.leb_spec (length (prow p)) 1) as [H|H].
  - split; [reflexivity|]. split; [rewrite repeat_length; apply prow_len|]. intros a b Ha Hb. rewrite prow_len in H.
    assert (a = b) as -> by lia. split; [intros; apply rt_refl|reflexivity].
  - destruct (classify_correct (length (prow p)) (padj p) (padj_sym p)) as (labels & E & L & C & _).
    { rewrite prow_len. pose proof (pidx_len p). lia. }
    fold (padj p). rewrite E. split; [reflexivity|]. split; [rewrite L; apply prow_len|]. intros a b Ha Hb. apply C; rewrite prow_len; assumption.
Qed.

Lemma linked_party i j : party_linked m i j -> row_party (nth i m []) = row_party (nth j m []).
Proof. induction 1 as [x y (_ & _ & H & _)| | |]; congruence. Qed.
Lemma linked_range i j : party_linked m i j -> (i < length m <-> j < length m).
Proof. induction 1 as [x y (H1 & H2 & _)| | |]; tauto. Qed.

Lemma pidx_mono p : forall a b, a < b < length (pidx p) -> nth a (pidx p) 0 < nth b (pidx p) 0.
Proof.
  assert (G : forall l, (forall a b, a < b < length l -> nth a l 0 < nth b l 0) ->
     forall (f : nat -> bool) a b, a < b < length (filter f l) -> nth a (filter f l) 0 < nth b (filter f l) 0).
  { induction l as [|x l IH]; intros Hl f a b H; [cbn in H; lia|].
    assert (Hl' : forall a b, a < b < length l -> nth a l 0 < nth b l 0) by (intros a' b' H'; apply (Hl (S a') (S b')); cbn; lia).
    assert (Hx : forall y, In y l -> x < y).
    { intros y Hy. apply In_nth with (d := 0) in Hy as (k & Hk & <-). apply (Hl 0 (S k)). cbn. lia. }
    cbn [filter] in H |- *. destruct (f x); [|apply IH; assumption]. destruct b as [|b]; [lia|]. cbn [length] in H.
    destruct a as [|a]; cbn [nth].
    - apply Hx. assert (Hin : In (nth b (filter f l) 0) (filter f l)) by (apply nth_In; lia). apply filter_In in Hin. apply Hin.
    - apply IH; [assumption|lia]. }
  intros a b H. apply G; [|exact H]. intros x y Hxy. rewrite seq_length in Hxy. rewrite !seq_nth by lia. lia.
Qed.
Lemma pidx_inj p a b : a < length (pidx p) -> b < length (pidx p) -> nth a (pidx p) 0 = nth b (pidx p) 0 -> a = b.
Proof.
  intros Ha Hb E. destruct (Nat.lt_trichotomy a b) as [H|[H|H]]; [|exact H|].
  - pose proof (pidx_mono p a b ltac:(lia)). lia.
  - pose proof (pidx_mono p b a ltac:(lia)). lia.
Qed.

Lemma conn_linked p a b : conn (length (prow p)) (padj p) a b -> a < length (pidx p) -> b < length (pidx p) /\ party_linked m (nth a (pidx p) 0) (nth b (pidx p) 0).
Proof.
  intros H. induction H as [x y (H1 & H2 & H3)|x|x y z H1 IH1 H2 IH2]; intros Ha.
  - rewrite prow_len in H1, H2. split; [exact H2|]. destruct (Nat.eq_dec x y) as [->|Hne]; [apply rst_refl|].
    apply rst_step, padj_spec; assumption.
  - split; [exact Ha|apply rst_refl].
  - destruct (IH1 Ha) as [Hy L1]. destruct (IH2 Hy) as [Hz L2]. split; [exact Hz|eapply rst_trans; eassumption].
Qed.
Lemma linked_conn p i j : party_linked m i j -> forall a b, a < length (pidx p) -> b < length (pidx p) -> nth a (pidx p) 0 = i -> nth b (pidx p) 0 = j ->
  conn (length (prow p)) (padj p) a b.
Proof.
  intros H. induction H as [x y H|x|x y H IH|x y z H1 IH1 H2 IH2]; intros a b Ha Hb Ea Eb.
  - destruct (Nat.eq_dec a b) as [->|Hne]; [apply rt_refl|]. apply rt_step. split; [rewrite prow_len; exact Ha|]. split; [rewrite prow_len; exact Hb|].
    apply padj_spec; [assumption..|]. rewrite Ea, Eb. exact H.
  - assert (a = b) as -> by (apply (pidx_inj p); congruence). apply rt_refl.
  - apply conn_sym; [apply padj_sym|]. apply (IH b a); assumption.
  - assert (Hy : In y (pidx p)).
    { apply pidx_in. pose proof (linked_party _ _ H1) as P1. pose proof (linked_range _ _ H1) as R1.
      destruct (pidx_nth p a Ha) as [Va Pa]. rewrite Ea in Va, Pa. split; [tauto|congruence]. }
    apply In_nth with (d := 0) in Hy as (c & Hc & Ec). eapply conn_trans; [apply (IH1 a c)|apply (IH2 c b)]; assumption.
Qed.
Theorem plab_spec p a b : a < length (pidx p) -> b < length (pidx p) ->
  (nth a (plab p) 0 = nth b (plab p) 0 <-> party_linked m (nth a (pidx p) 0) (nth b (pidx p) 0)).
Proof.
  intros Ha Hb. destruct (plab_raw p) as (_ & _ & C). rewrite (C a b Ha Hb). split.
  - intros H. apply (conn_linked p a b H Ha).
  - intros H. eapply linked_conn; eauto.
Qed.

(** positions of the factor labelled l of party p *)
Definition fidx (p l : nat) : list nat := map (fun a => nth a (pidx p) 0) (filter (fun k => nth k (plab p) 0 =? l) (seq 0 (length (plab p)))).
Lemma fidx_in p l k : In k (fidx p l) <-> exists a, a < length (pidx p) /\ nth a (plab p) 0 = l /\ k = nth a (pidx p) 0.
Proof.
  unfold fidx. rewrite in_map_iff. destruct (plab_raw p) as (_ & L & _). split.
  - intros (a & E & H). apply filter_In in H as [H H']. apply in_seq in H. apply Nat.eqb_eq in H'. exists a. split; [lia|]. split; congruence.
  - intros (a & Ha & El & ->). exists a. split; [reflexivity|]. apply filter_In. split; [apply in_seq; lia|apply Nat.eqb_eq, El].
Qed.
Lemma mono_filter (l : list nat) (f : nat -> bool) : (forall a b, a < b < length l -> nth a l 0 < nth b l 0) ->
  forall a b, a < b < length (filter f l) -> nth a (filter f l) 0 < nth b (filter f l) 0.
Proof.
  induction l as [|x l IH]; intros Hl a b H; [cbn in H; lia|].
  assert (Hl' : forall a b, a < b < length l -> nth a l 0 < nth b l 0) by (intros a' b' H'; apply (Hl (S a') (S b')); cbn; lia).
  assert (Hx : forall y, In y l -> x < y).
  { intros y Hy. apply In_nth with (d := 0) in Hy as (k & Hk & <-). apply (Hl 0 (S k)). cbn. lia. }
  cbn [filter] in H |- *. destruct (f x); [|apply IH; assumption]. destruct b as [|b]; [lia|]. cbn [length] in H.
  destruct a as [|a]; cbn [nth].
  - apply Hx. assert (Hin : In (nth b (filter f l) 0) (filter f l)) by (apply nth_In; lia). apply filter_In in Hin. apply Hin.
  - apply IH; [assumption|lia].
Qed.
Lemma fidx_mono p l : forall a b, a < b < length (fidx p l) -> nth a (fidx p l) 0 < nth b (fidx p l) 0.
Proof.
  unfold fidx. set (q := filter (fun k => nth k (plab p) 0 =? l) (seq 0 (length (plab p)))). intros a b H. rewrite map_length in H.
  assert (E : forall c, c < length q -> nth c (map (fun a => nth a (pidx p) 0) q) 0 = nth (nth c q 0) (pidx p) 0).
  { intros c Hc. rewrite nth_indep with (d' := nth 0 (pidx p) 0) by (rewrite map_length; exact Hc). apply (map_nth (fun a => nth a (pidx p) 0)). }
  rewrite !E by lia. apply pidx_mono. split.
  - unfold q. apply mono_filter; [|exact H]. intros x y Hxy. rewrite seq_length in Hxy. rewrite !seq_nth by lia. lia.
  - assert (Hin : In (nth b q 0) q) by (apply nth_In; lia). apply filter_In in Hin as [Hin _]. apply in_seq in Hin.
    destruct (plab_raw p) as (_ & L & _). lia.
Qed.
Lemma sorted_unique (l l' : list nat) : (forall a b, a < b < length l -> nth a l 0 < nth b l 0) ->
  (forall a b, a < b < length l' -> nth a l' 0 < nth b l' 0) -> (forall x, In x l <-> In x l') -> l = l'.
Proof.
  revert l'. induction l as [|x l IH]; intros [|y l'] H H' E.
  - reflexivity.
  - exfalso. apply (E y). left. reflexivity.
  - exfalso. apply (E x). left. reflexivity.
  - assert (Hx : forall z, In z l -> x < z).
    { intros z Hz. apply In_nth with (d := 0) in Hz as (k & Hk & <-). apply (H 0 (S k)). cbn. lia. }
    assert (Hy : forall z, In z l' -> y < z).
    { intros z Hz. apply In_nth with (d := 0) in Hz as (k & Hk & <-). apply (H' 0 (S k)). cbn. lia. }
    assert (x = y) as ->.
    { destruct (proj1 (E x) (or_introl eq_refl)) as [->|Hin]; [reflexivity|]. destruct (proj2 (E y) (or_introl eq_refl)) as [->|Hin']; [reflexivity|].
      apply Hx in Hin'. apply Hy in Hin. lia. }
    f_equal. apply IH.
    + intros a b Hab. apply (H (S a) (S b)). cbn. lia.
    + intros a b Hab. apply (H' (S a) (S b)). cbn. lia.
    + intros z. split; intros Hz.
      * destruct (proj1 (E z) (or_intror Hz)) as [->|Hin]; [|exact Hin]. apply Hx in Hz. lia.
      * destruct (proj2 (E z) (or_intror Hz)) as [->|Hin]; [|exact Hin]. apply Hy in Hz. lia.
Qed.
Lemma is_factor_iff idx : is_factor m idx <-> exists p l, idx = fidx p l /\ idx <> [].
Proof.
  split.
  - intros (i & Hi & Hin & Hmono). set (p := row_party (nth i m [])). assert (Hip : In i (pidx p)) by (apply pidx_in; auto).
    apply In_nth with (d := 0) in Hip as (a & Ha & Ea). exists p, (nth a (plab p) 0). split.
    + apply sorted_unique; [exact Hmono|apply fidx_mono|]. intros k. rewrite Hin, fidx_in. split.
      * intros [Hk Hl]. assert (Hkp : In k (pidx p)) by (apply pidx_in; split; [exact Hk|]; symmetry; apply linked_party, Hl).
        apply In_nth with (d := 0) in Hkp as (b & Hb & Eb). exists b. split; [exact Hb|]. split; [|congruence].
        apply plab_spec; [assumption..|]. rewrite Ea, Eb. apply rst_sym, Hl.
      * intros (b & Hb & El & ->). split; [apply pidx_nth, Hb|]. rewrite <- Ea. apply plab_spec; auto.
    + intros ->. apply (proj2 (Hin i)). split; [exact Hi|apply rst_refl].
  - intros (p & l & -> & Hne). destruct (fidx p l) as [|i r] eqn:Ef; [congruence|]. rewrite <- Ef in *. clear Hne.
    assert (Hi : In i (fidx p l)) by (rewrite Ef; left; reflexivity). apply fidx_in in Hi as (a & Ha & El & ->).
    exists (nth a (pidx p) 0). destruct (pidx_nth p a Ha) as [V P]. split; [exact V|]. split; [|apply fidx_mono].
    intros k. rewrite fidx_in. split.
    + intros (b & Hb & El' & ->). split; [apply pidx_nth, Hb|]. apply plab_spec; [assumption..|congruence].
    + intros [Hk Hl]. assert (Hkp : In k (pidx p)) by (apply pidx_in; split; [exact Hk|]; rewrite <- P; symmetry; apply linked_party, Hl).
      apply In_nth with (d := 0) in Hkp as (b & Hb & Eb). exists b. split; [exact Hb|]. split; [|congruence].
      rewrite <- El. apply plab_spec; [assumption..|]. rewrite Eb. apply rst_sym, Hl.
Qed.

(** ** the test *)
Definition good_rows (sandwich : bool) (f : list row) : Prop := if sandwich then palindrome f else length f <= 1.
Lemma picked_nil sandwich p l : picked_of_factor sandwich (pidx p) (prow p) (plab p) l = [] <-> good_rows sandwich (factor_rows m (fidx p l)).
Proof.
  unfold picked_of_factor. set (q := filter (fun k => nth k (plab p) 0 =? l) (seq 0 (length (plab p)))).
  assert (Hq : forall a, In a q -> a < length (pidx p)).
  { intros a Ha. apply filter_In in Ha as [Ha _]. apply in_seq in Ha. destruct (plab_raw p) as (_ & L & _). lia. }
  assert (EF : map (fun k => nth k (prow p) []) q = factor_rows m (fidx p l)).
  { unfold factor_rows, fidx. fold q. rewrite map_map. apply map_ext_in. intros a Ha. apply prow_nth, Hq, Ha. }
  rewrite EF. set (f := factor_rows m (fidx p l)). assert (Lf : length q = length f) by (unfold f; rewrite <- EF, map_length; reflexivity).
  destruct sandwich; cbn [good_rows snd fst].
  - rewrite <- (strip_palindrome (length f) q f (le_n _)). pose proof (strip_len (length f) q f Lf) as L.
    destruct (Nat.ltb_spec 1 (length (snd (strip (length f) q f)))) as [H|H]; split; intros H'; try lia; [|reflexivity].
    exfalso. apply map_eq_nil in H'. rewrite H' in L. cbn in L. lia.
  - destruct (Nat.ltb_spec 1 (length f)) as [H|H]; split; intros H'; try lia; [|reflexivity].
    exfalso. apply map_eq_nil in H'. rewrite H' in Lf. cbn in Lf. lia.
Qed.
Lemma picked_range sandwich p l k : In k (picked_of_factor sandwich (pidx p) (prow p) (plab p) l) -> k < length m.
Proof.
  unfold picked_of_factor. set (q := filter (fun k => nth k (plab p) 0 =? l) (seq 0 (length (plab p)))).
  assert (Hq : forall a, In a q -> a < length (pidx p)).
  { intros a Ha. apply filter_In in Ha as [Ha _]. apply in_seq in Ha. destruct (plab_raw p) as (_ & L & _). lia. }
  destruct (1 <? _); [|intros []]. intros H. apply in_map_iff in H as (a & <- & Ha). apply pidx_nth, Hq.
  destruct sandwich; [apply strip_incl in Ha|]; exact Ha.
Qed.
Lemma picked_party sandwich p : picked_of_party sandwich m p = Some (flat_map (picked_of_factor sandwich (pidx p) (prow p) (plab p)) (seq 0 (fold_right Nat.max 0 (plab p) + 1))).
Proof. unfold picked_of_party. fold (pidx p) (prow p). destruct (plab_raw p) as (-> & _). reflexivity. Qed.

Theorem physical_iff sandwich : exists b, nb_is_physical sandwich m = Some b /\
  (b = true <-> forall idx, is_factor m idx -> good_rows sandwich (factor_rows m idx)).
Proof.
  unfold nb_is_physical, picklist. destruct (map_opt_spec (picked_of_party sandwich m) (np_unique Nat.compare (map row_party m))) as (r & E & R).
  { intros p _. rewrite picked_party. discriminate. }
  rewrite E. eexists. split; [reflexivity|]. rewrite negb_true_iff.
  assert (G : existsb (fun b => b) (map (fun k => memb k (concat r)) (seq 0 (length m))) = false <-> concat r = []).
  { split.
    - intros H. destruct (concat r) as [|k c] eqn:Ec; [reflexivity|]. exfalso. rewrite <- Ec in H.
      assert (Hk : k < length m).
      { assert (Hin : In k (concat r)) by (rewrite Ec; left; reflexivity). apply in_concat in Hin as (y & Hy & Hk).
        apply In_nth_error in Hy as [a Ha].
        assert (exists p, picked_of_party sandwich m p = Some y) as (p & Ep).
        { clear -R Ha. revert a Ha. induction R as [|x z l r Hx R IH]; intros [|a] Ha; try discriminate; [cbn in Ha; injection Ha as <-; eauto|eapply IH, Ha]. }
        rewrite picked_party in Ep. injection Ep as <-. apply in_flat_map in Hk as (l & _ & Hk). eapply picked_range, Hk. }
      assert (Ht : existsb (fun b => b) (map (fun k => memb k (concat r)) (seq 0 (length m))) = true); [|congruence].
      apply existsb_exists. exists true. split; [|reflexivity]. apply in_map_iff. exists k. split; [|apply in_seq; lia].
      unfold memb. apply existsb_exists. exists k. split; [rewrite Ec; left; reflexivity|apply Nat.eqb_refl].
    - intros ->. induction (seq 0 (length m)) as [|k l IH]; [reflexivity|]. cbn. exact IH. }
  rewrite G. clear G.
  assert (G2 : concat r = [] <-> forall p, In p (np_unique Nat.compare (map row_party m)) -> picked_of_party sandwich m p = Some []).
  { clear E. induction R as [|p y l r Hp R IH]; [split; [intros _ p []|reflexivity]|]. cbn [concat]. split.
    - intros H. apply app_eq_nil in H as [-> H]. intros p' [<-|Hp']; [exact Hp|]. apply IH; assumption.
    - intros H. rewrite (proj2 IH) by (intros; apply H; right; assumption). rewrite (H p) in Hp by (left; reflexivity). injection Hp as <-. reflexivity. }
  rewrite G2. clear G2. split.
  - intros H idx Hf. apply is_factor_iff in Hf as (p & l & -> & Hne). apply picked_nil.
    destruct (fidx p l) as [|i rest] eqn:Ef; [congruence|]. assert (Hi : In i (fidx p l)) by (rewrite Ef; left; reflexivity).
    apply fidx_in in Hi as (a & Ha & El & _).
    specialize (H p). rewrite picked_party in H.
    assert (Hp : In p (np_unique Nat.compare (map row_party m))).
    { apply (np_unique_in _ nat_good_cmp). destruct (pidx_nth p a Ha) as [V P]. apply in_map_iff. eexists. split; [exact P|]. apply nth_In, V. }
    specialize (H Hp). injection H as H. destruct (picked_of_factor sandwich (pidx p) (prow p) (plab p) l) as [|k c] eqn:Ek; [reflexivity|].
    assert (Hk : In k (flat_map (picked_of_factor sandwich (pidx p) (prow p) (plab p)) (seq 0 (fold_right Nat.max 0 (plab p) + 1)))).
    { apply in_flat_map. exists l. split; [|rewrite Ek; left; reflexivity]. apply in_seq.
      assert (l <= fold_right Nat.max 0 (plab p)); [|lia]. rewrite <- El. destruct (plab_raw p) as (_ & L & _).
      apply (proj1 (fold_right_max_le (plab p) _)); [reflexivity|]. apply nth_In. lia. }
    rewrite H in Hk. destruct Hk.
  - intros H p Hp. rewrite picked_party. f_equal. apply flat_map_nil. intros l _. apply picked_nil.
    destruct (fidx p l) as [|i rest] eqn:Ef.
    + destruct sandwich; cbn; [reflexivity|lia].
    + rewrite <- Ef. apply H, is_factor_iff. exists p, l. split; [reflexivity|rewrite Ef; discriminate].
Qed.
End Phys.
