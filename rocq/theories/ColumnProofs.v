From Coq Require Import Permutation Sorted.
From Verif Require Import CanonModel CanonSpec CanonProofs CanonProofs2 MomentModel MomentSpec MomentProofs.
From Verif Require SymProofs.
From Verif Require Import ScenarioModel ScenarioSpec ScenarioProofs UniqueProofs OrbitModel OrbitSpec OrbitProofs OrbitProofs2 ColumnModel ColumnSpec.

Lemma nth_error_Some_lt {A} (l : list A) k x : nth_error l k = Some x -> k < length l.
Proof. intros H. apply nth_error_Some. rewrite H. discriminate. Qed.
Lemma nth_ext' (a b : list nat) n : length a = n -> length b = n -> (forall i, i < n -> nth i a 0 = nth i b 0) -> a = b.
Proof. intros A B H. apply (nth_ext _ _ 0 0); [lia|]. intros i Hi. apply H. lia. Qed.
Lemma compose_nth g h i : i < length h -> nth i (compose g h) 0 = nth (nth i h 0) g 0.
Proof.
  intros Hi. unfold compose. rewrite (nth_indep _ 0 ((fun j => nth j g 0) 0)) by (rewrite map_length; exact Hi).
  apply (map_nth (fun j => nth j g 0)).
Qed.
Lemma compose_length g h : length (compose g h) = length h.
Proof. apply map_length. Qed.
Lemma inj_range_perm (p : list nat) n : length p = n -> (forall i, i < n -> nth i p 0 < n) ->
  (forall i j, i < n -> j < n -> nth i p 0 = nth j p 0 -> i = j) -> Permutation p (seq 0 n).
Proof.
  intros L R I. apply NoDup_Permutation_bis.
  - apply (NoDup_nth p 0). rewrite L. auto.
  - rewrite seq_length. lia.
  - intros x Hx. apply (In_nth _ _ 0) in Hx as (i & Hi & <-). apply in_seq. rewrite L in Hi. specialize (R i Hi). lia.
Qed.
Lemma lex_le_compare u v : lex_le u v -> lex_compare u v <> Gt.
Proof.
  induction 1 as [w|a b u v H|a u v _ IH]; cbn.
  - destruct w; discriminate.
  - apply Nat.compare_lt_iff in H. rewrite H. discriminate.
  - rewrite Nat.compare_refl. exact IH.
Qed.
Lemma seq_le_SS a n : StronglySorted le (seq a n).
Proof.
  revert a. induction n as [|n IH]; intros a; constructor; [apply IH|]. apply Forall_forall. intros x Hx. apply in_seq in Hx. lia.
Qed.
(** the head of np.unique is the smallest element *)
Lemma unique_head (l : list (list nat)) x : In x l -> (forall y, In y l -> lex_compare x y <> Gt) ->
  exists t, np_unique lex_compare l = x :: t /\ ~ In x t /\ forall y, In y t <-> In y l /\ y <> x.
Proof.
  intros Hx Hm. pose proof (np_unique_sorted lex_compare lex_good_cmp l) as SSu. pose proof (np_unique_NoDup lex_compare lex_good_cmp l) as ND.
  pose proof (np_unique_in lex_compare lex_good_cmp l) as IN. destruct (np_unique lex_compare l) as [|z t] eqn:EU; [exfalso; apply IN in Hx; exact Hx|].
  assert (z = x).
  { inversion SSu as [|? ? _ F]; subst. rewrite Forall_forall in F. pose proof (proj2 (IN x) Hx) as [->|Hx']; [reflexivity|].
    specialize (F x Hx'). assert (Hz : In z l) by (apply IN; left; reflexivity). specialize (Hm z Hz).
    destruct (lex_compare x z) eqn:E; [|exfalso|congruence].
    - apply (gc_eq _ lex_good_cmp) in E. congruence.
    - pose proof (gc_trans _ lex_good_cmp _ _ _ E F) as Q. assert (lex_compare x x = Eq) by (apply (gc_eq _ lex_good_cmp); reflexivity). congruence. }
  subst z. exists t. inversion ND as [|? ? Hn _]; subst. split; [reflexivity|]. split; [exact Hn|]. intros y. rewrite <- IN. split.
  - intros Hy. split; [right; exact Hy|]. intros ->. contradiction.
  - intros [[<-|Hy] Ne]; [congruence|exact Hy].
Qed.

(** letter maps and the word relations *)
Lemma ce_map nc f u v : (forall a b, nc a b = false -> nc (f a) (f b) = false) -> comm_eq nc u v -> comm_eq nc (map f u) (map f v).
Proof.
  intros H. induction 1 as [w|u a b v Hc|w1 w2 _ IH|w1 w2 w3 _ IH1 _ IH2].
  - apply ce_refl.
  - rewrite !map_app. cbn [map]. apply ce_swap, H, Hc.
  - apply ce_sym, IH.
  - eapply ce_trans; eassumption.
Qed.
Lemma pe_map nc ortho f u v : (forall a b, nc a b = false -> nc (f a) (f b) = false) ->
  (forall a b, ortho a b = true -> ortho (f a) (f b) = true) -> f 0 = 0 ->
  proj_eq nc ortho u v -> proj_eq nc ortho (map f u) (map f v).
Proof.
  intros H1 H2 H3. induction 1 as [w|w1 w2 _ IH|w1 w2 w3 _ IH1 _ IH2|u a b v Hc|u a v|u a b v Ho|u v].
  - apply pe_refl.
  - apply pe_sym, IH.
  - eapply pe_trans; eassumption.
  - rewrite !map_app. cbn [map]. apply pe_comm, H1, Hc.
  - rewrite !map_app. cbn [map]. apply pe_idem.
  - rewrite !map_app. cbn [map]. rewrite H3. apply pe_ortho, H2, Ho.
  - rewrite !map_app. cbn [map]. rewrite H3. apply pe_zero.
Qed.

Section Cols.
Variables (nc ortho : table) (commuting : bool) (L : nat) (syms : list (list nat)) (cols : list word).
Hypothesis G : good_tables nc ortho.
Hypothesis Hcomm : commuting = true -> forall a b, nc a b = false.
Hypothesis OS : operator_symmetries nc ortho L syms.
Hypothesis GC : good_columns nc ortho L cols.
Let n := length cols.
Let nc_sym : good_comm nc := gt_nc_sym _ _ G.

Definition gf (g : list nat) (x : nat) : nat := nth x g x.
Lemma sym_length g : In g syms -> length g = L.
Proof. intros Hg. rewrite (Permutation_length (os_perm _ _ _ _ OS g Hg)). apply seq_length. Qed.
Lemma gf_in g x : In g syms -> x < L -> gf g x = nth x g 0 /\ nth x g 0 < L.
Proof.
  intros Hg Hx. pose proof (sym_length g Hg) as Lg. unfold gf. rewrite (nth_indep g x 0) by lia. split; [reflexivity|].
  assert (H : In (nth x g 0) (seq 0 L)) by (eapply Permutation_in; [apply (os_perm _ _ _ _ OS g Hg)|]; apply nth_In; lia). apply in_seq in H. lia.
Qed.
Lemma gf_out g x : In g syms -> L <= x -> gf g x = x.
Proof. intros Hg Hx. unfold gf. apply nth_overflow. rewrite (sym_length g Hg). exact Hx. Qed.
Lemma gf_zero g : In g syms -> gf g 0 = 0.
Proof.
  intros Hg. destruct (Nat.eq_dec L 0) as [E|E]; [apply gf_out; [exact Hg|lia]|]. destruct (gf_in g 0 Hg ltac:(lia)) as [-> _]. apply (os_zero _ _ _ _ OS), Hg.
Qed.
Lemma sym_inj g x y : In g syms -> x < L -> y < L -> nth x g 0 = nth y g 0 -> x = y.
Proof.
  intros Hg Hx Hy. assert (ND : NoDup g) by (apply (Permutation_NoDup (Permutation_sym (os_perm _ _ _ _ OS g Hg))), seq_NoDup).
  apply (proj1 (NoDup_nth g 0) ND); rewrite (sym_length g Hg); assumption.
Qed.
Lemma gf_nonzero g x : In g syms -> x <> 0 -> gf g x <> 0.
Proof.
  intros Hg Hx. destruct (Nat.lt_ge_cases x L) as [H|H]; [|rewrite gf_out by assumption; exact Hx].
  destruct (gf_in g x Hg H) as [-> _]. intros E. apply Hx. apply (sym_inj g); auto; [lia|]. rewrite (os_zero _ _ _ _ OS g Hg). exact E.
Qed.
Lemma gf_nc g a b : In g syms -> nc (gf g a) (gf g b) = nc a b.
Proof.
  intros Hg. destruct (Nat.lt_ge_cases a L) as [Ha|Ha], (Nat.lt_ge_cases b L) as [Hb|Hb].
  - destruct (gf_in g a Hg Ha) as [-> _], (gf_in g b Hg Hb) as [-> _]. apply (os_nc _ _ _ _ OS); assumption.
  - rewrite (gf_out g b Hg Hb). rewrite !(proj1 (os_out _ _ _ _ OS _ b (or_intror Hb))). reflexivity.
  - rewrite (gf_out g a Hg Ha). rewrite !(proj1 (os_out _ _ _ _ OS a _ (or_introl Ha))). reflexivity.
  - rewrite (gf_out g a Hg Ha). rewrite !(proj1 (os_out _ _ _ _ OS a _ (or_introl Ha))). reflexivity.
Qed.
Lemma gf_ortho g a b : In g syms -> ortho (gf g a) (gf g b) = ortho a b.
Proof.
  intros Hg. destruct (Nat.eq_dec a 0) as [->|Na].
  { rewrite (gf_zero g Hg), !(gt_ortho_zero _ _ G). reflexivity. }
  destruct (Nat.eq_dec b 0) as [->|Nb].
  { rewrite (gf_zero g Hg), !(gt_ortho_sym _ _ G _ 0), !(gt_ortho_zero _ _ G). reflexivity. }
  pose proof (gf_nonzero g a Hg Na) as Na'. pose proof (gf_nonzero g b Hg Nb) as Nb'.
  destruct (Nat.lt_ge_cases a L) as [Ha|Ha], (Nat.lt_ge_cases b L) as [Hb|Hb].
  - destruct (gf_in g a Hg Ha) as [-> _], (gf_in g b Hg Hb) as [-> _]. apply (os_ortho _ _ _ _ OS); assumption.
  - pose proof (gf_out g b Hg Hb) as E. rewrite (proj2 (os_out _ _ _ _ OS a b (or_intror Hb))) by assumption.
    apply (os_out _ _ _ _ OS); auto. right. lia.
  - pose proof (gf_out g a Hg Ha) as E. rewrite (proj2 (os_out _ _ _ _ OS a b (or_introl Ha))) by assumption.
    apply (os_out _ _ _ _ OS); auto. left. lia.
  - pose proof (gf_out g a Hg Ha) as E. rewrite (proj2 (os_out _ _ _ _ OS a b (or_introl Ha))) by assumption.
    apply (os_out _ _ _ _ OS); auto. left. lia.
Qed.
Lemma ce_gf g u v : In g syms -> comm_eq nc u v -> comm_eq nc (map (gf g) u) (map (gf g) v).
Proof. intros Hg. apply ce_map. intros a b H. rewrite gf_nc by exact Hg. exact H. Qed.
Lemma pe_gf g u v : In g syms -> proj_eq nc ortho u v -> proj_eq nc ortho (map (gf g) u) (map (gf g) v).
Proof.
  intros Hg. apply pe_map; [| |apply gf_zero, Hg]; intros a b H; [rewrite gf_nc by exact Hg|rewrite gf_ortho by exact Hg]; exact H.
Qed.
Lemma sm_gf g u v : In g syms -> same_moment nc ortho u v -> same_moment nc ortho (map (gf g) u) (map (gf g) v).
Proof. intros Hg [H|H]; [left|right; rewrite <- map_rev]; apply pe_gf; assumption. Qed.
Definition ranged (w : word) := forall x, In x w -> x < L.
Lemma col_ranged i : ranged (nth i cols []).
Proof.
  intros x Hx. destruct (Nat.lt_ge_cases i (length cols)) as [H|H]; [|rewrite nth_overflow in Hx by exact H; destruct Hx].
  eapply (gcol_range _ _ _ _ GC); [apply nth_In, H|exact Hx].
Qed.
Lemma apply_gf g w : In g syms -> ranged w -> apply_lexsym g w = map (gf g) w.
Proof. intros Hg Hw. apply map_ext_in. intros x Hx. symmetry. apply gf_in; auto. Qed.
Lemma gf_comp g h x : In g syms -> In h syms -> gf (compose g h) x = gf g (gf h x).
Proof.
  intros Hg Hh. assert (Hc := os_comp _ _ _ _ OS g h Hg Hh). destruct (Nat.lt_ge_cases x L) as [Hx|Hx].
  - destruct (gf_in _ x Hc Hx) as [-> _]. destruct (gf_in h x Hh Hx) as [-> R]. destruct (gf_in g _ Hg R) as [-> _].
    apply compose_nth. rewrite (sym_length h Hh). exact Hx.
  - rewrite !gf_out; auto. rewrite gf_out; auto.
Qed.
Lemma gf_id x : gf (seq 0 L) x = x.
Proof.
  unfold gf. destruct (Nat.lt_ge_cases x L) as [Hx|Hx]; [rewrite seq_nth by exact Hx; reflexivity|apply nth_overflow; rewrite seq_length; exact Hx].
Qed.
Lemma id_in : In (seq 0 L) syms.
Proof. destruct (os_first _ _ _ _ OS) as (t & ->). left. reflexivity. Qed.
Lemma inverse g : In g syms -> exists h, In h syms /\ forall w, map (gf h) (map (gf g) w) = w.
Proof.
  intros Hg. destruct (os_inv _ _ _ _ OS g Hg) as (h & Hh & E). exists h. split; [exact Hh|]. intros w. rewrite map_map.
  rewrite <- (map_id w) at 2. apply map_ext. intros x. rewrite <- gf_comp by assumption. rewrite E. apply gf_id.
Qed.

(** only-commutations canonical form *)
Lemma only_comm w : to_canonical_1d_internal nc ortho commuting true w = nb_lexmon_to_canonical nc w.
Proof.
  rewrite (internal_any_comm nc ortho G commuting Hcomm). unfold to_canonical_1d_internal.
  destruct (Nat.leb_spec (length w) 1) as [Hs|_]; [|destruct (nb_lexmon_to_canonical nc w); reflexivity].
  destruct (canon_correct nc nc_sym w) as (r & E & C & _). rewrite E. f_equal.
  destruct w as [|a [|b w]]; cbn in Hs; [..|lia].
  - apply ce_length in C. destruct r; [reflexivity|discriminate].
  - apply ce_perm, Permutation_length_1_inv in C. auto.
Qed.
Lemma col_lexmin w : In w cols -> lexmin nc w.
Proof.
  intros Hw. pose proof (gcol_canon _ _ _ _ GC w Hw) as E. destruct (F_shape nc ortho G w w E) as [->|(N & _)]; [apply lexmin_single|].
  apply anf_lexmin; [exact nc_sym|]. apply N.
Qed.
Lemma col_unique w w' : In w cols -> In w' cols -> comm_eq nc w w' -> w = w'.
Proof. intros H H'. apply (lexmin_unique nc); apply col_lexmin; assumption. Qed.
Lemma lookup_col w w' : In w' cols -> comm_eq nc w w' -> exists k, (forall r, nb_lexmon_to_canonical nc w = Some r -> lookup_last 0 cols r = Some k) /\ k < n /\ nth k cols [] = w'.
Proof.
  intros Hw' C. destruct (canon_correct nc nc_sym w) as (r & E & Cr & Lm).
  assert (r = w') as ->.
  { apply (lexmin_unique nc); [exact Lm|apply col_lexmin, Hw'|]. eapply ce_trans; [apply ce_sym, Cr|exact C]. }
  destruct (lookup_last 0 cols w') as [k|] eqn:El.
  - exists k. destruct (lookup_last_some _ _ _ _ El) as [_ Hk]. rewrite Nat.sub_0_r in Hk.
    split; [intros r' Er'; rewrite E in Er'; injection Er' as <-; exact El|].
    split; [eapply nth_error_Some_lt; exact Hk|]. apply nth_error_nth with (d := @nil nat) in Hk. exact Hk.
  - apply lookup_last_none in El. contradiction.
Qed.
Lemma colperm_iff g pi : In g syms -> (column_permutation nc ortho commuting cols g = Some pi <-> moves_columns nc cols g pi).
Proof.
  intros Hg. unfold column_permutation, moves_columns. rewrite map_opt_some. split.
  - intros F2. pose proof (Forall2_len _ _ _ F2) as Len. split; [symmetry; exact Len|]. intros i Hi.
    assert (Q : forall (A B : Type) (R : A -> B -> Prop) l r da db, Forall2 R l r -> forall i, i < length l -> R (nth i l da) (nth i r db)).
    { clear. induction 1; intros [|i] Hi; cbn in *; try lia; auto. apply IHForall2. lia. }
    specialize (Q word nat _ _ _ ([] : word) 0 F2 i Hi). cbn beta in Q. rewrite only_comm in Q.
    destruct (canon_correct nc nc_sym (apply_lexsym g (nth i cols []))) as (r & E & Cr & _). rewrite E in Q.
    destruct (lookup_last_some _ _ _ _ Q) as [_ Hk]. rewrite Nat.sub_0_r in Hk. split; [eapply nth_error_Some_lt; exact Hk|].
    assert (E2 : nth (nth i pi 0) cols [] = r) by (apply (@nth_error_nth word); exact Hk). rewrite E2. exact Cr.
  - intros [Len H].
    assert (Q : forall (A B : Type) (R : A -> B -> Prop) l r da db, length r = length l -> (forall i, i < length l -> R (nth i l da) (nth i r db)) -> Forall2 R l r).
    { clear. induction l as [|x l IH]; intros [|y r] da db L H; cbn in L; try lia; constructor.
      - apply (H 0). cbn; lia.
      - apply (IH _ da db); [lia|]. intros i Hi. apply (H (S i)). cbn; lia. }
    apply (Q word nat _ _ _ ([] : word) 0 Len). intros i Hi. destruct (H i Hi) as [H1 H2]. rewrite only_comm.
    destruct (lookup_col _ _ (nth_In cols [] H1) H2) as (k & Hl & Hk & Ek).
    destruct (canon_correct nc nc_sym (apply_lexsym g (nth i cols []))) as (r & E & _). rewrite E, (Hl r E). f_equal.
    apply (proj1 (NoDup_nth cols []) (gcol_nodup _ _ _ _ GC)); auto.
Qed.
Lemma colperm_exists g : In g syms -> keeps_columns nc cols g -> exists pi, moves_columns nc cols g pi.
Proof.
  intros Hg K. destruct (column_permutation nc ortho commuting cols g) as [pi|] eqn:E; [exists pi; apply colperm_iff; assumption|].
  exfalso. apply map_opt_none in E as (w & Hw & E). rewrite only_comm in E. destruct (K w Hw) as (w' & Hw' & C).
  destruct (lookup_col _ _ Hw' C) as (k & Hl & _). destruct (canon_correct nc nc_sym (apply_lexsym g w)) as (r & Er & _). rewrite Er, (Hl r Er) in E. discriminate.
Qed.
Lemma moves_keeps g pi : moves_columns nc cols g pi -> keeps_columns nc cols g.
Proof.
  intros [Len H] w Hw. apply (In_nth _ _ []) in Hw as (i & Hi & <-). destruct (H i Hi) as [H1 H2]. eexists. split; [apply nth_In, H1|exact H2].
Qed.
Lemma moves_id : moves_columns nc cols (seq 0 L) (seq 0 n).
Proof.
  split; [apply seq_length|]. intros i Hi. rewrite seq_nth by exact Hi. cbn [Nat.add]. split; [exact Hi|].
  rewrite apply_gf by (auto using id_in, col_ranged). rewrite (map_ext _ (fun x => x) gf_id), map_id. apply ce_refl.
Qed.
Lemma moves_comp g h pi rho : In g syms -> In h syms -> moves_columns nc cols g pi -> moves_columns nc cols h rho ->
  moves_columns nc cols (compose g h) (compose pi rho).
Proof.
  intros Hg Hh [Lp Hp] [Lr Hr]. split; [rewrite compose_length; exact Lr|]. intros i Hi. destruct (Hr i Hi) as [R1 R2]. destruct (Hp _ R1) as [P1 P2].
  rewrite compose_nth by lia. split; [exact P1|].
  eapply ce_trans; [|exact P2]. rewrite (apply_gf g (nth (nth i rho 0) cols [])) by (exact Hg || apply col_ranged). rewrite (apply_gf h (nth i cols [])) in R2 by (exact Hh || apply col_ranged).
  rewrite (apply_gf (compose g h) (nth i cols [])) by (try apply (os_comp _ _ _ _ OS); auto using col_ranged).
  rewrite (map_ext _ (fun x => gf g (gf h x))) by (intros; apply gf_comp; assumption). rewrite <- map_map. apply ce_gf; assumption.
Qed.
Lemma moves_inj g pi i j : In g syms -> moves_columns nc cols g pi -> i < n -> j < n -> nth i pi 0 = nth j pi 0 -> i = j.
Proof.
  intros Hg [Lp Hp] Hi Hj E. destruct (Hp i Hi) as [A1 A2], (Hp j Hj) as [B1 B2]. rewrite E in A2.
  assert (C : comm_eq nc (apply_lexsym g (nth i cols [])) (apply_lexsym g (nth j cols []))) by (eapply ce_trans; [exact A2|apply ce_sym, B2]).
  rewrite !apply_gf in C by (auto using col_ranged). destruct (inverse g Hg) as (h & Hh & I). apply (ce_gf h) in C; [|exact Hh]. rewrite !I in C.
  apply (proj1 (NoDup_nth cols []) (gcol_nodup _ _ _ _ GC)); auto. apply col_unique; auto; apply nth_In; assumption.
Qed.
Lemma moves_perm g pi : In g syms -> moves_columns nc cols g pi -> Permutation pi (seq 0 n).
Proof.
  intros Hg M. apply inj_range_perm; [apply M|intros i Hi; apply M, Hi|]. intros i j. apply (moves_inj g); assumption.
Qed.
Lemma moves_inverse g pi : In g syms -> moves_columns nc cols g pi -> exists h rho, In h syms /\ moves_columns nc cols h rho /\ compose rho pi = seq 0 n.
Proof.
  intros Hg M. pose proof (moves_perm g pi Hg M) as P. destruct (inverse g Hg) as (h & Hh & I).
  set (rho := map (fun j => index_of Nat.eqb j pi) (seq 0 n)).
  assert (Hin : forall j, j < n -> In j pi) by (intros j Hj; apply (Permutation_in _ (Permutation_sym P)), in_seq; lia).
  assert (Lpi : length pi = n) by apply M.
  assert (Hrho : forall j, j < n -> nth j rho 0 < n /\ nth (nth j rho 0) pi 0 = j).
  { intros j Hj. unfold rho. set (f := fun j => _). rewrite (nth_indep _ 0 (f 0)) by (rewrite map_length, seq_length; exact Hj).
    rewrite map_nth, seq_nth by exact Hj. unfold f. cbn [Nat.add]. rewrite <- Lpi. apply (index_of_in Nat.eqb neqb_spec). apply Hin, Hj. }
  exists h, rho. split; [exact Hh|]. split; [split|].
  - unfold rho. rewrite map_length. apply seq_length.
  - intros j Hj. destruct (Hrho j Hj) as [R1 R2]. split; [exact R1|]. destruct M as [_ Hp]. destruct (Hp _ R1) as [A1 A2]. rewrite R2 in A2.
    rewrite apply_gf in * by (auto using col_ranged). apply (ce_gf h) in A2; [|exact Hh]. rewrite I in A2. apply ce_sym, A2.
  - apply (nth_ext' _ _ n); [rewrite compose_length; exact Lpi|apply seq_length|]. intros i Hi. rewrite compose_nth by lia. rewrite seq_nth by exact Hi. cbn [Nat.add].
    assert (Ri : nth i pi 0 < n) by (apply M, Hi). destruct (Hrho _ Ri) as [R1 R2]. apply (moves_inj g pi); assumption.
Qed.

Let D := discover_columns_symmetries nc ortho commuting cols syms.
Lemma D_spec pi : In pi D <-> pi <> seq 0 n /\ exists g, In g syms /\ moves_columns nc cols g pi.
Proof.
  destruct (os_first _ _ _ _ OS) as (t & Et).
  set (l := seq 0 n :: keep_some (map (column_permutation nc ortho commuting cols) (tl syms))).
  assert (Hl : forall p, In p l <-> exists g, In g syms /\ moves_columns nc cols g p).
  { intros p. unfold l. rewrite Et. cbn [tl]. cbn [In]. rewrite SymProofs.keep_some_in, in_map_iff. split.
    - intros [<-|(g & E & Hg)]; [exists (seq 0 L); split; [left; reflexivity|apply moves_id]|].
      exists g. split; [right; exact Hg|]. apply colperm_iff; [rewrite Et; right; exact Hg|exact E].
    - intros (g & [<-|Hg] & M).
      + left. apply (nth_ext' _ _ n); [apply seq_length|apply M|]. intros i Hi. rewrite seq_nth by exact Hi. cbn [Nat.add].
        destruct M as [_ Hp]. destruct (Hp i Hi) as [A1 A2]. rewrite apply_gf in A2 by (auto using id_in, col_ranged).
        rewrite (map_ext _ (fun x => x) gf_id), map_id in A2.
        apply (proj1 (NoDup_nth cols []) (gcol_nodup _ _ _ _ GC)); auto. apply col_unique; auto; apply nth_In; assumption.
      + right. exists g. split; [|exact Hg]. apply colperm_iff; [rewrite Et; right; exact Hg|exact M]. }
  destruct (unique_head l (seq 0 n)) as (t' & Eu & _ & Hin).
  - left. reflexivity.
  - intros y Hy. apply Hl in Hy as (g & Hg & M). apply lex_le_compare. apply sorted_lex_least; [apply seq_le_SS|].
    apply Permutation_sym, (moves_perm g); assumption.
  - unfold D, discover_columns_symmetries. fold n. fold l. rewrite Eu. cbn [tl]. rewrite Hin, Hl. tauto.
Qed.
Lemma D_id_spec pi : (pi = id_perm n \/ In pi D) <-> exists g, In g syms /\ moves_columns nc cols g pi.
Proof.
  rewrite D_spec. unfold id_perm. split.
  - intros [->|[_ H]]; [|exact H]. exists (seq 0 L). split; [apply id_in|apply moves_id].
  - intros H. destruct (list_eq_dec Nat.eq_dec pi (seq 0 n)) as [E|E]; [left; exact E|right; auto].
Qed.
Theorem columns_group : group_with_identity n D.
Proof.
  split; [|split].
  - intros pi H. apply D_id_spec in H as (g & Hg & M). apply (moves_perm g); assumption.
  - intros p q Hp Hq. apply D_id_spec in Hp as (g & Hg & M), Hq as (h & Hh & M'). apply D_id_spec.
    exists (compose g h). split; [apply (os_comp _ _ _ _ OS); assumption|apply moves_comp; assumption].
  - intros p Hp. apply D_id_spec in Hp as (g & Hg & M). destruct (moves_inverse g p Hg M) as (h & rho & Hh & M' & E).
    exists rho. split; [|exact E]. apply D_id_spec. eauto.
Qed.

(** entries of the moment matrix *)
Lemma entry_moved g pi i j : In g syms -> moves_columns nc cols g pi -> i < n -> j < n ->
  proj_eq nc ortho (map (gf g) (entry cols i j)) (entry cols (nth i pi 0) (nth j pi 0)).
Proof.
  intros Hg [_ Hp] Hi Hj. destruct (Hp i Hi) as [_ A], (Hp j Hj) as [_ B]. rewrite apply_gf in A, B by (auto using col_ranged).
  unfold entry. rewrite map_app, map_rev. apply (ce_pe nc ortho). eapply ce_trans.
  - apply ce_app_r. apply (ce_rev nc nc_sym), A.
  - apply ce_app_l, B.
Qed.
Lemma sm_trans u v w : same_moment nc ortho u v -> same_moment nc ortho v w -> same_moment nc ortho u w.
Proof.
  intros [A|A] [B|B].
  - left. eapply pe_trans; eassumption.
  - right. eapply pe_trans; eassumption.
  - right. eapply pe_trans; [exact A|]. apply (pe_rev nc ortho G), B.
  - left. eapply pe_trans; [exact A|]. apply (pe_rev nc ortho G) in B. rewrite rev_involutive in B. exact B.
Qed.
Lemma sm_zero u v : same_moment nc ortho u v -> is_zero_product nc ortho u -> is_zero_product nc ortho v.
Proof.
  unfold is_zero_product. intros [A|A] Z.
  - eapply pe_trans; [apply pe_sym, A|exact Z].
  - assert (Q : proj_eq nc ortho (rev v) [0]) by (eapply pe_trans; [apply pe_sym, A|exact Z]).
    apply (pe_rev nc ortho G) in Q. rewrite rev_involutive in Q. exact Q.
Qed.
Lemma zero_moved g w : In g syms -> (is_zero_product nc ortho (map (gf g) w) <-> is_zero_product nc ortho w).
Proof.
  intros Hg. unfold is_zero_product. assert (Q : forall h u, In h syms -> proj_eq nc ortho u [0] -> proj_eq nc ortho (map (gf h) u) [0]).
  { intros h u Hh H. apply (pe_gf h) in H; [|exact Hh]. cbn [map] in H. rewrite (gf_zero h Hh) in H. exact H. }
  split; [|apply Q, Hg]. intros H. destruct (inverse g Hg) as (h & Hh & I). apply (Q h) in H; [|exact Hh]. rewrite I in H. exact H.
Qed.

Section WithMatrix.
Variable (M : matrix) (Dct : dict).
Hypothesis HM0 : forall i j, i < n -> j < n -> (M i j = 0 <-> is_zero_product nc ortho (entry cols i j)).
Hypothesis HM : forall i j i' j', i < n -> j < n -> i' < n -> j' < n -> M i j <> 0 -> M i' j' <> 0 ->
     (M i j = M i' j' <-> same_moment nc ortho (entry cols i j) (entry cols i' j')).
Lemma M_eq i j i' j' : i < n -> j < n -> i' < n -> j' < n ->
  (M i j = M i' j' <-> (is_zero_product nc ortho (entry cols i j) /\ is_zero_product nc ortho (entry cols i' j')) \/ same_moment nc ortho (entry cols i j) (entry cols i' j')).
Proof.
  intros Hi Hj Hi' Hj'. rewrite <- !HM0 by assumption. destruct (Nat.eq_dec (M i j) 0) as [Z|Z], (Nat.eq_dec (M i' j') 0) as [Z'|Z'].
  - rewrite Z, Z'. split; [left; auto|reflexivity].
  - rewrite Z. split; [congruence|]. intros [[_ Q]|Q]; [congruence|]. exfalso. apply Z'. apply HM0; auto. eapply sm_zero; [exact Q|]. apply HM0; assumption.
  - rewrite Z'. split; [congruence|]. intros [[Q _]|Q]; [congruence|]. exfalso. apply Z. apply HM0; auto. eapply sm_zero; [apply (same_moment_sym nc ortho G), Q|]. apply HM0; assumption.
  - rewrite HM by assumption. tauto.
Qed.
Theorem columns_act : acts_on_entries n M D.
Proof.
  intros pi i j i' j' Hpi Hi Hj Hi' Hj' E. apply D_spec in Hpi as (_ & g & Hg & Mv).
  assert (R : forall k, k < n -> nth k pi 0 < n) by (intros; apply Mv; assumption).
  apply M_eq in E; auto. apply M_eq; auto.
  assert (Q : forall a b, a < n -> b < n -> same_moment nc ortho (map (gf g) (entry cols a b)) (entry cols (nth a pi 0) (nth b pi 0))) by (intros; left; apply entry_moved; assumption).
  destruct E as [[E1 E2]|E].
  - left. split; eapply sm_zero; try (apply Q; eassumption); apply zero_moved; assumption.
  - right. eapply sm_trans; [apply (same_moment_sym nc ortho G), Q; assumption|]. eapply sm_trans; [apply sm_gf; [exact Hg|exact E]|apply Q; assumption].
Qed.
Lemma entry_ranged i j : ranged (entry cols i j).
Proof. intros x Hx. unfold entry in Hx. apply in_app_iff in Hx as [Hx|Hx]; [apply in_rev in Hx|]; eapply col_ranged; eassumption. Qed.
Lemma orbit_char i j i' j' : i < n -> j < n -> i' < n -> j' < n ->
  (same_orbit n M D (M i j) (M i' j') <->
   (is_zero_product nc ortho (entry cols i j) /\ is_zero_product nc ortho (entry cols i' j')) \/
   exists g, In g syms /\ keeps_columns nc cols g /\ same_moment nc ortho (apply_lexsym g (entry cols i j)) (entry cols i' j')).
Proof.
  intros Hi Hj Hi' Hj'. unfold same_orbit. split.
  - intros (pi & a & b & Hpi & Ha & Hb & E1 & E2). apply D_id_spec in Hpi as (g & Hg & Mv).
    assert (R : forall k, k < n -> nth k pi 0 < n) by (intros; apply Mv; assumption).
    apply M_eq in E1; auto. apply M_eq in E2; auto.
    assert (Q : same_moment nc ortho (map (gf g) (entry cols a b)) (entry cols (nth a pi 0) (nth b pi 0))) by (left; apply entry_moved; assumption).
    destruct E1 as [[Z1 Z2]|E1].
    + left. split; [exact Z2|]. destruct E2 as [[_ Z]|E2]; [exact Z|]. eapply sm_zero; [exact E2|]. eapply sm_zero; [exact Q|]. apply zero_moved; assumption.
    + destruct E2 as [[Z1 Z2]|E2].
      * left. split; [|exact Z2]. eapply sm_zero; [exact E1|]. apply (zero_moved g _ Hg). eapply sm_zero; [apply (same_moment_sym nc ortho G), Q|exact Z1].
      * right. exists g. split; [exact Hg|]. split; [eapply moves_keeps; exact Mv|]. rewrite apply_gf by (auto using entry_ranged).
        eapply sm_trans; [|exact E2]. eapply sm_trans; [|exact Q]. apply sm_gf; [exact Hg|]. apply (same_moment_sym nc ortho G), E1.
  - intros [[Z1 Z2]|(g & Hg & K & S1)].
    + exists (id_perm n), i, j. split; [left; reflexivity|]. unfold id_perm. rewrite !seq_nth by assumption. cbn [Nat.add]. repeat split; auto. apply M_eq; auto.
    + destruct (colperm_exists g Hg K) as (pi & Mv). exists pi, i, j. split; [apply D_id_spec; eauto|]. repeat split; auto.
      assert (R : forall k, k < n -> nth k pi 0 < n) by (intros; apply Mv; assumption).
      apply M_eq; auto. right. rewrite apply_gf in S1 by (auto using entry_ranged). eapply sm_trans; [|exact S1]. apply (same_moment_sym nc ortho G). left. apply entry_moved; assumption.
Qed.
End WithMatrix.
End Cols.
