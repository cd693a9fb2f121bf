(** Proofs about the construction of a scenario from a DAG. *)
From Coq Require Import List Arith Bool Ascii String Lia NArith Permutation Sorted.
From Verif Require Import ScenarioModel ScenarioSpec ScenarioProofs ColsModel ColsProofs3 DagModel DagSpec.
Import ListNotations.
Open Scope string_scope. Open Scope nat_scope. Open Scope list_scope.

Lemma inb_In s l : inb s l = true <-> In s l.
Proof. unfold inb. rewrite existsb_exists. split; [intros (x & Hx & E); apply String.eqb_eq in E; subst; exact Hx|intros H; exists s; split; [exact H|apply String.eqb_refl]]. Qed.
Lemma inb_false s l : inb s l = false <-> ~ In s l.
Proof. rewrite <- inb_In. destruct (inb s l); split; congruence. Qed.
Lemma subset_spec l1 l2 : subset l1 l2 = true <-> forall s, In s l1 -> In s l2.
Proof. unfold subset. rewrite forallb_forall. split; intros H s Hs; specialize (H s Hs); apply inb_In; exact H. Qed.
Lemma party_dec a s : {is_party a s} + {~ is_party a s}.
Proof.
  destruct (inb s (List.concat (map snd (a_dag a)))) eqn:E1.
  - destruct (inb s (a_classical_latents a)) eqn:E2; [right; intros [_ H]; apply H; left; apply inb_In, E2|].
    destruct (inb s (a_nonclassical_latents a)) eqn:E3; [right; intros [_ H]; apply H; right; apply inb_In, E3|].
    left. split.
    + apply inb_In in E1. apply in_concat in E1 as (c & Hc & Hs). apply in_map_iff in Hc as ([u c'] & <- & Hc). exists u, c'. auto.
    + apply inb_false in E2, E3. intros [H|H]; contradiction.
  - right. intros [(u & c & Hc & Hs) _]. apply inb_false in E1. apply E1. apply in_concat. exists c. split; [apply in_map_iff; exists (u, c); auto|exact Hs].
Qed.
Lemma latent_dec a s : {is_latent a s} + {~ is_latent a s}.
Proof. unfold is_latent. destruct (in_dec string_dec s (a_classical_latents a)), (in_dec string_dec s (a_nonclassical_latents a)); [left|left|left|right]; tauto. Qed.

(** order of texts *)
Lemma ascii_ltb_N c d : Ascii.compare c d = N.compare (N_of_ascii c) (N_of_ascii d).
Proof. reflexivity. Qed.
Lemma string_lt_trans a : forall b c, String.compare a b = Lt -> String.compare b c = Lt -> String.compare a c = Lt.
Proof.
  induction a as [|x a IH]; intros [|y b] [|z c] H1 H2; cbn [String.compare] in *; try discriminate; try reflexivity.
  rewrite ascii_ltb_N in *. destruct (N.compare_spec (N_of_ascii x) (N_of_ascii y)) as [E1|E1|E1]; try discriminate; destruct (N.compare_spec (N_of_ascii y) (N_of_ascii z)) as [E2|E2|E2]; try discriminate.
  - rewrite E1, E2, N.compare_refl. exact (IH b c H1 H2).
  - rewrite E1. apply N.compare_lt_iff in E2. rewrite E2. reflexivity.
  - rewrite <- E2. apply N.compare_lt_iff in E1. rewrite E1. reflexivity.
  - assert (E : N.compare (N_of_ascii x) (N_of_ascii z) = Lt) by (apply N.compare_lt_iff; lia). rewrite E. reflexivity.
Qed.
Definition slt (a b : string) : Prop := String.compare a b = Lt.
Lemma ltb_slt a b : String.ltb a b = true <-> slt a b.
Proof. unfold String.ltb, slt. destruct (String.compare a b); split; congruence. Qed.
Lemma sorted_names l : NoDup l -> StronglySorted slt (py_sorted String.ltb l).
Proof.
  intros ND. induction ND as [|x l Hx ND IH]; cbn [py_sorted]; [constructor|].
  assert (HP := py_sorted_perm String.ltb l). assert (Hx' : ~ In x (py_sorted String.ltb l)) by (intros C; apply Hx, (Permutation_in _ (Permutation_sym HP) C)).
  clear HP Hx ND. revert Hx' IH. generalize (py_sorted String.ltb l). clear l. intros l Hx IH.
  induction IH as [|y l SS IHl F]; cbn [sort_insert]; [repeat constructor|]. destruct (String.ltb y x) eqn:E.
  - apply ltb_slt in E. constructor; [apply IHl; intros C; apply Hx; right; exact C|]. apply Forall_forall. intros z Hz.
    apply (Permutation_in _ (Permutation_sym (sort_insert_perm String.ltb x l))) in Hz as [<-|Hz]; [exact E|]. rewrite Forall_forall in F. exact (F z Hz).
  - assert (E' : slt x y).
    { unfold String.ltb in E. unfold slt. rewrite String.compare_antisym. destruct (String.compare y x) eqn:C; cbn; [|discriminate|reflexivity]. apply String.compare_eq_iff in C. subst. exfalso. apply Hx. left. reflexivity. }
    constructor; [constructor; assumption|]. constructor; [exact E'|]. rewrite Forall_forall in *. intros z Hz. exact (string_lt_trans _ _ _ E' (F z Hz)).
Qed.

(** positions *)
Lemma last_position_some s l : forall i j, last_position s l i = Some j -> i <= j /\ nth_error l (j - i) = Some s /\ forall k, nth_error l k = Some s -> k + i <= j.
Proof.
  induction l as [|t l IH]; intros i j H; [discriminate|]. cbn [last_position] in H. destruct (last_position s l (S i)) as [j'|] eqn:E.
  - assert (j' = j) by congruence. subst j'. destruct (IH _ _ E) as (A & B & C). split; [lia|]. split.
    + replace (j - i) with (S (j - S i)) by lia. exact B.
    + intros [|k] Hk; [lia|]. cbn in Hk. specialize (C k Hk). lia.
  - destruct (String.eqb_spec s t) as [->|N]; [|discriminate]. assert (i = j) by congruence. subst j. split; [lia|]. replace (i - i) with 0 by lia. split; [reflexivity|].
    intros [|k] Hk; [lia|]. cbn in Hk. exfalso. clear IH H. revert i k E Hk. induction l as [|u l IH]; intros i k E Hk; [destruct k; discriminate|].
    cbn [last_position] in E. destruct (last_position t l (S (S i))) eqn:E2; [discriminate|]. destruct k as [|k]; cbn in Hk.
    + assert (u = t) by congruence. subst u. rewrite String.eqb_refl in E. discriminate.
    + exact (IH (S i) k E2 Hk).
Qed.
Lemma last_position_none s l : forall i, last_position s l i = None -> ~ In s l.
Proof.
  induction l as [|t l IH]; intros i H; [intros []|]. cbn [last_position] in H. destruct (last_position s l (S i)) eqn:E; [discriminate|].
  destruct (String.eqb_spec s t) as [->|N]; [discriminate|]. intros [C|C]; [congruence|exact (IH _ E C)].
Qed.

Section Dag.
Variable a : problem_args.
Hypothesis DI : is_dict a.
Hypothesis NE : a_dag a <> [].
Notation n := (List.length (a_outcomes a)).

Lemma full_dag_eq names : full_dag a names = a_dag a.
Proof. unfold full_dag. destruct (a_dag a) eqn:E; [contradiction|reflexivity]. Qed.
Lemma children_spec u c : children_of (a_dag a) u = Some c <-> In (u, c) (a_dag a).
Proof.
  unfold is_dict in DI. revert DI. clear. induction (a_dag a) as [|[v d] l IH]; intros ND; cbn [children_of]; [split; [discriminate|intros []]|].
  cbn [map fst] in ND. inversion ND as [|? ? N1 N2]; subst. destruct (String.eqb_spec u v) as [->|N].
  - split; [intros E; assert (d = c) by congruence; subst; left; reflexivity|]. intros [E|E]; [congruence|]. exfalso. apply N1. apply in_map_iff. exists (v, c). auto.
  - rewrite (IH N2). split; [right; assumption|]. intros [E|E]; [congruence|exact E].
Qed.
Lemma edge_children u v : edge a u v <-> exists c, children_of (a_dag a) u = Some c /\ In v c.
Proof. unfold edge. split; intros (c & H1 & H2); exists c; (split; [apply children_spec, H1|exact H2]). Qed.
Lemma in_implicit s : In s (implicit_names a) <-> is_party a s.
Proof.
  unfold implicit_names. rewrite nodup_In, filter_In, in_concat. unfold is_party, latents_of. split.
  - intros ((c & Hc & Hs) & L). apply in_map_iff in Hc as ([u c'] & <- & Hc). split; [exists u, c'; auto|]. apply negb_true_iff, inb_false in L. intros [H|H]; apply L, in_or_app; auto.
  - intros ((u & c & Hc & Hs) & L). split; [exists c; split; [apply in_map_iff; exists (u, c); auto|exact Hs]|]. apply negb_true_iff, inb_false. intros H. apply L. apply in_app_or in H. exact H.
Qed.
Definition names_ok (names : list string) : Prop := forall s, In s names <-> is_party a s.
Lemma order_check o : subset (implicit_names a) o && subset o (implicit_names a) = true <-> names_ok o.
Proof.
  rewrite andb_true_iff, !subset_spec. unfold names_ok. split.
  - intros [H1 H2] s. split; [intros H; apply in_implicit, H2, H|intros H; apply H1, in_implicit, H].
  - intros H. split; intros s Hs; [apply H, in_implicit, Hs|apply in_implicit, H, Hs].
Qed.
Lemma names_spec names : names_of_args a = Some names <-> List.length (implicit_names a) = n /\
  ((a_order a <> [] /\ names_ok (a_order a) /\ names = a_order a) \/
   ((a_order a = [] \/ ~ names_ok (a_order a)) /\ names = py_sorted String.ltb (implicit_names a))).
Proof.
  unfold names_of_args. destruct (a_dag a) as [|e d] eqn:Ed; [contradiction|]. rewrite <- Ed in NE. clear e d Ed.
  destruct (Nat.eqb_spec (List.length (implicit_names a)) n) as [El|El]; cbn [negb]; [|split; [discriminate|intros [H _]; contradiction]].
  destruct (a_order a) as [|o1 o] eqn:Eo.
  - split; [intros E; split; [exact El|right; split; [left; reflexivity|congruence]]|]. intros (_ & [(H & _)|(_ & ->)]); [contradiction|reflexivity].
  - destruct (subset (implicit_names a) (o1 :: o) && subset (o1 :: o) (implicit_names a)) eqn:E.
    + apply order_check in E. split; [intros H; split; [exact El|left; split; [discriminate|split; [exact E|congruence]]]|]. intros (_ & [(_ & _ & ->)|([H|H] & _)]); [reflexivity|discriminate|contradiction].
    + assert (N : ~ names_ok (o1 :: o)) by (intros H; apply order_check in H; congruence).
      split; [intros H; split; [exact El|right; split; [right; exact N|congruence]]|]. intros (_ & [(_ & H & _)|(_ & ->)]); [contradiction|reflexivity].
Qed.
Lemma sorted_ok : names_ok (py_sorted String.ltb (implicit_names a)).
Proof.
  intros s. rewrite <- in_implicit. assert (P := py_sorted_perm String.ltb (implicit_names a)). split; intros H; [apply (Permutation_in _ (Permutation_sym P) H)|apply (Permutation_in _ P H)].
Qed.
Lemma implicit_NoDup : NoDup (implicit_names a).
Proof. apply NoDup_nodup. Qed.
Lemma sorted_NoDup : NoDup (py_sorted String.ltb (implicit_names a)).
Proof. apply (Permutation_NoDup (py_sorted_perm String.ltb _)), implicit_NoDup. Qed.
Lemma ok_length names : names_ok names -> NoDup names -> List.length names = List.length (implicit_names a).
Proof.
  intros H ND. apply Nat.le_antisymm; apply NoDup_incl_length; try assumption; try apply implicit_NoDup; intros s Hs; [apply in_implicit, H, Hs|apply H, in_implicit, Hs].
Qed.

Section Names.
Variable names : list string.
Hypothesis OK : names_ok names.

Lemma sources_spec u : In u (actual_sources a names) <-> is_source a u.
Proof.
  unfold actual_sources, is_source, latents_of. rewrite full_dag_eq, filter_In, andb_true_iff, !negb_true_iff, !inb_false. rewrite (OK u), in_app_iff. unfold is_latent. tauto.
Qed.
Lemma sources_NoDup : NoDup (actual_sources a names).
Proof. unfold actual_sources. rewrite full_dag_eq. apply NoDup_filter, DI. Qed.
Lemma child_cases u v : edge a u v -> is_party a v \/ is_latent a v.
Proof. intros E. destruct (latent_dec a v) as [H|H]; [right; exact H|left]. split; [exists u; exact E|exact H]. Qed.

(** classical sources *)
Lemma flags_some cl : classical_flags a names = Some cl -> (forall u, cl u = true <-> is_classical a u) /\
  match a_classical a with CText b => b = true | CNone => True | CList l => forall u, In u l -> is_source a u end.
Proof.
  unfold classical_flags, is_classical. destruct (a_classical a) as [[|]| |l]; intros H.
  - assert (cl = fun _ => true) by congruence. subst cl. split; [tauto|reflexivity].
  - discriminate.
  - assert (cl = fun _ => false) by congruence. subst cl. split; [|exact I]. intros u. split; [discriminate|tauto].
  - destruct (subset l (actual_sources a names)) eqn:E; [|discriminate]. assert (cl = fun u => inb u l) by congruence. subst cl. split; [intros u; apply inb_In|].
    intros u Hu. apply sources_spec. exact (proj1 (subset_spec l (actual_sources a names)) E u Hu).
Qed.
Lemma flags_total : match a_classical a with CText b => b = true | CNone => True | CList l => forall u, In u l -> is_source a u end -> exists cl, classical_flags a names = Some cl.
Proof.
  unfold classical_flags. destruct (a_classical a) as [[|]| |l]; intros H; try (eexists; reflexivity); [discriminate|].
  assert (E : subset l (actual_sources a names) = true) by (apply subset_spec; intros u Hu; apply sources_spec, H, Hu). rewrite E. eexists. reflexivity.
Qed.
Lemma latent_ok_spec cl l : (forall u, cl u = true <-> is_classical a u) ->
  (latent_ok a names cl l = true <-> (forall u, edge a u l -> is_source a u) /\ exists u, edge a u l /\ ~ is_classical a u).
Proof.
  intros HC. unfold latent_ok. rewrite full_dag_eq. set (ps := map fst (filter (fun uc => inb l (snd uc)) (a_dag a))).
  assert (P : forall u, In u ps <-> edge a u l).
  { intros u. unfold ps, edge. rewrite in_map_iff. split.
    - intros ([u' c] & <- & H). apply filter_In in H as [H1 H2]. exists c. split; [exact H1|apply inb_In, H2].
    - intros (c & H1 & H2). exists (u, c). split; [reflexivity|]. apply filter_In. split; [exact H1|apply inb_In, H2]. }
  rewrite andb_true_iff, subset_spec, negb_true_iff. split.
  - intros [H1 H2]. split; [intros u Hu; apply sources_spec, H1, P, Hu|]. assert (H3 : existsb (fun u => negb (cl u)) ps = true).
    { clear - H2. induction ps as [|u ps IH]; [discriminate|]. cbn in *. destruct (cl u); cbn in *; [apply IH, H2|reflexivity]. }
    apply existsb_exists in H3 as (u & Hu & Hc). exists u. split; [apply P, Hu|]. intros C. apply HC in C. rewrite C in Hc. discriminate.
  - intros [H1 (u & Hu & Hc)]. split; [intros v Hv; apply sources_spec, H1, P, Hv|]. apply not_true_is_false. intros C. rewrite forallb_forall in C. apply Hc, HC, C, P, Hu.
Qed.

(** with different names in the right number *)
Lemma every_index_NoDup : List.length (implicit_names a) = n -> (forall p, p < n -> exists s, party_index a names s = Some p) -> NoDup names /\ List.length names = n.
Proof.
  intros Ln H.
  assert (Q : forall p, p < n -> exists s, nth_error names p = Some s /\ forall k, nth_error names k = Some s -> k <= p).
  { intros p Hp. destruct (H p Hp) as (s & Es). unfold party_index in Es. destruct (last_position s names 0) as [i|] eqn:E; [|discriminate].
    destruct (Nat.ltb_spec i n); [|discriminate]. assert (i = p) by congruence. subst i. destruct (last_position_some _ _ _ _ E) as (_ & A & B). replace (p - 0) with p in A by lia.
    exists s. split; [exact A|]. intros k Hk. specialize (B k Hk). lia. }
  assert (Lge : n <= List.length names).
  { destruct n as [|m] eqn:En; [lia|]. destruct (Q m ltac:(lia)) as (s & A & _). assert (m < List.length names) by (apply nth_error_Some; congruence). lia. }
  set (f := firstn n names).
  assert (Lf : List.length f = n) by (unfold f; rewrite firstn_length; lia).
  assert (Ef : forall p, p < n -> nth_error f p = nth_error names p).
  { intros p Hp. unfold f. rewrite <- (firstn_skipn n names) at 2. symmetry. apply nth_error_app1. fold f. lia. }
  assert (NDf : NoDup f).
  { apply NoDup_nth_error. intros i j Hi E. rewrite Lf in Hi. assert (Hj : j < n). { rewrite <- Lf. apply nth_error_Some. rewrite <- E. apply nth_error_Some. lia. }
    rewrite !Ef in E by assumption. destruct (Q i Hi) as (s & A & B). destruct (Q j Hj) as (t & A' & B'). assert (s = t) by congruence. subst t.
    specialize (B j A'). specialize (B' i A). lia. }
  assert (Inc : incl (implicit_names a) f).
  { apply NoDup_length_incl; [exact NDf|lia|]. intros s Hs. apply in_implicit, OK. unfold f in Hs. rewrite <- (firstn_skipn n names). apply in_or_app. left. exact Hs. }
  assert (El : List.length names = n).
  { destruct (Nat.eq_dec (List.length names) n) as [E|N]; [exact E|]. exfalso.
    assert (exists t, nth_error names n = Some t) as (t & Ht). { destruct (nth_error names n) eqn:E; [eauto|]. apply nth_error_None in E. lia. }
    assert (Hin : In t f) by (apply Inc, in_implicit, OK; eapply nth_error_In; exact Ht).
    apply In_nth_error in Hin as (p & Hp). assert (p < n) by (rewrite <- Lf; apply nth_error_Some; congruence). rewrite Ef in Hp by assumption.
    destruct (Q p ltac:(assumption)) as (s & A & B). assert (s = t) by congruence. subst s. specialize (B n Ht). lia. }
  split; [|exact El]. replace names with f; [exact NDf|]. unfold f. apply firstn_all2. lia.
Qed.

Section Good.
Hypothesis ND : NoDup names.
Hypothesis Ln : List.length names = n.
Lemma index_spec s p : party_index a names s = Some p <-> nth_error names p = Some s.
Proof.
  unfold party_index. destruct (last_position s names 0) as [i|] eqn:E.
  - destruct (last_position_some _ _ _ _ E) as (_ & A & _). replace (i - 0) with i in A by lia. assert (i < n) by (rewrite <- Ln; apply nth_error_Some; congruence).
    destruct (Nat.ltb_spec i n); [|lia]. split; [intros H1; assert (i = p) by congruence; subst; exact A|]. intros H1. f_equal. apply (proj1 (NoDup_nth_error names) ND); [apply nth_error_Some; congruence|congruence].
  - apply last_position_none in E. split; [discriminate|]. intros H. apply nth_error_In in H. contradiction.
Qed.
Lemma index_total s : is_party a s -> exists p, party_index a names s = Some p.
Proof. intros H. apply OK in H. apply In_nth_error in H as (p & Hp). exists p. apply index_spec, Hp. Qed.
Lemma index_party s p : party_index a names s = Some p -> is_party a s.
Proof. intros H. apply index_spec, nth_error_In in H. apply OK, H. Qed.
Lemma indices_spec l js : map_opt (party_index a names) l = Some js -> forall p, In p js <-> exists s, In s l /\ nth_error names p = Some s.
Proof.
  intros H p. apply map_opt_some in H. revert p. induction H as [|s j l js E _ IH]; intros p; [split; [intros []|intros (s & [] & _)]|]. cbn [In]. rewrite IH. apply index_spec in E. split.
  - intros [<-|(t & Ht & Et)]; [exists s; auto|exists t; auto].
  - intros (t & [<-|Ht] & Et); [left|right; exists t; auto]. apply index_spec in Et. apply index_spec in E. congruence.
Qed.
Lemma indices_total l : (forall s, In s l -> is_party a s) -> exists js, map_opt (party_index a names) l = Some js.
Proof. intros H. apply ColumnProofs2.map_opt_total. intros s Hs. apply index_total, H, Hs. Qed.
Lemma indices_party l js : map_opt (party_index a names) l = Some js -> forall s, In s l -> is_party a s.
Proof. intros H s Hs. apply map_opt_some in H. induction H as [|t j l js E _ IH]; [destruct Hs|]. destruct Hs as [<-|Hs]; [exact (index_party _ _ E)|exact (IH Hs)]. Qed.

(** observed parents *)
Lemma adjacency_total : (forall u v, is_party a u -> edge a u v -> is_party a v) -> exists adj, adjacency a names = Some adj.
Proof.
  intros H. unfold adjacency. rewrite full_dag_eq.
  match goal with |- exists adj, option_map _ (map_opt ?f ?l) = Some adj => destruct (ColumnProofs2.map_opt_total f l) as (r & Er) end.
  - intros [u c] Hu. apply filter_In in Hu as [Hu Hn]. cbn [fst] in Hn. apply inb_In, OK in Hn. cbn [fst snd].
    destruct (index_total u Hn) as (i & ->). destruct (indices_total c) as (js & ->); [intros v Hv; apply (H u v Hn); exists c; auto|]. eexists. reflexivity.
  - rewrite Er. eexists. reflexivity.
Qed.
Lemma adjacency_some adj : adjacency a names = Some adj -> (forall u v, is_party a u -> edge a u v -> is_party a v) /\
  forall i j, In (i, j) adj <-> exists u v, nth_error names i = Some u /\ nth_error names j = Some v /\ edge a u v.
Proof.
  unfold adjacency. rewrite full_dag_eq. match goal with |- option_map _ (map_opt ?f ?l) = Some adj -> _ => set (ff := f); set (ll := l) end.
  destruct (map_opt ff ll) as [r|] eqn:E; [|discriminate]. cbn [option_map]. intros H. assert (adj = List.concat r) by congruence. subst adj. clear H.
  apply map_opt_some in E.
  assert (K : forall u c, In (u, c) ll <-> In (u, c) (a_dag a) /\ is_party a u).
  { intros u c. unfold ll. rewrite filter_In. cbn [fst]. rewrite inb_In, (OK u). reflexivity. }
  assert (FF : forall u c l, ff (u, c) = Some l <-> exists i js, nth_error names i = Some u /\ map_opt (party_index a names) c = Some js /\ l = map (fun j => (i, j)) js).
  { intros u c l. unfold ff. cbn [fst snd]. split.
    - destruct (party_index a names u) as [i|] eqn:Ei; [|discriminate]. destruct (map_opt (party_index a names) c) as [js|]; [|discriminate]. intros Q. exists i, js. split; [apply index_spec, Ei|]. split; [reflexivity|congruence].
    - intros (i & js & Hi & -> & ->). apply index_spec in Hi. rewrite Hi. reflexivity. }
  assert (A : forall u c, In (u, c) ll -> exists l, ff (u, c) = Some l /\ In l r).
  { clear - E. induction E as [|x y l r Hx _ IH]; [intros u c []|]. intros u c [->|H]; [exists y; split; [exact Hx|left; reflexivity]|]. destruct (IH u c H) as (l' & H1 & H2). exists l'. split; [exact H1|right; exact H2]. }
  assert (B : forall l, In l r -> exists u c, In (u, c) ll /\ ff (u, c) = Some l).
  { clear - E. induction E as [|x y l r Hx _ IH]; [intros l []|]. intros l' [<-|H]; [destruct x as [u c]; exists u, c; split; [left; reflexivity|exact Hx]|]. destruct (IH l' H) as (u & c & H1 & H2). exists u, c. split; [right; exact H1|exact H2]. }
  split.
  - intros u v Hu (c & Hc & Hv). destruct (A u c) as (l & Hl & _); [apply K; auto|]. apply FF in Hl as (i & js & _ & Ej & _). exact (indices_party _ _ Ej v Hv).
  - intros i j. rewrite in_concat. split.
    + intros (l & Hl & Hi). destruct (B l Hl) as (u & c & Hu & Q). apply FF in Q as (i' & js & Hi' & Ej & ->). apply in_map_iff in Hi as (j' & E' & Hj'). assert (i' = i /\ j' = j) as [-> ->] by (split; congruence).
      apply (indices_spec _ _ Ej) in Hj' as (v & Hv & Ev). exists u, v. split; [exact Hi'|]. split; [exact Ev|]. apply K in Hu as [Hu _]. exists c. auto.
    + intros (u & v & Hi & Hj & c & Hc & Hv). destruct (A u c) as (l & Q & Hl); [apply K; split; [exact Hc|apply OK; eapply nth_error_In; exact Hi]|]. exists l. split; [exact Hl|].
      apply FF in Q as (i' & js & Hi' & Ej & ->). assert (i' = i) by (apply index_spec in Hi, Hi'; congruence). subst i'. apply in_map_iff. exists j. split; [reflexivity|]. apply (indices_spec _ _ Ej). exists v. auto.
Qed.
Lemma parents_nth adj p : p < n -> nth p (parents_of n adj) [] = filter (fun i => has_edge adj i p) (seq 0 n).
Proof.
  intros Hp. unfold parents_of. set (f := fun j => filter (fun i => has_edge adj i j) (seq 0 n)). rewrite (nth_indep _ [] (f n)) by (rewrite map_length, seq_length; exact Hp). rewrite map_nth, seq_nth by exact Hp. reflexivity.
Qed.
Lemma has_edge_spec adj i j : has_edge adj i j = true <-> In (i, j) adj.
Proof.
  unfold has_edge. rewrite existsb_exists. split.
  - intros ([x y] & H & E). cbn [fst snd] in E. apply andb_true_iff in E as [E1 E2]. apply Nat.eqb_eq in E1, E2. subst. exact H.
  - intros H. exists (i, j). split; [exact H|]. cbn [fst snd]. rewrite !Nat.eqb_refl. reflexivity.
Qed.
Lemma filter_seq_sorted f b m : StronglySorted lt (filter f (seq b m)).
Proof.
  revert b. induction m as [|m IH]; intros b; cbn [seq filter]; [constructor|]. destruct (f b); [|apply IH]. constructor; [apply IH|].
  apply Forall_forall. intros x Hx. apply filter_In in Hx as [Hx _]. apply in_seq in Hx. lia.
Qed.
Lemma sorted_nth l : StronglySorted lt l -> forall i j, i < j < List.length l -> nth i l 0 < nth j l 0.
Proof.
  induction 1 as [|x l HS IH F]; intros i j H; [cbn in H; lia|]. cbn [List.length] in H. destruct j as [|j]; [lia|]. cbn [nth]. destruct i as [|i].
  - rewrite Forall_forall in F. apply F, nth_In. lia.
  - apply IH. lia.
Qed.

(** sources *)
Lemma latent_some l lt' : latent_of a names l = Some lt' -> In l (map fst (a_dag a)) /\ (forall v, edge a l v -> is_party a v) /\
  l_nonclassical lt' = inb l (a_nonclassical_latents a) /\ forall p, In p (l_desc lt') <-> exists v, nth_error names p = Some v /\ edge a l v.
Proof.
  unfold latent_of. rewrite full_dag_eq. destruct (children_of (a_dag a) l) as [c|] eqn:E; [|discriminate].
  destruct (map_opt (party_index a names) c) as [js|] eqn:Ej; [|discriminate]. cbn [option_map]. intros H. 
  assert (lt' = {| l_nonclassical := inb l (a_nonclassical_latents a); l_desc := js |}) by congruence. subst lt'. cbn [l_nonclassical l_desc].
  assert (Ed : forall v, edge a l v <-> In v c).
  { intros v. rewrite edge_children. split; [intros (c' & E' & Hv); assert (c' = c) by congruence; subst; exact Hv|intros Hv; exists c; auto]. }
  split; [apply children_spec in E; apply in_map_iff; exists (l, c); auto|]. split; [intros v Hv; apply Ed in Hv; exact (indices_party _ _ Ej v Hv)|]. split; [reflexivity|].
  intros p. rewrite (indices_spec _ _ Ej). split; [intros (v & H1 & H2); exists v; split; [exact H2|apply Ed, H1]|intros (v & H1 & H2); exists v; split; [apply Ed, H2|exact H1]].
Qed.
Lemma latent_total l : In l (map fst (a_dag a)) -> (forall v, edge a l v -> is_party a v) -> exists lt', latent_of a names l = Some lt'.
Proof.
  intros H1 H2. unfold latent_of. rewrite full_dag_eq. apply in_map_iff in H1 as ([l' c] & E & H1). cbn in E. subst l'. assert (H1' := H1). apply children_spec in H1. rewrite H1.
  destruct (indices_total c) as (js & ->); [intros v Hv; apply H2; exists c; auto|]. eexists. reflexivity.
Qed.
Lemma source_total cl u : is_source a u -> (forall l, edge a u l -> is_latent a l -> In l (map fst (a_dag a)) /\ forall v, edge a l v -> is_party a v) -> exists s, source_of a names cl u = Some s.
Proof.
  intros (H1 & _ & _) H2. unfold source_of. rewrite full_dag_eq. apply in_map_iff in H1 as ([u' c] & E & H1). cbn in E. subst u'. assert (Ec := H1). apply children_spec in Ec. rewrite Ec.
  assert (L : forall s, In s (filter (fun s => negb (inb s names)) c) -> edge a u s /\ is_latent a s).
  { intros s Hs. apply filter_In in Hs as [Hs N]. apply negb_true_iff, inb_false in N. assert (Es : edge a u s) by (exists c; auto). split; [exact Es|]. destruct (child_cases u s Es) as [P|P]; [exfalso; apply N, OK, P|exact P]. }
  assert (SS : subset (filter (fun s => negb (inb s names)) c) (latents_of a) = true) by (apply subset_spec; intros s Hs; apply in_or_app, L, Hs). rewrite SS.
  destruct (indices_total (filter (fun s => inb s names) c)) as (js & ->); [intros s Hs; apply filter_In in Hs as [_ Hs]; apply OK, inb_In, Hs|].
  destruct (ColumnProofs2.map_opt_total (latent_of a names) (filter (fun s => negb (inb s names)) c)) as (ls & ->); [|eexists; reflexivity].
  intros s Hs. destruct (L s Hs) as [Es Ls]. apply latent_total; apply (H2 s Es Ls).
Qed.
Record source_is (cl : string -> bool) (u : string) (s : source) : Prop := {
  si_classical : s_classical s = cl u;
  si_latents_ok : forall l, edge a u l -> is_latent a l -> In l (map fst (a_dag a)) /\ forall v, edge a l v -> is_party a v;
  si_children : forall p, In p (s_children s) <-> exists v, nth_error names p = Some v /\ edge a u v;
  si_latent : forall l', In l' (s_latents s) -> exists l, is_latent a l /\ edge a u l /\ l_nonclassical l' = inb l (a_nonclassical_latents a) /\ (forall p, In p (l_desc l') <-> exists v, nth_error names p = Some v /\ edge a l v);
  si_latent' : forall l, is_latent a l -> edge a u l -> exists l', In l' (s_latents s) /\ l_nonclassical l' = inb l (a_nonclassical_latents a) /\ (forall p, In p (l_desc l') <-> exists v, nth_error names p = Some v /\ edge a l v) }.
Lemma source_some cl u s : source_of a names cl u = Some s -> source_is cl u s.
Proof.
  unfold source_of. rewrite full_dag_eq. destruct (children_of (a_dag a) u) as [c|] eqn:E; [|discriminate].
  destruct (subset _ _); [|discriminate].
  destruct (map_opt (party_index a names) (filter (fun s => inb s names) c)) as [js|] eqn:Ej; [|discriminate].
  destruct (map_opt (latent_of a names) (filter (fun s => negb (inb s names)) c)) as [ls|] eqn:El; [|discriminate]. intros H.
  assert (s = {| s_classical := cl u; s_children := js; s_latents := ls |}) by congruence. subst s. clear H.
  assert (Ed : forall v, edge a u v <-> In v c).
  { intros v. rewrite edge_children. split; [intros (c' & E' & Hv); assert (c' = c) by congruence; subst; exact Hv|intros Hv; exists c; auto]. }
  apply map_opt_some in El.
  assert (LL : forall l, In l (filter (fun s => negb (inb s names)) c) <-> is_latent a l /\ edge a u l).
  { intros l. rewrite filter_In, negb_true_iff, inb_false, <- Ed, (OK l). split.
    - intros [H1 H2]. split; [|exact H1]. destruct (child_cases u l H1) as [P|P]; [contradiction|exact P].
    - intros [H1 H2]. split; [exact H2|]. intros [_ C]. contradiction. }
  assert (F1 : forall l, In l (filter (fun s => negb (inb s names)) c) -> exists l', In l' ls /\ latent_of a names l = Some l').
  { clear - El. induction El as [|x y l r Hx _ IH]; [intros l []|]. intros l' [<-|H]; [exists y; split; [left; reflexivity|exact Hx]|]. destruct (IH l' H) as (z & H1 & H2). exists z. split; [right; exact H1|exact H2]. }
  assert (F2 : forall l', In l' ls -> exists l, In l (filter (fun s => negb (inb s names)) c) /\ latent_of a names l = Some l').
  { clear - El. induction El as [|x y l r Hx _ IH]; [intros l []|]. intros l' [<-|H]; [exists x; split; [left; reflexivity|exact Hx]|]. destruct (IH l' H) as (z & H1 & H2). exists z. split; [right; exact H1|exact H2]. }
  constructor; cbn [s_classical s_children s_latents].
  - reflexivity.
  - intros l H1 H2. destruct (F1 l) as (l' & _ & Q); [apply LL; auto|]. destruct (latent_some _ _ Q) as (Q1 & Q2 & _). auto.
  - intros p. rewrite (indices_spec _ _ Ej). split.
    + intros (v & Hv & Hp). apply filter_In in Hv as [Hv _]. exists v. split; [exact Hp|apply Ed, Hv].
    + intros (v & Hp & Hv). exists v. split; [|exact Hp]. apply filter_In. split; [apply Ed, Hv|]. apply inb_In. eapply nth_error_In. exact Hp.
  - intros l' Hl'. destruct (F2 l' Hl') as (l & Hl & Q). apply LL in Hl as [H1 H2]. destruct (latent_some _ _ Q) as (_ & _ & Q1 & Q2). exists l. auto.
  - intros l H1 H2. destruct (F1 l) as (l' & Hl' & Q); [apply LL; auto|]. destruct (latent_some _ _ Q) as (_ & _ & Q1 & Q2). exists l'. auto.
Qed.
End Good.
(** without any hypothesis on the names, what occurs in a source is an index *)
Lemma source_index cl u s p : source_of a names cl u = Some s -> reaches s p -> exists v, party_index a names v = Some p.
Proof.
  unfold source_of. destruct (children_of (full_dag a names) u) as [c|]; [|discriminate]. destruct (subset _ _); [|discriminate].
  destruct (map_opt (party_index a names) (filter (fun s => inb s names) c)) as [js|] eqn:Ej; [|discriminate].
  destruct (map_opt (latent_of a names) (filter (fun s => negb (inb s names)) c)) as [ls|] eqn:El; [|discriminate]. intros H.
  assert (s = {| s_classical := cl u; s_children := js; s_latents := ls |}) by congruence. subst s. clear H. unfold reaches. cbn [s_children s_latents].
  assert (G : forall l r, map_opt (party_index a names) l = Some r -> In p r -> exists v, party_index a names v = Some p).
  { intros l r Er Hp. apply map_opt_some in Er. induction Er as [|x y l r Hx _ IH]; [destruct Hp|]. destruct Hp as [->|Hp]; [exists x; exact Hx|exact (IH Hp)]. }
  intros [Hp|(l' & Hl' & Hp)]; [exact (G _ _ Ej Hp)|]. apply map_opt_some in El. induction El as [|x y l r Hx _ IH]; [destruct Hl'|]. destruct Hl' as [->|Hl']; [|exact (IH Hl')].
  unfold latent_of in Hx. destruct (children_of (full_dag a names) x) as [c'|]; [|discriminate]. destruct (map_opt (party_index a names) c') as [js'|] eqn:Ej'; [|discriminate]. cbn [option_map] in Hx.
  assert (l' = {| l_nonclassical := inb x (a_nonclassical_latents a); l_desc := js' |}) by congruence. subst l'. exact (G _ _ Ej' Hp).
Qed.
End Names.
End Dag.
