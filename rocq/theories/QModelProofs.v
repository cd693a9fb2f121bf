(** Quantum models: sums over assignments, operators. *)
From Coq Require Import Permutation QArith Qcanon List Arith Bool Lia.
From Verif Require Import CanonModel ScenarioModel MargModel QcSum CausalSpec MeanProofs QuantumSpec QuantumProofs QInflationSpec QModelSpec QMomentProofs.
From Verif Require ScenarioProofs.
Import ListNotations.
Close Scope Q_scope. Close Scope Qc_scope. Open Scope nat_scope.
Add Ring CringQM : C_ring.

(** ** Sums of complex numbers *)
Lemma Csum_nil : Csum [] = C0. Proof. reflexivity. Qed.
Lemma Csum_cons z l : Csum (z :: l) = Cplus z (Csum l). Proof. reflexivity. Qed.
Lemma Csum_pair l : Csum l = (sumQ (map fst l), sumQ (map snd l)).
Proof. induction l as [|z l IH]; [reflexivity|]. rewrite Csum_cons, IH. cbn [map]. rewrite !sumQ_cons. reflexivity. Qed.
Lemma Csum_app a b : Csum (a ++ b) = Cplus (Csum a) (Csum b).
Proof. induction a as [|z a IH]; cbn [app]; rewrite ?Csum_cons, ?Csum_nil; [|rewrite IH]; ring. Qed.
Lemma Csum_ext {A} (l : list A) f g : (forall x, In x l -> f x = g x) -> Csum (map f l) = Csum (map g l).
Proof. intros H. f_equal. apply map_ext_in, H. Qed.
Lemma Csum_scale {A} (l : list A) c f : Csum (map (fun x => Cmult c (f x)) l) = Cmult c (Csum (map f l)).
Proof. induction l as [|x l IH]; cbn [map]; rewrite ?Csum_cons, ?Csum_nil; [|rewrite IH]; ring. Qed.
Lemma Csum_scale_r {A} (l : list A) c f : Csum (map (fun x => Cmult (f x) c) l) = Cmult (Csum (map f l)) c.
Proof. induction l as [|x l IH]; cbn [map]; rewrite ?Csum_cons, ?Csum_nil; [|rewrite IH]; ring. Qed.
Lemma Csum_add {A} (l : list A) f g : Csum (map (fun x => Cplus (f x) (g x)) l) = Cplus (Csum (map f l)) (Csum (map g l)).
Proof. induction l as [|x l IH]; cbn [map]; rewrite ?Csum_cons, ?Csum_nil; [|rewrite IH]; ring. Qed.
Lemma Csum_zero {A} (l : list A) f : (forall x, In x l -> f x = C0) -> Csum (map f l) = C0.
Proof. intros H. rewrite (Csum_ext l f (fun _ => C0) H). clear H. induction l as [|x l IH]; cbn [map]; rewrite ?Csum_cons, ?Csum_nil; [|rewrite IH]; ring. Qed.
Lemma Csum_swap {A B} (l : list A) (l' : list B) f : Csum (map (fun x => Csum (map (fun y => f x y) l')) l) = Csum (map (fun y => Csum (map (fun x => f x y) l)) l').
Proof.
  induction l as [|x l IH]; cbn [map]; rewrite ?Csum_cons, ?Csum_nil.
  - symmetry. apply Csum_zero. reflexivity.
  - rewrite IH. clear IH. rewrite <- Csum_add. reflexivity.
Qed.
Lemma Csum_conj {A} (l : list A) f : Cconj (Csum (map f l)) = Csum (map (fun x => Cconj (f x)) l).
Proof. induction l as [|x l IH]; cbn [map]; rewrite ?Csum_cons, ?Csum_nil; [apply conj_0|]. rewrite conj_plus, IH. reflexivity. Qed.
Lemma Csum_single {A} (dec : forall a b : A, {a = b} + {a <> b}) (l : list A) a f : NoDup l -> In a l -> Csum (map (fun b => if dec a b then f b else C0) l) = f a.
Proof.
  induction l as [|b l IH]; intros N H; [destruct H|]. inversion N as [|? ? Nb Nl]; subst. cbn [map]. rewrite Csum_cons. destruct (dec a b) as [->|NE].
  - rewrite Csum_zero; [ring|]. intros x Hx. destruct (dec b x) as [->|]; [contradiction|reflexivity].
  - destruct H as [->|H]; [congruence|]. rewrite (IH Nl H). ring.
Qed.

(** ** Complex means *)
Section Total.
Variable D : qvariable -> finite_distribution.
Notation mean := (mean qvar_dec D).
Notation put := (assign qvar_dec).
Notation assignment := (qvariable -> nat).
Definition ctot (l : list qvariable) (g : vector) (u : assignment) : C := (mean l (fun u => fst (g u)) u, mean l (fun u => snd (g u)) u).
(** assignments that a sum ranges over *)
Definition ranges (l : list qvariable) (u u' : assignment) : Prop := (forall x, In x l -> In (u' x) (map snd (D x))) /\ (forall x, ~ In x l -> u' x = u x).
Lemma mean_ext_in l : forall (g h : assignment -> Qc) u, (forall u1 u2, (forall x, u1 x = u2 x) -> g u1 = g u2) -> (forall u1 u2, (forall x, u1 x = u2 x) -> h u1 = h u2) ->
  (forall u', ranges l u u' -> g u' = h u') -> mean l g u = mean l h u.
Proof.
  induction l as [|x l IH]; intros g h u Eg Eh H; cbn [CausalSpec.mean].
  - apply H. split; [intros x []|reflexivity].
  - apply sumQ_ext. intros wv Hwv. f_equal. apply IH; [exact Eg|exact Eh|]. intros u' [R1 R2]. destruct (in_dec qvar_dec x l) as [I|N].
    + apply H. split.
      * intros y [<-|Hy]; apply R1; assumption.
      * intros y Hy. rewrite R2 by (intros C; apply Hy; right; exact C). unfold assign. destruct (qvar_dec y x) as [->|]; [exfalso; apply Hy; left; reflexivity|reflexivity].
    + apply H. split.
      * intros y [<-|Hy]; [|apply R1, Hy]. rewrite R2 by exact N. unfold assign. destruct (qvar_dec x x); [|congruence]. apply in_map, Hwv.
      * intros y Hy. rewrite R2 by (intros C; apply Hy; right; exact C). unfold assign. destruct (qvar_dec y x) as [->|]; [exfalso; apply Hy; left; reflexivity|reflexivity].
Qed.
Definition extensional (g : vector) : Prop := forall u1 u2, (forall x, u1 x = u2 x) -> g u1 = g u2.
Lemma ctot_ext_in l g h u : extensional g -> extensional h -> (forall u', ranges l u u' -> g u' = h u') -> ctot l g u = ctot l h u.
Proof.
  intros Eg Eh H. unfold ctot. f_equal; apply mean_ext_in; intros; (try (rewrite (Eg _ _ H0); reflexivity)); (try (rewrite (Eh _ _ H0); reflexivity)); rewrite (H _ H0); reflexivity.
Qed.
Lemma ctot_ext l g h u : (forall u', g u' = h u') -> ctot l g u = ctot l h u.
Proof. intros H. unfold ctot. f_equal; apply mean_ext; intros; rewrite H; reflexivity. Qed.
Lemma ctot_nil g u : ctot [] g u = g u.
Proof. unfold ctot. cbn [CausalSpec.mean]. symmetry. apply surjective_pairing. Qed.
Lemma ctot_cons x l g u : ctot (x :: l) g u = Csum (map (fun wv => Cmult (fst wv, 0%Qc) (ctot l g (put u x (snd wv)))) (D x)).
Proof.
  unfold ctot. cbn [CausalSpec.mean]. rewrite Csum_pair, !map_map. f_equal; apply sumQ_ext; intros wv _; unfold Cmult; cbn [fst snd]; ring.
Qed.
Lemma ctot_app l : forall l' g u, ctot (l ++ l') g u = ctot l (ctot l' g) u.
Proof.
  induction l as [|x l IH]; intros l' g u; cbn [app]; [rewrite ctot_nil; reflexivity|]. rewrite !ctot_cons. apply Csum_ext. intros wv _. rewrite IH. reflexivity.
Qed.
Lemma ctot_sum {I} (k : list I) (g : I -> vector) l u : ctot l (fun u => Csum (map (fun i => g i u) k)) u = Csum (map (fun i => ctot l (g i) u) k).
Proof.
  revert u. induction l as [|x l IH]; intros u; [rewrite ctot_nil; apply Csum_ext; intros; rewrite ctot_nil; reflexivity|].
  rewrite ctot_cons. rewrite (Csum_ext k (fun i => ctot (x :: l) (g i) u) _ (fun i _ => ctot_cons x l (g i) u)). rewrite Csum_swap. apply Csum_ext. intros wv _. rewrite IH, Csum_scale. reflexivity.
Qed.
Lemma ctot_conj g l : forall u, Cconj (ctot l g u) = ctot l (fun u => Cconj (g u)) u.
Proof.
  induction l as [|x l IH]; intros u; [rewrite !ctot_nil; reflexivity|]. rewrite !ctot_cons, Csum_conj. apply Csum_ext. intros wv _. rewrite conj_mult, IH. f_equal.
Qed.
Lemma ctot_scale c g l : forall u, ctot l (fun u => Cmult c (g u)) u = Cmult c (ctot l g u).
Proof.
  induction l as [|x l IH]; intros u; [rewrite !ctot_nil; reflexivity|]. rewrite !ctot_cons, <- Csum_scale. apply Csum_ext. intros wv _. rewrite IH. ring.
Qed.
Definition needs (g : vector) (A : list qvariable) : Prop := forall u u', (forall x, In x A -> u x = u' x) -> g u = g u'.
Lemma needs_parts g A : needs g A -> depends (fun u => fst (g u)) A /\ depends (fun u => snd (g u)) A.
Proof. intros H. split; intros u u' E; rewrite (H u u' E); reflexivity. Qed.
Lemma needs_ext g A : needs g A -> extensional g.
Proof. intros H u u' E. apply H. intros x _. apply E. Qed.
Lemma ctot_agree l g A u u' : needs g A -> (forall x, In x A -> ~ In x l -> u x = u' x) -> ctot l g u = ctot l g u'.
Proof. intros H E. destruct (needs_parts g A H) as [H1 H2]. unfold ctot. f_equal; eapply mean_agree; eassumption. Qed.
Lemma ctot_perm l l' g A : needs g A -> Permutation l l' -> NoDup l -> forall u, ctot l g u = ctot l' g u.
Proof. intros H P N u. destruct (needs_parts g A H) as [H1 H2]. unfold ctot. f_equal; eapply mean_perm; eassumption. Qed.
Lemma mean_ext2 (D0 : qvariable -> finite_distribution) l : forall g u u', (forall u1 u2, (forall x, u1 x = u2 x) -> g u1 = g u2) -> (forall x, u x = u' x) -> CausalSpec.mean qvar_dec D0 l g u = CausalSpec.mean qvar_dec D0 l g u'.
Proof.
  induction l as [|x l IH]; intros g u u' Eg E; cbn [CausalSpec.mean]; [apply Eg, E|]. apply sumQ_ext. intros wv _. f_equal. apply IH; [exact Eg|]. intros y. unfold assign. destruct (qvar_dec y x); [reflexivity|apply E].
Qed.
Lemma ctot_extensional l g : extensional g -> extensional (ctot l g).
Proof. intros Eg u u' E. unfold ctot. f_equal; apply mean_ext2; try exact E; intros u1 u2 H; rewrite (Eg u1 u2 H); reflexivity. Qed.
(** permutations, without knowing the variables *)
Lemma mean_swap_ext x y l g u : (forall u1 u2 : assignment, (forall x, u1 x = u2 x) -> g u1 = g u2) -> x <> y -> mean (x :: y :: l) g u = mean (y :: x :: l) g u.
Proof.
  intros Dg N. cbn [CausalSpec.mean].
  transitivity (sumQ (map (fun a => sumQ (map (fun b => fst a * (fst b * mean l g (put (put u x (snd a)) y (snd b))))%Qc (D y))) (D x))).
  { apply sumQ_ext. intros a _. rewrite <- sumQ_scale. reflexivity. }
  rewrite sumQ_swap. apply sumQ_ext. intros b _. rewrite <- sumQ_scale. apply sumQ_ext. intros a _.
  rewrite (mean_ext2 D l g (put (put u x (snd a)) y (snd b)) (put (put u y (snd b)) x (snd a)) Dg); [ring|].
  intros z. unfold assign. destruct (qvar_dec z y), (qvar_dec z x); congruence.
Qed.
Lemma mean_perm_ext g l l' : (forall u1 u2 : assignment, (forall x, u1 x = u2 x) -> g u1 = g u2) -> Permutation l l' -> NoDup l -> forall u, mean l g u = mean l' g u.
Proof.
  intros Dg P. induction P as [|x l l' P IH|x y l|l l' l'' P1 IH1 P2 IH2]; intros N u.
  - reflexivity.
  - cbn [CausalSpec.mean]. apply sumQ_ext. intros wv _. rewrite IH; [reflexivity|]. inversion N; assumption.
  - apply (mean_swap_ext y x l g); [exact Dg|]. inversion N as [|? ? N1 N2]; subst. intros ->. apply N1. left. reflexivity.
  - rewrite IH1 by exact N. apply IH2. eapply Permutation_NoDup; eassumption.
Qed.
Lemma ctot_perm_ext l l' g : extensional g -> Permutation l l' -> NoDup l -> forall u, ctot l g u = ctot l' g u.
Proof. intros H P N u. unfold ctot. f_equal; apply mean_perm_ext; try assumption; intros u1 u2 E; rewrite (H u1 u2 E); reflexivity. Qed.
(** products of functions of different variables *)
Lemma ctot_product a b g h u : extensional g -> extensional h -> (forall u u', (forall x, ~ In x b -> u x = u' x) -> g u = g u') -> (forall u u', (forall x, ~ In x a -> u x = u' x) -> h u = h u') ->
  ctot (a ++ b) (fun u => Cmult (g u) (h u)) u = Cmult (ctot a g u) (ctot b h u).
Proof.
  intros Eg Eh Hg Hh. rewrite ctot_app.
  transitivity (ctot a (fun u' => Cmult (ctot b h u) (g u')) u); [|rewrite ctot_scale; ring].
  apply ctot_ext_in.
  - apply ctot_extensional. intros u1 u2 E. rewrite (Eg u1 u2 E), (Eh u1 u2 E). reflexivity.
  - intros u1 u2 E. rewrite (Eg u1 u2 E). reflexivity.
  - intros u' [_ R]. transitivity (ctot b (fun v => Cmult (g u') (h v)) u').
    + apply ctot_ext_in; [intros u1 u2 E; rewrite (Eg u1 u2 E), (Eh u1 u2 E); reflexivity|intros u1 u2 E; rewrite (Eh u1 u2 E); reflexivity|]. intros v [_ R']. rewrite (Hg v u' R'). reflexivity.
    + rewrite ctot_scale. replace (Cmult (ctot b h u) (g u')) with (Cmult (g u') (ctot b h u)) by ring. f_equal. clear Hg Eg.
      assert (Q : forall b u u', (forall x, ~ In x a -> u x = u' x) -> ctot b h u = ctot b h u').
      { clear - Hh Eh. induction b as [|x b IH]; intros u u' E; [rewrite !ctot_nil; apply Hh, E|]. rewrite !ctot_cons. apply Csum_ext. intros wv _. f_equal. apply IH. intros y Hy. unfold assign. destruct (qvar_dec y x); [reflexivity|apply E, Hy]. }
      apply Q. exact R.
Qed.
End Total.
