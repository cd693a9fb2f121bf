(** Independent random variables: means. *)
From Coq Require Import List Arith Bool QArith Qcanon Lia Permutation.
From Verif Require Import ScenarioModel MargModel QcSum CausalSpec.
Import ListNotations.
Close Scope Q_scope. Open Scope nat_scope.

Section Mean.
Context {K : Type} (eqd : forall x y : K, {x = y} + {x <> y}) (D : K -> finite_distribution).
Notation mean := (mean eqd D).
Notation assign := (assign eqd).

Definition depends (g : (K -> nat) -> Qc) (A : list K) : Prop :=
  forall u u', (forall x, In x A -> u x = u' x) -> g u = g u'.

Lemma mean_ext L : forall g h u, (forall u, g u = h u) -> mean L g u = mean L h u.
Proof.
  induction L as [|x L IH]; intros g h u E; cbn [CausalSpec.mean]; [apply E|]. apply sumQ_ext. intros wv _. rewrite (IH g h _ E). reflexivity.
Qed.
Lemma mean_agree L : forall g A u u', depends g A -> (forall x, In x A -> ~ In x L -> u x = u' x) -> mean L g u = mean L g u'.
Proof.
  induction L as [|x L IH]; intros g A u u' Dg E; cbn [CausalSpec.mean].
  - apply Dg. intros x Hx. apply E; [exact Hx|intros []].
  - apply sumQ_ext. intros wv _. f_equal. apply (IH g A); [exact Dg|]. intros y Hy Hn. unfold assign. destruct (eqd y x) as [|N]; [reflexivity|].
    apply E; [exact Hy|]. intros [->|I]; [congruence|contradiction].
Qed.
Lemma sumQ_weights (d : finite_distribution) (c : Qc) : is_probability d -> sumQ (map (fun wv => fst wv * c)%Qc d) = c.
Proof.
  intros [_ E]. transitivity (c * sumQ (map fst d))%Qc; [|rewrite E; ring]. clear E. induction d as [|wv d IH]; cbn [map]; rewrite ?sumQ_nil, ?sumQ_cons; [ring|]. rewrite IH. ring.
Qed.
Lemma mean_skip x L g A u : depends g A -> ~ In x A -> is_probability (D x) -> mean (x :: L) g u = mean L g u.
Proof.
  intros Dg N P. cbn [CausalSpec.mean]. rewrite <- (sumQ_weights (D x) (mean L g u) P). apply sumQ_ext. intros wv _. f_equal.
  apply (mean_agree L g A); [exact Dg|]. intros y Hy _. unfold assign. destruct (eqd y x) as [->|]; [contradiction|reflexivity].
Qed.
Lemma mean_swap x y L g A u : depends g A -> x <> y -> mean (x :: y :: L) g u = mean (y :: x :: L) g u.
Proof.
  intros Dg N. cbn [CausalSpec.mean].
  transitivity (sumQ (map (fun a => sumQ (map (fun b => fst a * (fst b * mean L g (assign (assign u x (snd a)) y (snd b))))%Qc (D y))) (D x))).
  { apply sumQ_ext. intros a _. rewrite <- sumQ_scale. reflexivity. }
  rewrite sumQ_swap. apply sumQ_ext. intros b _. rewrite <- sumQ_scale. apply sumQ_ext. intros a _.
  rewrite (mean_agree L g A (assign (assign u x (snd a)) y (snd b)) (assign (assign u y (snd b)) x (snd a)) Dg); [ring|].
  intros z _ _. unfold assign. destruct (eqd z y), (eqd z x); congruence.
Qed.
Lemma mean_perm A g L L' : depends g A -> Permutation L L' -> NoDup L -> forall u, mean L g u = mean L' g u.
Proof.
  intros Dg P. induction P as [|x L L' P IH|x y L|L L' L'' P1 IH1 P2 IH2]; intros N u.
  - reflexivity.
  - cbn [CausalSpec.mean]. apply sumQ_ext. intros wv _. rewrite IH; [reflexivity|]. inversion N; assumption.
  - apply (mean_swap y x L g A); [exact Dg|]. inversion N as [|? ? N1 N2]; subst. intros ->. apply N1. left. reflexivity.
  - rewrite IH1 by exact N. apply IH2. eapply Permutation_NoDup; eassumption.
Qed.
Lemma mean_restrict A g (f : K -> bool) L : depends g A -> (forall x, In x A -> In x L -> f x = true) -> (forall x, In x L -> is_probability (D x)) ->
  forall u, mean L g u = mean (filter f L) g u.
Proof.
  intros Dg F. induction L as [|x L IH]; intros P u; [reflexivity|]. cbn [filter].
  assert (IH' : forall u, mean L g u = mean (filter f L) g u) by (intros v; apply IH; [intros y Hy Hl; apply F; [exact Hy|right; exact Hl]|intros y Hy; apply P; right; exact Hy]).
  destruct (f x) eqn:Ex.
  - cbn [CausalSpec.mean]. apply sumQ_ext. intros wv _. rewrite IH'. reflexivity.
  - rewrite (mean_skip x L g A) by (try exact Dg; try (apply P; left; reflexivity); intros I; rewrite (F x I (or_introl eq_refl)) in Ex; discriminate). apply IH'.
Qed.
Lemma depends_mul g h A B : depends g A -> depends h B -> depends (fun u => g u * h u)%Qc (A ++ B).
Proof. intros Dg Dh u u' E. rewrite (Dg u u'), (Dh u u'); [reflexivity| |]; intros x Hx; apply E, in_or_app; auto. Qed.
Lemma depends_mono g A B : depends g A -> (forall x, In x A -> In x B) -> depends g B.
Proof. intros Dg I u u' E. apply Dg. intros x Hx. apply E, I, Hx. Qed.
Lemma mean_mul A B g h L : depends g A -> depends h B -> (forall x, In x L -> In x A -> In x B -> False) -> (forall x, In x L -> is_probability (D x)) ->
  forall u, mean L (fun u => g u * h u)%Qc u = (mean L g u * mean L h u)%Qc.
Proof.
  intros Dg Dh. induction L as [|x L IH]; intros DJ P u; [reflexivity|].
  assert (IH' : forall u, mean L (fun u => g u * h u)%Qc u = (mean L g u * mean L h u)%Qc) by (apply IH; [intros y Hy; apply DJ; right; exact Hy|intros y Hy; apply P; right; exact Hy]).
  destruct (in_dec eqd x A) as [IA|NA].
  - assert (NB : ~ In x B) by (intros IB; exact (DJ x (or_introl eq_refl) IA IB)).
    rewrite (mean_skip x L h B u Dh NB (P x (or_introl eq_refl))). cbn [CausalSpec.mean].
    transitivity (sumQ (map (fun wv => mean L h u * (fst wv * mean L g (assign u x (snd wv))))%Qc (D x))).
    + apply sumQ_ext. intros wv _. rewrite IH'. rewrite (mean_agree L h B (assign u x (snd wv)) u Dh); [ring|].
      intros y Hy _. unfold assign. destruct (eqd y x) as [->|]; [contradiction|reflexivity].
    + rewrite sumQ_scale. ring.
  - rewrite (mean_skip x L g A u Dg NA (P x (or_introl eq_refl))). cbn [CausalSpec.mean].
    transitivity (sumQ (map (fun wv => mean L g u * (fst wv * mean L h (assign u x (snd wv))))%Qc (D x))).
    + apply sumQ_ext. intros wv _. rewrite IH'. rewrite (mean_agree L g A (assign u x (snd wv)) u Dg); [ring|].
      intros y Hy _. unfold assign. destruct (eqd y x) as [->|]; [contradiction|reflexivity].
    + rewrite sumQ_scale. ring.
Qed.
Lemma mean_sum {I} (l : list I) (g : I -> (K -> nat) -> Qc) L : forall u, mean L (fun u => sumQ (map (fun i => g i u) l)) u = sumQ (map (fun i => mean L (g i) u) l).
Proof.
  induction L as [|x L IH]; intros u; [reflexivity|]. cbn [CausalSpec.mean].
  transitivity (sumQ (map (fun wv => sumQ (map (fun i => fst wv * mean L (g i) (assign u x (snd wv)))%Qc l)) (D x))).
  - apply sumQ_ext. intros wv _. rewrite IH, <- sumQ_scale. reflexivity.
  - apply sumQ_swap.
Qed.
(** a mean is a mixture *)
Lemma mean_mixture L : (forall x, In x L -> is_probability (D x)) -> forall u, exists ws : list (Qc * (K -> nat)),
  (forall q, In q ws -> (0 <= fst q)%Qc) /\ sumQ (map fst ws) = 1%Qc /\ (forall g, mean L g u = sumQ (map (fun q => fst q * g (snd q))%Qc ws)) /\
  (forall q x, In q ws -> ~ In x L -> snd q x = u x).
Proof.
  induction L as [|x L IH]; intros P u.
  - exists [(1%Qc, u)]. split; [intros q [<-|[]]; discriminate|]. split; [reflexivity|]. split; [intros g; cbn [CausalSpec.mean map]; rewrite sumQ_cons, sumQ_nil; cbn [fst snd]; ring|].
    intros q x [<-|[]] _. reflexivity.
  - assert (P' : forall y, In y L -> is_probability (D y)) by (intros y Hy; apply P; right; exact Hy).
    destruct (P x (or_introl eq_refl)) as [NN TOT].
    assert (STEP : forall d, (forall wv, In wv d -> (0 <= fst wv)%Qc) -> exists ws : list (Qc * (K -> nat)),
        (forall q, In q ws -> (0 <= fst q)%Qc) /\ sumQ (map fst ws) = sumQ (map fst d) /\
        (forall g, sumQ (map (fun wv => fst wv * mean L g (assign u x (snd wv)))%Qc d) = sumQ (map (fun q => fst q * g (snd q))%Qc ws)) /\
        (forall q y, In q ws -> ~ In y (x :: L) -> snd q y = u y)).
    { induction d as [|wv d IHd]; intros Hd.
      - exists []. split; [intros q []|]. split; [reflexivity|]. split; [reflexivity|intros q y []].
      - destruct IHd as (ws & A1 & A2 & A3 & A4); [intros y Hy; apply Hd; right; exact Hy|].
        destruct (IH P' (assign u x (snd wv))) as (vs & B1 & B2 & B3 & B4). exists (map (fun q => (fst wv * fst q, snd q)%Qc) vs ++ ws). split; [|split; [|split]].
        + intros q Hq. apply in_app_or in Hq as [Hq|Hq]; [|apply A1, Hq]. apply in_map_iff in Hq as (q' & <- & Hq'). cbn [fst].
          specialize (B1 q' Hq'). specialize (Hd wv (or_introl eq_refl)). replace 0%Qc with (0 * fst q')%Qc by ring. apply Qcmult_le_compat_r; assumption.
        + rewrite map_app, sumQ_app, A2, map_map. cbn [fst map]. rewrite sumQ_cons. f_equal.
          transitivity (fst wv * sumQ (map fst vs))%Qc; [|rewrite B2; ring]. rewrite <- sumQ_scale. reflexivity.
        + intros g. cbn [map]. rewrite sumQ_cons, map_app, sumQ_app, <- A3, B3, map_map. f_equal. rewrite <- sumQ_scale. apply sumQ_ext. intros q _. cbn [fst snd]. ring.
        + intros q y Hq Hy. apply in_app_or in Hq as [Hq|Hq]; [|apply A4; assumption]. apply in_map_iff in Hq as (q' & <- & Hq'). cbn [snd].
          rewrite (B4 q' y Hq') by (intros I; apply Hy; right; exact I). unfold assign. destruct (eqd y x) as [->|]; [exfalso; apply Hy; left; reflexivity|reflexivity]. }
    destruct (STEP (D x) NN) as (ws & A1 & A2 & A3 & A4). exists ws. split; [exact A1|]. split; [congruence|]. split; [exact A3|exact A4].
Qed.
End Mean.

Section Rename.
Context {K K' : Type} (eqd : forall x y : K, {x = y} + {x <> y}) (eqd' : forall x y : K', {x = y} + {x <> y}) (D : K -> finite_distribution) (D' : K' -> finite_distribution) (rho : K -> K').
Lemma mean_rename A g g' : (forall u u', (forall x, In x A -> u x = u' (rho x)) -> g u = g' u') ->
  forall L, (forall x, In x L -> D' (rho x) = D x) -> (forall x y, In x L -> In y A -> rho x = rho y -> x = y) ->
  forall u u', (forall x, In x A -> ~ In x L -> u x = u' (rho x)) -> mean eqd D L g u = mean eqd' D' (map rho L) g' u'.
Proof.
  intros Hg. induction L as [|x L IH]; intros ED INJ u u' E; cbn [CausalSpec.mean map].
  - apply Hg. intros x Hx. apply E; [exact Hx|intros []].
  - rewrite (ED x (or_introl eq_refl)). apply sumQ_ext. intros wv _. f_equal. apply IH.
    + intros y Hy. apply ED. right. exact Hy.
    + intros y z Hy. apply INJ. right. exact Hy.
    + intros y Hy Hn. unfold assign. destruct (eqd y x) as [->|N].
      * destruct (eqd' (rho x) (rho x)); [reflexivity|congruence].
      * destruct (eqd' (rho y) (rho x)) as [Q|_].
        -- exfalso. apply N. symmetry. apply (INJ x y (or_introl eq_refl) Hy). symmetry. exact Q.
        -- apply E; [exact Hy|]. intros [->|I]; [congruence|contradiction].
Qed.
End Rename.
