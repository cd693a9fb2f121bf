(** Farkas' lemma and linear-programming duality over the rationals (by Fourier-Motzkin
    elimination).  Pure mathematics: nothing here models the code. *)
From Coq Require Import List Arith Bool QArith Qcanon Lia Lqa.
From Verif Require Import MargModel QcSum QcArith.
Import ListNotations.
Open Scope Qc_scope.
Close Scope Q_scope.
Set Default Proof Using "All".

Definition vec := list Qc.
Fixpoint dot (a x : vec) : Qc := match a, x with u :: a', v :: x' => u * v + dot a' x' | _, _ => 0 end.
Fixpoint vadd (a b : vec) : vec := match a, b with x :: a', y :: b' => (x + y) :: vadd a' b' | _, _ => [] end.
Definition vscale (c : Qc) (a : vec) : vec := map (Qcmult c) a.
Lemma vscale_cons c x a : vscale c (x :: a) = (c * x) :: vscale c a. Proof. reflexivity. Qed.
Arguments vscale : simpl never.
Definition vzero (n : nat) : vec := repeat 0 n.
(** the half-space  a.x >= b *)
Definition halfspace := (vec * Qc)%type.

Lemma vadd_length a : forall b, length a = length b -> length (vadd a b) = length a.
Proof. induction a; destruct b; cbn; intros E; try discriminate; auto. Qed.
Lemma vscale_length c a : length (vscale c a) = length a.
Proof. apply map_length. Qed.
Lemma vzero_length n : length (vzero n) = n.
Proof. apply repeat_length. Qed.
Lemma dot_vadd a : forall b x, length a = length b -> dot (vadd a b) x = dot a x + dot b x.
Proof. induction a as [|u a IH]; destruct b as [|v b]; cbn; intros x E; try discriminate; [ring|].
  destruct x; [ring|]. rewrite IH by congruence. ring. Qed.
Lemma dot_vscale c a : forall x, dot (vscale c a) x = c * dot a x.
Proof. induction a as [|u a IH]; intros x; [unfold vscale; cbn; ring|]. rewrite vscale_cons. cbn [dot]. destruct x; [ring|]. rewrite IH. ring. Qed.
Lemma dot_vscale_r c a : forall x, dot a (vscale c x) = c * dot a x.
Proof. induction a as [|u a IH]; intros x; [cbn; ring|]. destruct x; [unfold vscale; cbn; ring|]. rewrite vscale_cons. cbn [dot]. rewrite IH. ring. Qed.
Lemma dot_vadd_r a : forall x y, length x = length y -> dot a (vadd x y) = dot a x + dot a y.
Proof. induction a as [|u a IH]; intros x y E; [cbn; ring|]. destruct x, y; try discriminate; cbn [dot vadd]; [ring|]. rewrite IH by (cbn in E; congruence). ring. Qed.
Lemma vscale_add k l a : vscale (k + l) a = vadd (vscale k a) (vscale l a).
Proof. induction a as [|x a IH]; [reflexivity|]. rewrite !vscale_cons, IH. cbn [vadd]. f_equal. ring. Qed.
Lemma vscale_0 n a : length a = n -> vscale 0 a = vzero n.
Proof. intros <-. induction a as [|x a IH]; [reflexivity|]. rewrite vscale_cons, IH. cbn. f_equal. ring. Qed.
Lemma dot_vzero n : forall x, dot (vzero n) x = 0.
Proof. induction n; cbn; intros x; [reflexivity|]. destruct x; [reflexivity|]. change (repeat 0 n) with (vzero n). rewrite IHn. ring. Qed.
Lemma vadd_vzero_r a n : length a = n -> vadd a (vzero n) = a.
Proof. revert n. induction a as [|u a IH]; destruct n; cbn; intros E; try discriminate; [reflexivity|].
  change (repeat 0 n) with (vzero n). rewrite IH by congruence. f_equal. ring. Qed.
Lemma vadd_comm a : forall b, vadd a b = vadd b a.
Proof. induction a; destruct b; cbn; try reflexivity. rewrite IHa. f_equal. ring. Qed.
Lemma vadd_assoc a : forall b c, vadd a (vadd b c) = vadd (vadd a b) c.
Proof. induction a; destruct b, c; cbn; try reflexivity. rewrite IHa. f_equal. ring. Qed.
Lemma vscale_vadd k a : forall b, vscale k (vadd a b) = vadd (vscale k a) (vscale k b).
Proof. induction a as [|x a IH]; destruct b as [|y b]; try reflexivity. unfold vscale in *. cbn. rewrite IH. f_equal. ring. Qed.
Lemma vscale_vscale k l a : vscale k (vscale l a) = vscale (k * l) a.
Proof. unfold vscale. rewrite map_map. apply map_ext. intros. ring. Qed.
Lemma vscale_vzero k n : vscale k (vzero n) = vzero n.
Proof. unfold vscale, vzero. induction n; cbn; [reflexivity|]. rewrite IHn. f_equal. ring. Qed.
Lemma vscale_1 a : vscale 1 a = a.
Proof. unfold vscale. induction a; cbn; [reflexivity|]. rewrite IHa. f_equal. ring. Qed.

(** non-negative combinations of the half-spaces *)
Inductive cone (n : nat) (H : list halfspace) : vec -> Qc -> Prop :=
| cone_zero : cone n H (vzero n) 0
| cone_step a b k v c : In (a, b) H -> 0 <= k -> cone n H v c -> cone n H (vadd (vscale k a) v) (k * b + c).

Section Cone.
Variables (n : nat) (H : list halfspace).
Hypothesis LEN : forall a b, In (a, b) H -> length a = n.
Lemma cone_length v c : cone n H v c -> length v = n.
Proof. induction 1; [apply vzero_length|]. rewrite vadd_length; rewrite ?vscale_length; [eauto|]. rewrite IHcone. eauto. Qed.
Lemma cone_in a b : In (a, b) H -> cone n H a b.
Proof. intros I. pose proof (cone_step n H a b 1 (vzero n) 0 I) as C.
  rewrite vscale_1, vadd_vzero_r in C by eauto. replace (1 * b + 0) with b in C by ring. apply C; [discriminate|constructor]. Qed.
Lemma cone_add v c : cone n H v c -> forall v' c', cone n H v' c' -> cone n H (vadd v v') (c + c').
Proof. induction 1 as [|a b k v c I K C IH]; intros v' c' C'.
  - rewrite vadd_comm, vadd_vzero_r by (eapply cone_length; eauto). replace (0 + c') with c' by ring. assumption.
  - rewrite <- vadd_assoc. replace (k * b + c + c') with (k * b + (c + c')) by ring. constructor; auto. Qed.
Lemma cone_scale v c k : 0 <= k -> cone n H v c -> cone n H (vscale k v) (k * c).
Proof. intros K. induction 1 as [|a b l v c I L C IH].
  - rewrite vscale_vzero. replace (k * 0) with 0 by ring. constructor.
  - rewrite vscale_vadd, vscale_vscale. replace (k * (l * b + c)) with (k * l * b + k * c) by ring. constructor; auto. qcnra. Qed.
Lemma cone_sound v c x : cone n H v c -> (forall a b, In (a, b) H -> b <= dot a x) -> c <= dot v x.
Proof. intros C SAT. induction C as [|a b l v c I L C IH].
  - rewrite dot_vzero. apply Qcle_refl.
  - rewrite dot_vadd, dot_vscale. 2: rewrite vscale_length; apply cone_length in C; rewrite C; eauto.
    specialize (SAT a b I). assert (l * b <= l * dot a x) by qcnra. qclra. Qed.
End Cone.
Lemma cone_trans n H H' : (forall a b, In (a, b) H -> length a = n) -> (forall a b, In (a, b) H' -> length a = n) ->
  (forall a b, In (a, b) H' -> cone n H a b) -> forall v c, cone n H' v c -> cone n H v c.
Proof. intros L L' D v c C. induction C; [constructor|].
  apply cone_add; auto. apply cone_scale; auto. Qed.

Lemma between (L U : list Qc) : (forall l u, In l L -> In u U -> l <= u) ->
  exists z, (forall l, In l L -> l <= z) /\ (forall u, In u U -> z <= u).
Proof.
  assert (MX : forall l0 L, exists z, In z (l0 :: L) /\ forall l, In l (l0 :: L) -> l <= z).
  { clear. intros l0 L. revert l0. induction L as [|l1 L IH]; intros l0.
    - exists l0. split; [left; reflexivity|]. intros l [<-|[]]. apply Qcle_refl.
    - destruct (IH l1) as (z & I & Z). destruct (Qclt_le_dec z l0) as [LT|LE].
      + exists l0. split; [left; reflexivity|]. intros l [<-|K]; [apply Qcle_refl|]. apply Z in K. qclra.
      + exists z. split; [right; assumption|]. intros l [<-|K]; auto. }
  assert (MN : forall l0 L, exists z, In z (l0 :: L) /\ forall l, In l (l0 :: L) -> z <= l).
  { clear. intros l0 L. revert l0. induction L as [|l1 L IH]; intros l0.
    - exists l0. split; [left; reflexivity|]. intros l [<-|[]]. apply Qcle_refl.
    - destruct (IH l1) as (z & I & Z). destruct (Qclt_le_dec l0 z) as [LT|LE].
      + exists l0. split; [left; reflexivity|]. intros l [<-|K]; [apply Qcle_refl|]. apply Z in K. qclra.
      + exists z. split; [right; assumption|]. intros l [<-|K]; auto. }
  intros LU. destruct L as [|l0 L].
  - destruct U as [|u0 U]; [exists 0; split; intros ? []|].
    destruct (MN u0 U) as (z & I & Z). exists z. split; [intros ? []|auto].
  - destruct (MX l0 L) as (z & I & Z). exists z. split; auto. Qed.

Definition head (a : vec) : Qc := hd 0 a.
Definition is_pos (h : halfspace) : bool := if Qclt_le_dec 0 (head (fst h)) then true else false.
Definition is_neg (h : halfspace) : bool := if Qclt_le_dec (head (fst h)) 0 then true else false.
Definition is_zero (h : halfspace) : bool := negb (is_pos h) && negb (is_neg h).
Lemma is_pos_spec h : is_pos h = true <-> 0 < head (fst h).
Proof. unfold is_pos. destruct (Qclt_le_dec 0 (head (fst h))); split; auto; try discriminate. intros. exfalso. qclra. Qed.
Lemma is_neg_spec h : is_neg h = true <-> head (fst h) < 0.
Proof. unfold is_neg. destruct (Qclt_le_dec (head (fst h)) 0); split; auto; try discriminate. intros. exfalso. qclra. Qed.
Lemma is_zero_spec h : is_zero h = true <-> head (fst h) = 0.
Proof. unfold is_zero, is_pos, is_neg. destruct (Qclt_le_dec 0 (head (fst h))), (Qclt_le_dec (head (fst h)) 0); cbn; split; intros; try discriminate; try reflexivity; first [qclra | exfalso; qclra]. Qed.
Definition elim2 (p q : halfspace) : halfspace :=
  (vadd (vscale (- head (fst q)) (tl (fst p))) (vscale (head (fst p)) (tl (fst q))),
   - head (fst q) * snd p + head (fst p) * snd q).
Definition eliminate (H : list halfspace) : list halfspace :=
  map (fun h => (tl (fst h), snd h)) (filter is_zero H) ++
  flat_map (fun p => map (elim2 p) (filter is_neg H)) (filter is_pos H).

Lemma eliminate_length n H : (forall a b, In (a, b) H -> length a = S n) -> forall a b, In (a, b) (eliminate H) -> length a = n.
Proof. intros L a b I. unfold eliminate in I. apply in_app_or in I as [I|I].
  - apply in_map_iff in I as ((a' & b') & E & I). cbn in E. apply filter_In in I as (I & _). apply L in I. inversion E; subst.
    destruct a'; [discriminate|]. cbn in *. congruence.
  - apply in_flat_map in I as ((a1 & b1) & I1 & I). apply in_map_iff in I as ((a2 & b2) & E & I2).
    apply filter_In in I1 as (I1 & _). apply filter_In in I2 as (I2 & _). apply L in I1, I2.
    unfold elim2 in E. inversion E; subst. cbn [fst snd].
    destruct a1, a2; try discriminate. cbn in *. rewrite vadd_length; rewrite ?vscale_length, ?map_length; congruence. Qed.
Lemma eliminate_cone n H : (forall a b, In (a, b) H -> length a = S n) -> forall a b, In (a, b) (eliminate H) -> cone (S n) H (0 :: a) b.
Proof. intros L a b I. unfold eliminate in I. apply in_app_or in I as [I|I].
  - apply in_map_iff in I as ((a' & b') & E & I). cbn in E. apply filter_In in I as (I & Z). apply is_zero_spec in Z.
    assert (L' := L _ _ I). inversion E; subst. destruct a' as [|x a']; [discriminate|]. cbn in *. subst x. apply cone_in; auto.
  - apply in_flat_map in I as ((a1 & b1) & I1 & I). apply in_map_iff in I as ((a2 & b2) & E & I2).
    apply filter_In in I1 as (I1 & P). apply filter_In in I2 as (I2 & N). apply is_pos_spec in P. apply is_neg_spec in N.
    assert (L1 := L _ _ I1). assert (L2 := L _ _ I2).
    unfold elim2 in E. inversion E; subst. cbn [fst snd] in *.
    destruct a1 as [|x1 a1], a2 as [|x2 a2]; try discriminate. cbn [head hd tl] in *.
    replace (0 :: vadd (vscale (- x2) a1) (vscale x1 a2)) with (vadd (vscale (- x2) (x1 :: a1)) (vscale x1 (x2 :: a2))).
    2: { rewrite !vscale_cons. cbn [vadd]. f_equal. ring. }
    apply cone_add; auto; apply cone_scale; auto using cone_in; qclra. Qed.
Lemma eliminate_lift n H : (forall a b, In (a, b) H -> length a = S n) ->
  forall v c, cone n (eliminate H) v c -> cone (S n) H (0 :: v) c.
Proof. intros L v c C. induction C as [|a b k v c I K C IH].
  - apply (cone_zero (S n)).
  - replace (0 :: vadd (vscale k a) v) with (vadd (vscale k (0 :: a)) (0 :: v)) by (rewrite vscale_cons; cbn [vadd]; f_equal; ring).
    apply cone_add; auto. apply cone_scale; auto. apply eliminate_cone; auto. Qed.

Theorem farkas n : forall H, (forall a b, In (a, b) H -> length a = n) ->
  (exists x, length x = n /\ forall a b, In (a, b) H -> b <= dot a x) \/
  (exists b, 0 < b /\ cone n H (vzero n) b).
Proof.
  induction n as [|n IH]; intros H L.
  - destruct (existsb (fun h => if Qclt_le_dec 0 (snd h) then true else false) H) eqn:E.
    + right. apply existsb_exists in E as ((a & b) & I & B). cbn in B. destruct (Qclt_le_dec 0 b); [|discriminate].
      exists b. split; [assumption|]. assert (A := L _ _ I). destruct a; [|discriminate]. apply cone_in; auto.
    + left. exists []. split; [reflexivity|]. intros a b I. assert (A := L _ _ I). destruct a; [|discriminate]. cbn.
      destruct (Qclt_le_dec 0 b) as [B|B]; [|assumption]. exfalso.
      assert (X : existsb (fun h : halfspace => if Qclt_le_dec 0 (snd h) then true else false) H = true).
      { apply existsb_exists. exists ([], b). split; [assumption|]. cbn. destruct (Qclt_le_dec 0 b); [reflexivity|exfalso; qclra]. }
      exact (eq_true_false_abs _ X E).
  - destruct (IH (eliminate H) (eliminate_length n H L)) as [(x & X & SAT)|(b & B & C)].
    + left.
      set (P := filter is_pos H). set (N := filter is_neg H).
      destruct (between (map (fun h => (snd h - dot (tl (fst h)) x) / head (fst h)) P) (map (fun h => (snd h - dot (tl (fst h)) x) / head (fst h)) N)) as (z & ZL & ZU).
      { intros l u Il Iu. apply in_map_iff in Il as ((a1 & b1) & <- & I1). apply in_map_iff in Iu as ((a2 & b2) & <- & I2).
        assert (S1 := SAT (fst (elim2 (a1, b1) (a2, b2))) (snd (elim2 (a1, b1) (a2, b2)))).
        assert (In (fst (elim2 (a1, b1) (a2, b2)), snd (elim2 (a1, b1) (a2, b2))) (eliminate H)) as IN.
        { unfold eliminate. apply in_or_app. right. apply in_flat_map. exists (a1, b1). split; [assumption|].
          apply in_map_iff. exists (a2, b2). split; [reflexivity|assumption]. }
        specialize (S1 IN). unfold P, N in I1, I2. apply filter_In in I1 as (I1 & P1). apply filter_In in I2 as (I2 & N2).
        apply is_pos_spec in P1. apply is_neg_spec in N2. unfold elim2 in S1. cbn [fst snd] in *.
        assert (L1 := L _ _ I1). assert (L2 := L _ _ I2).
        destruct a1 as [|x1 a1], a2 as [|x2 a2]; try discriminate. cbn in L1, L2, P1, N2, S1 |- *.
        rewrite dot_vadd, !dot_vscale in S1 by (rewrite !vscale_length; congruence).
        assert (D1 : x1 * / x1 = 1) by (apply Qcmult_inv_r; intros Z; rewrite Z in P1; discriminate).
        assert (D2 : x2 * / x2 = 1) by (apply Qcmult_inv_r; intros Z; rewrite Z in N2; discriminate).
        set (i1 := / x1) in *. set (i2 := / x2) in *. unfold Qcdiv. fold i1 i2.
        assert (P1' : 0 < i1). { destruct (Qclt_le_dec 0 i1); [assumption|]. exfalso. assert (x1 * i1 <= 0) by qcnra. qclra. }
        assert (N2' : i2 < 0). { destruct (Qclt_le_dec i2 0); [assumption|]. exfalso. assert (x2 * i2 <= 0) by qcnra. qclra. }
        set (d1 := dot a1 x) in *. set (d2 := dot a2 x) in *.
        clear - S1 D1 D2 P1' N2'.
        assert (W : 0 <= i1 * - i2 * ((- x2 * d1 + x1 * d2) - (- x2 * b1 + x1 * b2))).
        { assert (0 <= (- x2 * d1 + x1 * d2) - (- x2 * b1 + x1 * b2)) as A by qclra. assert (0 <= i1 * - i2) as B by qcnra.
          clear - A B. qcnra. }
        assert (i1 * - i2 * ((- x2 * d1 + x1 * d2) - (- x2 * b1 + x1 * b2)) = (x2 * i2) * i1 * (d1 - b1) + (x1 * i1) * i2 * (b2 - d2)) as W2 by ring.
        rewrite D1, D2 in W2. rewrite W2 in W. clear - W. qclra. }
      exists (z :: x). split; [cbn; congruence|]. intros a b I. assert (LA := L _ _ I). destruct a as [|u a]; [discriminate|].
      cbn [dot]. destruct (Qclt_le_dec 0 u) as [U|U]; [|destruct (Qclt_le_dec u 0) as [U'|U']].
      * assert (I' : In (u :: a, b) P) by (apply filter_In; split; [assumption|]; apply is_pos_spec; assumption).
        specialize (ZL _ (in_map (fun h => (snd h - dot (tl (fst h)) x) / head (fst h)) _ _ I')). cbn in ZL.
        assert (D1 : u * / u = 1) by (apply Qcmult_inv_r; intros Z; rewrite Z in U; discriminate).
        unfold Qcdiv in ZL. set (i := / u) in *. set (d := dot a x) in *. clear - ZL D1 U.
        assert (u * ((b - d) * i) <= u * z) as K by qcnra. assert (u * ((b - d) * i) = (u * i) * (b - d)) as K2 by ring.
        rewrite K2, D1 in K. qclra.
      * assert (I' : In (u :: a, b) N) by (apply filter_In; split; [assumption|]; apply is_neg_spec; assumption).
        specialize (ZU _ (in_map (fun h => (snd h - dot (tl (fst h)) x) / head (fst h)) _ _ I')). cbn in ZU.
        assert (D1 : u * / u = 1) by (apply Qcmult_inv_r; intros Z; rewrite Z in U'; discriminate).
        unfold Qcdiv in ZU. set (i := / u) in *. set (d := dot a x) in *. clear - ZU D1 U'.
        assert (u * ((b - d) * i) <= u * z) as K by qcnra. assert (u * ((b - d) * i) = (u * i) * (b - d)) as K2 by ring.
        rewrite K2, D1 in K. qclra.
      * assert (u = 0) by qclra. subst u. assert (b <= dot a x); [|qclra]. apply SAT. unfold eliminate. apply in_or_app. left.
        apply in_map_iff. exists (0 :: a, b). split; [reflexivity|]. apply filter_In. split; [assumption|]. apply is_zero_spec. reflexivity.
    + right. exists b. split; [assumption|]. apply (eliminate_lift n H L _ _ C). Qed.

(** a bound implied by a feasible system is a non-negative combination of it *)
Lemma scale_halfspaces n H t c : (forall a b, In (a, b) H -> length a = n) -> length c = n ->
  (exists x, length x = n /\ forall a b, In (a, b) H -> b <= dot a x) ->
  (forall x, length x = n -> (forall a b, In (a, b) H -> b <= dot a x) -> dot c x <= t) ->
  exists w, - t <= w /\ cone n H (vscale (- (1)) c) w.
Proof.
  intros L LC (x0 & X0 & F0) BD.
  (* homogenised system in (s, x):  a.x - b s >= 0,  s >= 0,  c.x - t s >= 1 *)
  set (H' := ((- t) :: c, 1) :: (1 :: vzero n, 0) :: map (fun h => ((- snd h) :: fst h, 0)) H).
  assert (L' : forall a b, In (a, b) H' -> length a = S n).
  { intros a b [E|[E|I]]; [inversion E; subst; cbn; congruence|inversion E; subst; cbn; rewrite vzero_length; reflexivity|].
    apply in_map_iff in I as ((a' & b') & E & I). inversion E; subst. cbn. f_equal. eapply L; eauto. }
  destruct (farkas (S n) H' L') as [(x & X & SAT)|(b & B & C)].
  - exfalso. destruct x as [|s x]; [discriminate|]. cbn in X. injection X as X.
    assert (S1 := SAT _ _ (or_introl eq_refl)). assert (S2 := SAT _ _ (or_intror (or_introl eq_refl))).
    cbn [dot] in S1, S2. rewrite dot_vzero in S2.
    assert (S3 : forall a b, In (a, b) H -> b * s <= dot a x).
    { intros a b I. assert (K : 0 <= - b * s + dot a x).
      { apply (SAT (- b :: a) 0). right; right. apply in_map_iff. exists (a, b). auto. }
      qclra. }
    destruct (Qclt_le_dec 0 s) as [SP|SN].
    + (* x / s is feasible *)
      assert (D : s * / s = 1) by (apply Qcmult_inv_r; intros Z; rewrite Z in SP; discriminate).
      assert (IP : 0 < / s). { destruct (Qclt_le_dec 0 (/ s)); [assumption|]. exfalso. assert (s * / s <= 0) by qcnra. qclra. }
      assert (FX : dot c (vscale (/ s) x) <= t).
      { apply BD; [rewrite vscale_length; assumption|]. intros a b I. specialize (S3 a b I).
        rewrite dot_vscale_r. set (i := / s) in *. clear - S3 D IP. assert (i * (b * s) <= i * dot a x) as H0 by qcnra.
        replace (i * (b * s)) with ((s * i) * b) in H0 by ring. rewrite D in H0. qclra. }
      rewrite dot_vscale_r in FX. set (i := / s) in *. clear - S1 D IP FX SP.
      assert (s * (i * dot c x) <= s * t) as K by qcnra. replace (s * (i * dot c x)) with ((s * i) * dot c x) in K by ring.
      rewrite D in K. qclra.
    + (* x is a direction of unboundedness *)
      assert (s = 0) by qclra. subst s.
      assert (CX : 1 <= dot c x) by qclra.
      assert (LIN : forall a k, length a = n -> dot a (vadd x0 (vscale k x)) = dot a x0 + k * dot a x).
      { intros a k LA. rewrite dot_vadd_r, dot_vscale_r by (rewrite vscale_length; congruence). reflexivity. }
      set (k := if Qclt_le_dec 0 (t - dot c x0) then t - dot c x0 + 1 else 1).
      assert (K1 : 1 <= k) by (unfold k; destruct (Qclt_le_dec 0 (t - dot c x0)); qclra).
      assert (K2 : t - dot c x0 < k) by (unfold k; destruct (Qclt_le_dec 0 (t - dot c x0)); qclra).
      assert (BK : dot c (vadd x0 (vscale k x)) <= t).
      { apply BD; [rewrite vadd_length; rewrite ?vscale_length; congruence|]. intros a b I.
        rewrite LIN by (eapply L; eauto). specialize (S3 a b I). specialize (F0 a b I).
        assert (0 <= k * dot a x). { assert (0 <= dot a x) by qclra. clear - K1 H0. assert (0 <= k) by qclra. qcnra. } qclra. }
      rewrite LIN in BK by assumption. clear - BK K1 K2 CX. assert (k * 1 <= k * dot c x) by qcnra. qclra.
  - (* split the combination into its three parts *)
    assert (SPLIT : forall v c0, cone (S n) H' v c0 -> exists nu mu vx w, 0 <= nu /\ 0 <= mu /\ cone n H vx w /\
              v = (- w + mu - nu * t) :: vadd vx (vscale nu c) /\ c0 = nu).
    { intros v c0 CC. induction CC as [|a d k v c0 I K CC IH].
      - exists 0, 0, (vzero n), 0. split; [apply Qcle_refl|]. split; [apply Qcle_refl|]. split; [constructor|]. split; [|reflexivity].
        rewrite (vscale_0 n) by assumption. rewrite vadd_vzero_r by apply vzero_length.
        replace (- 0 + 0 - 0 * t) with 0 by ring. reflexivity.
      - destruct IH as (nu & mu & vx & w & N & M & CX & -> & ->).
        assert (LX : length vx = n) by (eapply cone_length; eauto).
        destruct I as [E|[E|I]].
        + inversion E; subst a d. exists (k + nu), mu, vx, w. split; [qclra|]. split; [assumption|]. split; [assumption|]. split; [|ring].
          rewrite vscale_cons. cbn [vadd]. f_equal; [ring|].
          rewrite vadd_assoc, (vadd_comm (vscale k c) vx), <- vadd_assoc, vscale_add. reflexivity.
        + inversion E; subst a d. exists nu, (k + mu), vx, w. split; [assumption|]. split; [qclra|]. split; [assumption|]. split; [|ring].
          change (vscale k (1 :: vzero n)) with ((k * 1) :: vscale k (vzero n)). rewrite vscale_vzero. cbn [vadd]. f_equal; [ring|].
          rewrite vadd_comm. apply vadd_vzero_r. rewrite vadd_length; [assumption|]. rewrite vscale_length. congruence.
        + apply in_map_iff in I as ((a' & b') & E & I). cbn in E. inversion E; subst a d.
          exists nu, mu, (vadd (vscale k a') vx), (k * b' + w). split; [assumption|]. split; [assumption|]. split; [constructor; auto|]. split; [|ring].
          change (vscale k (- b' :: a')) with ((k * - b') :: vscale k a'). cbn [vadd]. f_equal; [ring|]. apply vadd_assoc. }
    destruct (SPLIT _ _ C) as (nu & mu & vx & w & N & M & CX & EV & EB). subst b.
    assert (E0 := f_equal (hd 0) EV). apply (f_equal (@tl Qc)) in EV. change (vzero (S n)) with (0 :: vzero n) in E0, EV. cbn [hd tl] in E0, EV.
    assert (D : nu * / nu = 1) by (apply Qcmult_inv_r; intros Z; rewrite Z in B; discriminate).
    assert (IP : 0 < / nu). { destruct (Qclt_le_dec 0 (/ nu)); [assumption|]. exfalso. assert (nu * / nu <= 0) by qcnra. qclra. }
    exists (/ nu * w). split.
    + set (i := / nu) in *. clear - E0 M D IP. assert (w = mu - nu * t) by qclra. subst w.
      replace (i * (mu - nu * t)) with (i * mu - (nu * i) * t) by ring. rewrite D. assert (0 <= i * mu) by qcnra. qclra.
    + replace (vscale (- (1)) c) with (vscale (/ nu) vx); [apply cone_scale; auto; qclra|].
      assert (LX : length vx = n) by (eapply cone_length; eauto). clear - EV D LX LC. set (i := / nu) in *. clearbody i.
      revert vx c LX LC EV. induction n as [|m IHm]; intros vx c LX LC EV; destruct vx as [|u vx], c as [|y c]; try discriminate; [reflexivity|].
      rewrite vscale_cons in EV. assert (E1 := f_equal (hd 0) EV). assert (E2 := f_equal (@tl Qc) EV). change (vzero (S m)) with (0 :: vzero m) in E1, E2. cbn [hd tl vadd] in E1, E2. rewrite !vscale_cons. f_equal; [|apply IHm; cbn in LX, LC; congruence].
      assert (u = - (nu * y)) by qclra. subst u. replace (i * - (nu * y)) with (- (nu * i) * y) by ring. rewrite D. ring. Qed.
