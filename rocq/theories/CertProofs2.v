(** The dictionary of a certificate and its value. *)
From Coq Require Import List Arith Bool ZArith QArith Qcanon Lia.
From Verif Require Import QcArith ScenarioModel MargModel QcSum SearchModel SearchProofs ProgramModel ProgramSpec ProgramProofs ProgramProofs2 ProgramProofs3 CertModel.
From Verif Require PropSearch.
Import ListNotations.
Close Scope Q_scope. Close Scope Qc_scope. Open Scope nat_scope.

Definition count (n : nat) : Qc := z2q (Z.of_nat n).
Lemma count_S n : count (S n) = (count n + 1)%Qc.
Proof. unfold count. rewrite Nat2Z.inj_succ. unfold Z.succ, z2q. apply Qc_is_canon. cbn [this Q2Qc Qcplus]. rewrite !Qred_correct. rewrite inject_Z_plus. reflexivity. Qed.
Lemma count_nonneg n : (0 <= count n)%Qc.
Proof. induction n as [|n IH]; [discriminate|]. rewrite count_S. assert (0 < 1)%Qc by reflexivity. qclra. Qed.
Lemma count_le n m : n <= m -> (count n <= count m)%Qc.
Proof. induction 1 as [|m _ IH]; [apply Qcle_refl|]. rewrite count_S. assert (0 < 1)%Qc by reflexivity. qclra. Qed.

Lemma update_keys (l : mdict Qc) : forall d, NoDup (keys d) -> NoDup (keys (update meq d l)).
Proof. unfold update. induction l as [|p l IH]; intros d N; cbn [fold_left]; [exact N|]. apply IH, nodup_set, N. Qed.
Lemma set_absent m v (d : mdict Qc) : ~ In m (keys d) -> set meq m v d = d ++ [(m, v)].
Proof.
  unfold keys. induction d as [|(k & w) d IH]; intros N; [reflexivity|]. cbn [set]. destruct (meq m k) as [->|]; [exfalso; apply N; left; reflexivity|]. rewrite IH; [reflexivity|]. intros H. apply N. right. exact H.
Qed.
Lemma update_fresh (l : mdict Qc) : forall d, NoDup (keys d ++ keys l) -> update meq d l = d ++ l.
Proof.
  unfold update. induction l as [|(m & v) l IH]; intros d N; cbn [fold_left]; [rewrite app_nil_r; reflexivity|]. cbn [fst snd]. unfold keys in N. cbn [map fst] in N. apply NoDup_remove in N as [N NI].
  assert (A : ~ In m (keys d)) by (intros H; apply NI, in_or_app; left; exact H). rewrite (set_absent m v d A), IH; [rewrite <- app_assoc; reflexivity|].
  unfold keys. rewrite map_app. cbn [map fst]. rewrite <- app_assoc. cbn [app]. apply NoDup_Add with (a := m) (l := map fst d ++ map fst l); [apply Add_app|]. split; [exact N|exact NI].
Qed.

(** what a certificate says at values of the moments *)
Definition certificate_at (y : moment -> Qc) (dual : list (key * Qc)) : Qc := expr_at (fun k => y (monomial_from_name k)) dual.
Definition one_constant (dual : list (key * Qc)) : Prop := NoDup (map (fun p => monomial_from_name (fst p)) dual).

Section Dict.
Variable c : context.
Notation zero := (moment_is_zero c).
Definition image (dual : list (key * Qc)) : mdict Qc := map (fun p => (monomial_from_name (fst p), snd p)) (filter (fun p => negb (zero (monomial_from_name (fst p)))) dual).
Lemma image_keys dual : one_constant dual -> NoDup (keys (image dual)).
Proof.
  unfold one_constant, image, keys. induction dual as [|p l IH]; intros N; [constructor|]. cbn [map] in N. inversion N as [|? ? NI N']; subst. cbn [filter]. destruct (zero _); cbn [negb]; [apply IH, N'|]. cbn [map fst]. constructor; [|apply IH, N'].
  intros H. apply NI. rewrite map_map in H. apply in_map_iff in H as (q & Eq & Hq). apply filter_In in Hq as [Hq _]. apply in_map_iff. exists q. cbn [fst] in Eq. auto.
Qed.
Lemma image_value y dual : (forall m, zero m = true -> y m = 0%Qc) -> expr_at y (image dual) = certificate_at y dual.
Proof.
  intros Z. unfold certificate_at, image, expr_at. induction dual as [|p l IH]; [reflexivity|]. cbn [filter map]. rewrite sumQ_cons. destruct (zero _) eqn:E; cbn [negb].
  - rewrite IH, (Z _ E). ring.
  - cbn [map fst snd]. rewrite sumQ_cons, IH. reflexivity.
Qed.
Lemma update_image dual : one_constant dual -> update meq [] (image dual) = image dual.
Proof. intros N. apply (update_fresh (image dual) []). apply (image_keys dual N). Qed.
Lemma dict_plain tol d dual D : one_constant dual -> certificate_as_dict c false tol d dual = Some D -> existsb (fun p => negb (isclose0 (snd p))) dual = true -> D = image dual.
Proof.
  intros N E H. unfold certificate_as_dict in E. destruct (forallb _ dual) eqn:F.
  - exfalso. apply existsb_exists in H as (p & Hp & Cp). rewrite (proj1 (forallb_forall _ _) F p Hp) in Cp. discriminate.
  - injection E as <-. apply update_image, N.
Qed.
Lemma cleaned_keys {K} tol f d (l l' : list (K * Qc)) : Forall2 (PropSearch.cleaned tol f d) l l' -> map fst l' = map fst l.
Proof. induction 1 as [|p q l l' H _ IH]; [reflexivity|]. cbn [map]. f_equal; [apply H|exact IH]. Qed.
Lemma dict_cleaned tol d dual D : one_constant dual -> certificate_as_dict c true tol d dual = Some D -> existsb (fun p => negb (isclose0 (snd p))) dual = true ->
  exists f l, (0 < f)%Qc /\ (exists kc, In kc dual /\ qabs (snd kc) = f) /\ Forall2 (PropSearch.cleaned tol f d) dual l /\ D = image l.
Proof.
  intros N E H. unfold certificate_as_dict in E. destruct (forallb _ dual) eqn:F.
  - exfalso. apply existsb_exists in H as (p & Hp & Cp). rewrite (proj1 (forallb_forall _ _) F p Hp) in Cp. discriminate.
  - destruct (clean_coefficients dual tol d) as [l|] eqn:El; [|discriminate]. injection E as <-. assert (NE : dual <> []) by (intros ->; discriminate).
    destruct (PropSearch.C31_cleaning dual tol d l NE El) as (f & P & (kc & Hk & Ek & _) & _ & _ & CL). exists f, l. split; [exact P|]. split; [eauto|]. split; [exact CL|]. apply update_image. unfold one_constant in *.
    rewrite <- (map_map fst monomial_from_name) in N |- *. rewrite (cleaned_keys _ _ _ _ _ CL). exact N.
Qed.
Lemma qabs_bounds x b : (qabs x <= b)%Qc -> (- b <= x)%Qc /\ (x <= b)%Qc.
Proof. intros H. destruct (qabs_case x) as [(A & B)|(A & B)]; rewrite B in H; split; qclra. Qed.
Lemma term_error (e x b : Qc) : (- b <= e)%Qc -> (e <= b)%Qc -> (0 <= x)%Qc -> (x <= 1)%Qc -> (- b <= e * x)%Qc /\ (e * x <= b)%Qc.
Proof. intros. assert (0 <= b)%Qc by qclra. split; qcnra. Qed.
Lemma cleaned_value tol f d (y : key -> Qc) l l' : (0 < f)%Qc -> (forall k v, In (k, v) l -> 0 <= y k /\ y k <= 1)%Qc -> Forall2 (PropSearch.cleaned tol f d) l l' ->
  let B := (count (length l) * (qabs tol + half / ten_to d))%Qc in (expr_at y l / f - B <= expr_at y l')%Qc /\ (expr_at y l' <= expr_at y l / f + B)%Qc.
Proof.
  intros Pf Y H. cbv zeta. revert Y. induction H as [|(k & v) (k' & v') l l' C _ IH]; intros Y.
  - change (expr_at y ([] : list (key * Qc))) with 0%Qc. change (count (length ([] : list (key * Qc)))) with 0%Qc.
    replace (0 / f)%Qc with 0%Qc by (field; intros ->; apply (Qclt_not_eq _ _ Pf); reflexivity). split; qclra.
  - specialize (IH (fun k0 v0 Hk => Y k0 v0 (or_intror Hk))). destruct IH as [I1 I2]. destruct (Y k v (or_introl eq_refl)) as [Y0 Y1].
    assert (NF : f <> 0%Qc) by (intros ->; apply (Qclt_not_eq _ _ Pf); reflexivity).
    unfold PropSearch.cleaned in C. cbn [fst snd] in C. destruct C as (-> & C & _). set (b := (qabs tol + half / ten_to d)%Qc) in *.
    assert (PB : (0 <= half / ten_to d)%Qc) by (apply div_nonneg; [apply ten_to_pos|discriminate]).
    assert (EB : (- b <= v' - v / f)%Qc /\ (v' - v / f <= b)%Qc).
    { pose proof (qabs_nonneg tol) as TN. unfold b. destruct C as [(C & ->)|(_ & C & _)]; apply qabs_bounds in C as [C1 C2]; split; qclra. }
    destruct EB as [E1 E2]. destruct (term_error _ (y k) b E1 E2 Y0 Y1) as [T1 T2].
    change (expr_at y ((k, v) :: l)) with (sumQ (map (fun p => snd p * y (fst p))%Qc ((k, v) :: l))). change (expr_at y ((k, v') :: l')) with (sumQ (map (fun p => snd p * y (fst p))%Qc ((k, v') :: l'))). cbn [map length fst snd]. rewrite !sumQ_cons, count_S.
    fold (expr_at y l) (expr_at y l'). assert (R : ((v * y k + expr_at y l) / f = v / f * y k + expr_at y l / f)%Qc) by (field; exact NF). rewrite R.
    assert (R' : ((v' - v / f) * y k = v' * y k - v / f * y k)%Qc) by ring. rewrite R' in T1, T2. split; qclra.
Qed.
End Dict.
