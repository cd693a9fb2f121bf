(** The value of a cleaned certificate, in general. *)
From Coq Require Import List Arith Bool ZArith QArith Qcanon Lia.
From Verif Require Import QcArith ScenarioModel MargModel QcSum SearchModel SearchProofs ProgramModel ProgramSpec ProgramProofs ProgramProofs2 ProgramProofs3 CertModel CertProofs2 CertProofs3.
From Verif Require PropSearch.
Import ListNotations.
Close Scope Q_scope. Close Scope Qc_scope. Open Scope nat_scope.

Definition kept (full : list (key * Qc)) : list (key * Qc) := filter (fun p => negb (isclose0 (snd p))) full.
Lemma dropped_above (y : moment -> Qc) (l : list (key * Qc)) : (forall k v, In (k, v) l -> 0 <= y (monomial_from_name k) /\ y (monomial_from_name k) <= 1)%Qc ->
  (CertProofs2.certificate_at y (kept l) <= CertProofs2.certificate_at y l + count (length l) * atol)%Qc.
Proof.
  intros Y. assert (A0 : (0 < atol)%Qc) by reflexivity. unfold kept, CertProofs2.certificate_at, expr_at. induction l as [|(k & v) l IH]; [discriminate|].
  specialize (IH (fun k' v' H => Y k' v' (or_intror H))). destruct (Y k v (or_introl eq_refl)) as [Y0 Y1]. cbn [filter snd length]. rewrite count_S. cbn [map fst snd]. rewrite sumQ_cons. destruct (isclose0 v) eqn:E; cbn [negb].
  - unfold isclose0, isclose in E. apply qleb_true in E. replace (v - 0)%Qc with v in E by ring. replace (atol + rtol * qabs 0)%Qc with atol in E by (change (qabs 0) with 0%Qc; ring). apply qabs_bounds in E as [E1 E2].
    destruct (term_error v (y (monomial_from_name k)) atol E1 E2 Y0 Y1) as [T1 T2]. qclra.
  - cbn [map fst snd]. rewrite sumQ_cons. qclra.
Qed.
Section General.
Variables (c : context) (value : nat -> option Qc) (y : moment -> Qc) (full : list (key * Qc)).
Hypothesis ONE : one_constant (kept full).
Hypothesis CM : forall k v, In (k, v) full -> isclose0 v = false -> moment_is_zero c (monomial_from_name k) = false -> compute_marginal c value (monomial_from_name k) = Some (y (monomial_from_name k)).
Hypothesis YB : forall k v, In (k, v) full -> (0 <= y (monomial_from_name k) /\ y (monomial_from_name k) <= 1)%Qc.
Hypothesis ZE : forall m, moment_is_zero c m = true -> y m = 0%Qc.
Variables (f : Qc) (Pf : (0 < f)%Qc) (MN : forall k v, In (k, v) full -> isclose0 v = false -> (f <= qabs v)%Qc).
Definition error (n : nat) (f : Qc) : Qc := (count n * (atol / f + default_tol + half / ten_to default_decimals))%Qc.
Lemma evaluation_general : exists v g, evaluate_certificate c value (kept full) = Some v /\ (f <= g)%Qc /\
  (CertProofs2.certificate_at y full / g - error (length full) f <= v)%Qc /\ (v <= CertProofs2.certificate_at y full / g + error (length full) f)%Qc.
Proof.
  set (dual := kept full) in *. set (n := count (length full)).
  assert (KD : forall k v, In (k, v) dual -> In (k, v) full /\ isclose0 v = false). { intros k v H. unfold dual, kept in H. apply filter_In in H as [H C]. cbn [snd] in C. apply negb_true_iff in C. auto. }
  assert (LD : length dual <= length full) by apply kept_length.
  assert (AP : (0 < atol)%Qc) by reflexivity. assert (TP : (0 <= default_tol)%Qc) by discriminate. assert (HP : (0 <= half / ten_to default_decimals)%Qc) by discriminate.
  assert (N0 : (0 <= n)%Qc) by apply count_nonneg. assert (CN : (count (length dual) <= n)%Qc) by (apply count_le, LD).
  pose proof (dropped_close y full YB) as DC1. pose proof (dropped_above y full YB) as DC2. fold (kept full) in DC1. fold dual in DC1, DC2. fold n in DC1, DC2.
  assert (NF : f <> 0%Qc) by (intros Q; rewrite Q in Pf; discriminate).
  assert (SC : forall g, (f <= g)%Qc -> (CertProofs2.certificate_at y full / g - n * (atol / f) <= CertProofs2.certificate_at y dual / g)%Qc /\ (CertProofs2.certificate_at y dual / g <= CertProofs2.certificate_at y full / g + n * (atol / f))%Qc).
  { intros g Hg. assert (Pg : (0 < g)%Qc) by exact (Qclt_le_trans _ _ _ Pf Hg). assert (NG : g <> 0%Qc) by (intros Q; rewrite Q in Pg; discriminate). set (A := CertProofs2.certificate_at y full) in *. set (B := CertProofs2.certificate_at y dual) in *.
    set (u := (A / g)%Qc). set (w := (B / g)%Qc). set (e := (atol / f)%Qc). assert (U : (u * g = A)%Qc) by (unfold u; field; exact NG). assert (V : (w * g = B)%Qc) by (unfold w; field; exact NG). assert (Ef : (e * f = atol)%Qc) by (unfold e; field; exact NF). assert (E0 : (0 <= e)%Qc) by (apply div_nonneg; [exact Pf|discriminate]).
    rewrite <- U, <- V, <- Ef in DC1, DC2. clearbody u w e n. clear - DC1 DC2 Pf Pg Hg E0 N0. assert (K0 : (0 <= n * e)%Qc) by qcnra. set (k := (n * e)%Qc) in *. replace (n * (e * f))%Qc with (k * f)%Qc in DC1, DC2 by (unfold k; ring). clearbody k. assert (Kg : (k * f <= k * g)%Qc) by qcnra. split.
    - destruct (Qclt_le_dec w (u - k)) as [H|H]; [|exact H]. exfalso. assert (w * g < (u - k) * g)%Qc by qcnra. replace ((u - k) * g)%Qc with (u * g - k * g)%Qc in * by ring. qclra.
    - destruct (Qclt_le_dec (u + k) w) as [H|H]; [|exact H]. exfalso. assert ((u + k) * g < w * g)%Qc by qcnra. replace ((u + k) * g)%Qc with (u * g + k * g)%Qc in * by ring. qclra. }
  set (B := (default_tol + half / ten_to default_decimals)%Qc). assert (BP : (0 <= B)%Qc) by discriminate. assert (EE : error (length full) f = (n * (atol / f) + n * B)%Qc) by (unfold error, B; fold n; ring). rewrite EE. assert (Q2 : (count (length dual) * B <= n * B)%Qc) by qcnra. assert (NB : (0 <= n * B)%Qc) by qcnra.
  unfold evaluate_certificate. destruct dual as [|p0 dual'] eqn:ED.
  - exists 0%Qc, f. split; [reflexivity|]. split; [apply Qcle_refl|]. destruct (SC f (Qcle_refl f)) as [S1 S2]. change (CertProofs2.certificate_at y []) with 0%Qc in S1, S2. replace (0 / f)%Qc with 0%Qc in S1, S2 by (field; exact NF). set (u := (CertProofs2.certificate_at y full / f)%Qc) in *. set (e := (n * (atol / f))%Qc) in *. set (b := (n * B)%Qc) in *. clearbody u e b. clear - S1 S2 NB. split; qclra.
  - rewrite <- ED in *. assert (NEd : dual <> []) by (rewrite ED; discriminate). destruct (KD (fst p0) (snd p0)) as [_ C0]; [rewrite ED; left; destruct p0; reflexivity|].
    assert (SOME : existsb (fun p => negb (isclose0 (snd p))) dual = true) by (rewrite ED; cbn [existsb]; rewrite C0; reflexivity).
    destruct (certificate_as_dict c true default_tol default_decimals dual) as [D|] eqn:EC.
    2:{ exfalso. unfold certificate_as_dict in EC. destruct (forallb _ dual); [discriminate|]. destruct (clean_coefficients dual default_tol default_decimals) eqn:EL; [discriminate|]. apply PropSearch.C31_fails_exactly in EL as [_ EL].
        specialize (EL p0). rewrite ED in EL. specialize (EL (or_introl eq_refl)). unfold isclose0, isclose in C0. rewrite <- not_true_iff_false, qleb_true in C0. apply C0. replace (snd p0 - 0)%Qc with (snd p0) by ring. eapply Qcle_trans; [exact EL|discriminate]. }
    destruct (dict_cleaned c default_tol default_decimals dual D ONE EC SOME) as (fc & l & Pfc & (kc & Hkc & Ekc) & CL & ->).
    assert (KL : map fst l = map fst dual) by apply (cleaned_keys _ _ _ _ _ CL).
    exists (expr_at y (image c l)), fc. split; [|split].
    + rewrite (evaluate_is c _ y).
      * f_equal. apply sanitised_exact. intros m v Hm. unfold image in Hm. apply in_map_iff in Hm as (q & Eq & Hq). apply filter_In in Hq as [Hq _]. injection Eq as _ Ev. intros CV.
        assert (Z : v = 0%Qc \/ exists z, v = (z2q z / ten_to default_decimals)%Qc).
        { rewrite <- Ev. clear - CL Hq. induction CL as [|p q' dl l' C _ IH]; [destruct Hq|]. destruct Hq as [->|Hq]; [|apply IH, Hq]. destruct C as (_ & [(_ & C)|(_ & _ & C)] & _); [left; exact C|right; exact C]. }
        destruct Z as [Z|Z]; [exact Z|]. apply (decimals_kept default_decimals v); [unfold default_decimals; lia|exact Z|exact CV].
      * intros m Hm. apply (proj1 (sanitise_key (fun m : moment => m) _ m)) in Hm as (k & v & Hk & <- & _). unfold image in Hk. apply in_map_iff in Hk as (q & Eq & Hq). apply filter_In in Hq as [Hq NZ]. injection Eq as <- _. apply negb_true_iff in NZ.
        assert (Hf : In (fst q) (map fst dual)) by (rewrite <- KL; apply in_map, Hq). apply in_map_iff in Hf as ((k & w) & Ek & Hk). cbn [fst] in Ek. rewrite <- Ek in *. destruct (KD k w Hk) as [H1 H2]. apply (CM k w H1 H2 NZ).
    + destruct kc as (k & w). destruct (KD k w Hkc) as [H1 H2]. cbn [snd] in Ekc. rewrite <- Ekc. apply (MN k w H1 H2).
    + rewrite (image_value c y l ZE).
      assert (YK : forall k v, In (k, v) dual -> (0 <= y (monomial_from_name k) /\ y (monomial_from_name k) <= 1)%Qc) by (intros k v Hk; destruct (KD k v Hk) as [H1 _]; apply (YB k v H1)).
      pose proof (cleaned_value default_tol fc default_decimals (fun k => y (monomial_from_name k)) dual l Pfc YK CL) as [C1 C2]. change (qabs default_tol) with default_tol in C1, C2. fold B in C1, C2.
      assert (Hg : (f <= fc)%Qc). { destruct kc as (k & w). destruct (KD k w Hkc) as [H1 H2]. cbn [snd] in Ekc. rewrite <- Ekc. apply (MN k w H1 H2). }
      destruct (SC fc Hg) as [S1 S2]. unfold CertProofs2.certificate_at in *. set (a := expr_at (fun k => y (monomial_from_name k)) l) in *. set (b := (expr_at (fun k => y (monomial_from_name k)) dual / fc)%Qc) in *. set (u := (expr_at (fun k => y (monomial_from_name k)) full / fc)%Qc) in *. set (e := (n * (atol / f))%Qc) in *. set (nb := (n * B)%Qc) in *. set (db := (count (length dual) * B)%Qc) in *. clearbody a b u e nb db. clear - S1 S2 C1 C2 Q2. split; qclra.
Qed.
End General.
