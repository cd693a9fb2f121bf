From Coq Require Import List Arith Bool QArith Qcanon Lia Lqa Permutation.
From Verif Require Import MargModel FactorModel QcSum QcArith UniqueProofs Duality LPSolveModel LPSolveSpec LPSolveProofs LPSolveProofs2.
Import ListNotations.
Open Scope nat_scope.
From Verif Require LPProofs.
Set Default Proof Using "All".

(** ** the matrix as a function *)
Definition mat (m : coo) (i j : nat) : Qc := sumQ (map (fun e => if (e_row e =? i) && (e_col e =? j) then e_val e else 0%Qc) (c_ent m)).
Lemma total_sumn n f : total n f = sumn n f.
Proof. reflexivity. Qed.
Lemma entry_sum_mat m i x : in_shape m -> entry_sum m i x = sumn (c_cols m) (fun j => mat m i j * x j)%Qc.
Proof.
  intros SH. unfold entry_sum, mat, in_shape in *. revert SH. generalize (c_ent m). intros es. induction es as [|e es IH]; intros SH.
  - cbn. rewrite <- (sumn_0 (c_cols m)) at 1. apply sumn_ext. intros. ring.
  - cbn [map]. rewrite sumQ_cons, IH by (intros; apply SH; right; assumption). destruct (SH e (or_introl eq_refl)) as (_ & C).
    transitivity (sumn (c_cols m) (fun j => (if (e_row e =? i) && (e_col e =? j) then e_val e else 0) * x j + sumQ (map (fun e0 => if (e_row e0 =? i) && (e_col e0 =? j) then e_val e0 else 0) es) * x j))%Qc.
    + rewrite sumn_add. f_equal. rewrite (sumn_single _ (e_col e)); [rewrite Nat.eqb_refl, andb_true_r; destruct (e_row e =? i); ring|assumption|].
      intros j _ N. rewrite (proj2 (Nat.eqb_neq (e_col e) j)) by auto. rewrite andb_false_r. ring.
    + apply sumn_ext. intros j J. rewrite sumQ_cons. ring. Qed.
Lemma col_sum_mat m j y : in_shape m -> sumQ (map (fun e => if e_col e =? j then e_val e * y (e_row e) else 0)%Qc (c_ent m)) = sumn (c_rows m) (fun i => mat m i j * y i)%Qc.
Proof.
  intros SH. unfold mat, in_shape in *. revert SH. generalize (c_ent m). intros es. induction es as [|e es IH]; intros SH.
  - cbn. rewrite <- (sumn_0 (c_rows m)) at 1. apply sumn_ext. intros. ring.
  - cbn [map]. rewrite sumQ_cons, IH by (intros; apply SH; right; assumption). destruct (SH e (or_introl eq_refl)) as (R & _).
    transitivity (sumn (c_rows m) (fun i => (if (e_row e =? i) && (e_col e =? j) then e_val e else 0) * y i + sumQ (map (fun e0 => if (e_row e0 =? i) && (e_col e0 =? j) then e_val e0 else 0) es) * y i))%Qc.
    + rewrite sumn_add. f_equal. rewrite (sumn_single _ (e_row e)); [rewrite Nat.eqb_refl; cbn [andb]; destruct (e_col e =? j); ring|assumption|].
      intros i _ N. rewrite (proj2 (Nat.eqb_neq (e_row e) i)) by auto. cbn [andb]. ring.
    + apply sumn_ext. intros i I. rewrite sumQ_cons. ring. Qed.

Lemma nth_map_seq_d {A} (f : nat -> A) k j d : j < k -> nth j (map f (seq 0 k)) d = f j.
Proof. intros J. rewrite (nth_map_d f _ _ _ 0) by (rewrite seq_length; assumption). rewrite seq_nth by assumption. reflexivity. Qed.
Lemma sumQ_if_filter {A} (p : A -> bool) (f : A -> Qc) l : sumQ (map f (filter p l)) = sumQ (map (fun x => if p x then f x else 0%Qc) l).
Proof. induction l as [|x l IH]; [reflexivity|]. cbn [filter map]. destruct (p x); cbn [map]; rewrite !sumQ_cons, IH; ring. Qed.

Lemma activity_csc t m : in_shape m -> t_numvar t = c_cols m -> t_cols t = csc m -> forall i z, activity t i z = entry_sum m i z.
Proof.
  intros SH N C i z. unfold activity. rewrite N, C. rewrite entry_sum_mat by assumption. apply sumn_ext. intros j J.
  unfold csc. rewrite nth_map_seq_d by assumption. rewrite map_map. cbn [fst snd]. rewrite sumQ_if_filter. unfold mat.
  rewrite Qcmult_comm, <- sumQ_scale. apply sumQ_ext. intros e _. destruct (e_col e =? j), (e_row e =? i); cbn [andb]; ring. Qed.
Lemma activity_csr t m : in_shape m -> t_numvar t = c_rows m -> t_cols t = csr m -> forall j y, activity t j y = sumn (c_rows m) (fun i => mat m i j * y i)%Qc.
Proof.
  intros SH N C j y. unfold activity. rewrite N, C. apply sumn_ext. intros i I.
  unfold csr. rewrite nth_map_seq_d by assumption. rewrite map_map. cbn [fst snd]. rewrite sumQ_if_filter. unfold mat.
  rewrite Qcmult_comm, <- sumQ_scale. apply sumQ_ext. intros e _. destruct (e_col e =? j), (e_row e =? i); cbn [andb]; ring. Qed.

(** ** numpy assignment *)
Fixpoint lookup {A} (j : nat) (q : list (nat * A)) : option A :=
  match q with [] => None | (i, v) :: q' => if i =? j then Some v else lookup j q' end.
Lemma set_nth_length {A} (l : list A) : forall i v, length (set_nth l i v) = length l.
Proof. induction l; destruct i; cbn; auto. Qed.
Lemma nth_set_nth {A} (l : list A) : forall i j v d, j < length l -> nth j (set_nth l i v) d = if i =? j then v else nth j l d.
Proof. induction l as [|b l IH]; intros i j v d J; [cbn in J; lia|]. destruct i, j; cbn [set_nth nth Nat.eqb]; auto. apply IH. cbn in J. lia. Qed.
Lemma put_length {A} (q : list (nat * A)) : forall l, length (put l q) = length l.
Proof. induction q as [|(i, v) q IH]; intros l; [reflexivity|]. cbn [put fold_left]. change (fold_left (fun (l : list A) (p : nat * A) => set_nth l (fst p) (snd p)) q ?x) with (put x q). rewrite IH. apply set_nth_length. Qed.
Lemma lookup_none {A} j (q : list (nat * A)) : ~ In j (map fst q) -> lookup j q = None.
Proof. induction q as [|(i, v) q IH]; intros N; [reflexivity|]. cbn in *. destruct (Nat.eqb_spec i j) as [->|E]; [exfalso; apply N; auto|]. apply IH. tauto. Qed.
Lemma nth_put {A} (q : list (nat * A)) : NoDup (map fst q) -> forall l j d, j < length l ->
  nth j (put l q) d = match lookup j q with Some v => v | None => nth j l d end.
Proof.
  induction q as [|(i, v) q IH]; intros ND l j d J; [reflexivity|]. cbn [map fst] in ND. apply NoDup_cons_iff in ND as (NI & ND).
  cbn [put fold_left fst snd]. change (fold_left (fun (l : list A) (p : nat * A) => set_nth l (fst p) (snd p)) q ?x) with (put x q).
  rewrite IH by (auto; rewrite set_nth_length; assumption). cbn [lookup]. rewrite nth_set_nth by assumption.
  destruct (Nat.eqb_spec i j) as [->|E]; [rewrite lookup_none by assumption; reflexivity|reflexivity]. Qed.
Lemma lookup_mark {A} (v : A) j l : lookup j (map (fun i => (i, v)) l) = if memb j l then Some v else None.
Proof. induction l as [|i l IH]; [reflexivity|]. cbn [map lookup memb existsb]. rewrite Nat.eqb_sym. destruct (j =? i); [reflexivity|]. exact IH. Qed.
Lemma lookup_vec j (v : coo) : lookup j (combine (vec_cols v) (vec_data v)) = match find (fun e => e_col e =? j) (c_ent v) with Some e => Some (e_val e) | None => None end.
Proof. unfold vec_cols, vec_data. induction (c_ent v) as [|e es IH]; [reflexivity|]. cbn [map combine lookup find]. destruct (e_col e =? j); [reflexivity|]. exact IH. Qed.
Lemma memb_vec j v : memb j (vec_cols v) = match find (fun e => e_col e =? j) (c_ent v) with Some _ => true | None => false end.
Proof. unfold vec_cols, memb. induction (c_ent v) as [|e es IH]; [reflexivity|]. cbn [map existsb find]. rewrite Nat.eqb_sym. destruct (e_col e =? j); [reflexivity|]. exact IH. Qed.
Lemma memb_filter p j l : memb j (filter p l) = memb j l && p j.
Proof. unfold memb. induction l as [|i l IH]; [reflexivity|]. cbn [filter existsb]. destruct (p i) eqn:P; cbn [existsb]; rewrite IH; destruct (Nat.eqb_spec j i) as [->|N]; cbn [orb]; rewrite ?P; auto.
  destruct (existsb (Nat.eqb i) l); reflexivity. Qed.
Lemma find_vec_spec v j : NoDup (vec_cols v) ->
  match find (fun e => e_col e =? j) (c_ent v) with
  | Some e0 => In e0 (c_ent v) /\ e_col e0 = j /\ (forall e, In e (c_ent v) -> e_col e = j -> e = e0)
  | None => forall e, In e (c_ent v) -> e_col e <> j end.
Proof.
  unfold vec_cols. induction (c_ent v) as [|e es IH]; intros ND; [intros ? []|]. cbn [map] in ND. apply NoDup_cons_iff in ND as (NI & ND). cbn [find].
  destruct (Nat.eqb_spec (e_col e) j) as [E|E].
  - split; [left; reflexivity|]. split; [assumption|]. intros e' [->|I] E'; [reflexivity|]. exfalso. apply NI. rewrite E, <- E'. apply in_map. assumption.
  - specialize (IH ND). destruct (find _ es) as [e0|].
    + destruct IH as (I & Ej & U). split; [right; assumption|]. split; [assumption|]. intros e' [->|I'] E'; [contradiction|auto].
    + intros e' [->|I]; auto. Qed.

Lemma Forall2_nth_iff {A B} (R : A -> B -> Prop) l l' d d' : length l = length l' -> (Forall2 R l l' <-> forall i, i < length l -> R (nth i l d) (nth i l' d')).
Proof.
  revert l'. induction l as [|u l IH]; intros [|v l'] E; try discriminate.
  - split; [intros _ i I; cbn in I; lia|constructor].
  - cbn in E. injection E as E. split.
    + intros F i I. inversion F; subst. destruct i; [assumption|]. cbn. apply IH; auto. cbn in I. lia.
    + intros F. constructor; [apply (F 0); cbn; lia|]. apply IH; auto. intros i I. apply (F (S i)). cbn. lia. Qed.
Lemma Forall2_app_iff {A B} (R : A -> B -> Prop) l1 l2 l1' l2' : length l1 = length l1' -> (Forall2 R (l1 ++ l2) (l1' ++ l2') <-> Forall2 R l1 l1' /\ Forall2 R l2 l2').
Proof. revert l1'. induction l1 as [|u l1 IH]; intros [|v l1'] E; try discriminate; cbn [app].
  - split; [auto|tauto].
  - cbn in E. injection E as E. specialize (IH l1' E). split.
    + intros F. inversion F; subst. apply IH in H4 as (? & ?). split; [constructor|]; assumption.
    + intros (F & G). inversion F; subst. constructor; [assumption|]. apply IH. auto. Qed.
Lemma Forall2_map_iff {A B C} (R : B -> C -> Prop) (f : A -> B) (g : A -> C) l : Forall2 R (map f l) (map g l) <-> forall u, In u l -> R (f u) (g u).
Proof. induction l as [|u l IH]; cbn [map].
  - split; [intros _ ? []|constructor].
  - split.
    + intros F. inversion F; subst. intros v [<-|I]; [assumption|]. apply IH; assumption.
    + intros F. constructor; [apply F; left; reflexivity|]. apply IH. intros v I. apply F. right. assumption. Qed.
Lemma Forall2_repeat_iff {A B} (R : A -> B -> Prop) a k (f : nat -> B) : Forall2 R (repeat a k) (map f (seq 0 k)) <-> forall i, i < k -> R a (f i).
Proof.
  replace (repeat a k) with (map (fun _ => a) (seq 0 k)).
  - rewrite Forall2_map_iff. split; intros F i I; [apply F, in_seq; lia|apply in_seq in I; apply F; lia].
  - generalize 0. induction k; intros s; [reflexivity|]. cbn. rewrite IHk. reflexivity. Qed.
