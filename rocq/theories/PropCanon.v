(** Property theorems C01-C05.  Statements only use CanonModel (the code),
    CanonSpec and MomentSpec (the specification). *)
From Verif Require Import CanonModel CanonSpec MomentModel MomentSpec.
From Verif Require CanonProofs CanonProofs2 MomentProofs.

(** A concrete, non-trivial pair of tables used by the non-vacuity examples:
    0 is the zero operator; 1,2 are the outcomes of A_x=0; 3,4 those of A_x=1;
    5 is an operator of another party.  A_0 and A_1 do not commute. *)
Definition ex_group (a : nat) : nat :=
  match a with 0 => 0 | 1 | 2 => 1 | 3 | 4 => 2 | S (S (S (S (S n)))) => S (S (S n)) end.
Definition ex_nc : table := fun a b =>
  ((ex_group a =? 1) && (ex_group b =? 2)) || ((ex_group a =? 2) && (ex_group b =? 1)).
Definition ex_ortho : table := fun a b =>
  (a =? 0) || (b =? 0) || ((ex_group a =? ex_group b) && negb (a =? b)).

Example ex_good : good_tables ex_nc ex_ortho.
Proof.
  assert (E : forall a b, ex_ortho a b = true <-> a = 0 \/ b = 0 \/ (ex_group a = ex_group b /\ a <> b)).
  { intros a b. unfold ex_ortho. rewrite !orb_true_iff, andb_true_iff, negb_true_iff, !Nat.eqb_eq, Nat.eqb_neq. tauto. }
  assert (Eg : forall a b, a < b -> ex_group a <= ex_group b).
  { intros [|[|[|[|[|a]]]]] [|[|[|[|[|b]]]]]; cbn; lia. }
  split.
  - intros a b. unfold ex_nc. apply eq_iff_eq_true.
    rewrite !orb_true_iff, !andb_true_iff, !Nat.eqb_eq. tauto.
  - intros a. unfold ex_nc. destruct (Nat.eqb_spec (ex_group a) 1), (Nat.eqb_spec (ex_group a) 2); try reflexivity; lia.
  - intros a; reflexivity.
  - intros a b. apply eq_iff_eq_true. rewrite !E. intuition.
  - intros a Ha. apply not_true_iff_false. rewrite E. tauto.
  - intros a; reflexivity.
  - intros a b c Ha Hb Hc Hac. rewrite !E. intuition congruence.
  - intros a b c Ha Hb. rewrite E. unfold ex_nc. intros [H|[H|[-> _]]]; [lia|lia|reflexivity].
  - intros a b c Ha. rewrite !E. intros H [H1 H2]. right; right. split; [|lia].
    destruct H as [H|[H|[H _]]]; [lia|lia|].
    pose proof (Eg a c H1). pose proof (Eg c b H2). lia.
Qed.

(** C01: sound and complete for commutations, and total. *)
Theorem C01_canonical_form_sound : forall nc w, good_comm nc ->
  exists r, nb_lexmon_to_canonical nc w = Some r /\ comm_eq nc w r.
Proof. exact (fun nc w H => match CanonProofs.canon_correct nc H w with
  ex_intro _ r (conj a (conj b _)) => ex_intro _ r (conj a b) end). Qed.
Print Assumptions C01_canonical_form_sound.

Theorem C01_canonical_form_complete : forall nc w1 w2, good_comm nc ->
  (nb_lexmon_to_canonical nc w1 = nb_lexmon_to_canonical nc w2 <-> comm_eq nc w1 w2).
Proof. exact (fun nc w1 w2 H => CanonProofs.canon_complete nc H w1 w2). Qed.
Print Assumptions C01_canonical_form_complete.

(** C02: lexicographically least in its class. *)
Theorem C02_canonical_form_lex_least : forall nc w r w', good_comm nc ->
  nb_lexmon_to_canonical nc w = Some r ->
  comm_eq nc w r /\ (comm_eq nc w' w -> lex_le r w').
Proof. exact CanonProofs.canon_least. Qed.
Print Assumptions C02_canonical_form_lex_least.

Example C01_C02_nonvacuous :
  nb_lexmon_to_canonical ex_nc [5; 4; 1; 5; 3] = Some [4; 1; 3; 5; 5] /\
  nb_lexmon_to_canonical ex_nc [4; 1; 3; 5] <> nb_lexmon_to_canonical ex_nc [1; 4; 3; 5] /\
  good_comm ex_nc.
Proof. split; [reflexivity|]. split; [discriminate|]. exact (gt_nc_sym _ _ ex_good). Qed.

(** C03: decides equality of products of projectors. *)
Theorem C03_equal_iff_same_canonical_form : forall nc ortho w1 w2, good_tables nc ortho ->
  (to_canonical_1d_internal nc ortho false false w1 = to_canonical_1d_internal nc ortho false false w2
   <-> proj_eq nc ortho w1 w2).
Proof. exact (fun nc ortho w1 w2 G => CanonProofs2.F_complete nc ortho G w1 w2). Qed.
Print Assumptions C03_equal_iff_same_canonical_form.

Theorem C03_zero_iff_forced_zero : forall nc ortho w, good_tables nc ortho ->
  (to_canonical_1d_internal nc ortho false false w = Some [0] <-> is_zero_product nc ortho w).
Proof. exact (fun nc ortho w G => CanonProofs2.F_zero_iff nc ortho G w). Qed.
Print Assumptions C03_zero_iff_forced_zero.

Theorem C03_result_is_equal : forall nc ortho w, good_tables nc ortho ->
  exists r, to_canonical_1d_internal nc ortho false false w = Some r /\ proj_eq nc ortho w r.
Proof. exact (fun nc ortho w G => CanonProofs2.F_sound nc ortho G w). Qed.
Print Assumptions C03_result_is_equal.

(** the fast path taken when all operators commute agrees with the general one *)
Theorem C03_commuting_fast_path : forall nc ortho only_comm w, good_tables nc ortho ->
  (forall a b, nc a b = false) ->
  to_canonical_1d_internal nc ortho true only_comm w
  = to_canonical_1d_internal nc ortho false only_comm w.
Proof. exact (fun nc ortho b w G => CanonProofs2.internal_commuting nc ortho G b w). Qed.
Print Assumptions C03_commuting_fast_path.

Example C03_nonvacuous : good_tables ex_nc ex_ortho /\
  to_canonical_1d_internal ex_nc ex_ortho false false [1; 5; 2] = Some [0] /\
  to_canonical_1d_internal ex_nc ex_ortho false false [5; 1; 5; 3; 3] = Some [1; 3; 5] /\
  to_canonical_1d_internal ex_nc ex_ortho false false [1; 3; 2] = Some [1; 3; 2].
Proof. split; [exact ex_good|]. repeat split. Qed.

(** C04 *)
Theorem C04_idempotent : forall nc ortho w r, good_tables nc ortho ->
  to_canonical_1d_internal nc ortho false false w = Some r ->
  to_canonical_1d_internal nc ortho false false r = Some r.
Proof. exact (fun nc ortho w r G => CanonProofs2.F_idempotent nc ortho G w r). Qed.
Print Assumptions C04_idempotent.

Theorem C04_shape : forall nc ortho w r, good_tables nc ortho ->
  to_canonical_1d_internal nc ortho false false w = Some r ->
  r = [0] \/
  (~ In 0 r /\ incl r w /\ length r <= length w /\
   forall u a b v, r = u ++ a :: b :: v -> a <> b /\ ortho a b = false).
Proof. exact CanonProofs2.F_shape_spec. Qed.
Print Assumptions C04_shape.

(** C05 *)
Theorem C05_moment_matrix : forall nc ortho commuting cols, good_tables nc ortho ->
  (commuting = true -> forall a b, nc a b = false) ->
  exists M D,
  calculate_momentmatrix nc ortho commuting cols = Some (M, D) /\
  (forall i j, i < length cols -> j < length cols ->
     M i j = M j i /\
     (M i j = 0 <-> is_zero_product nc ortho (entry cols i j)) /\
     (M i j <> 0 -> exists k, In (k, M i j) D /\ same_moment nc ortho k (entry cols i j))) /\
  (forall i j i' j', i < length cols -> j < length cols -> i' < length cols -> j' < length cols ->
     M i j <> 0 -> M i' j' <> 0 ->
     (M i j = M i' j' <-> same_moment nc ortho (entry cols i j) (entry cols i' j'))) /\
  NoDup (map fst D) /\ map snd D = seq 1 (length D) /\
  (forall k v, In (k, v) D ->
     to_canonical_1d_internal nc ortho false false k = Some k /\ ~ In 0 k /\
     exists i j, i < length cols /\ j < length cols /\ M i j = v /\ same_moment nc ortho k (entry cols i j)).
Proof. exact (fun nc ortho c cols G H => MomentProofs.momentmatrix_correct nc ortho G c H cols). Qed.
Print Assumptions C05_moment_matrix.

Example C05_nonvacuous :
  match calculate_momentmatrix ex_nc ex_ortho false [[]; [1]; [3]; [5]; [1; 3]] with
  | Some (M, D) => map (fun i => map (M i) (seq 0 5)) (seq 0 5) =
      [[1;2;3;4;5]; [2;2;5;6;5]; [3;5;3;7;8]; [4;6;7;4;9]; [5;5;8;9;8]]
      /\ D = [([], 1); ([1], 2); ([3], 3); ([5], 4); ([1;3], 5); ([1;5], 6); ([3;5], 7); ([3;1;3], 8); ([1;3;5], 9)]
  | None => False end.
Proof. vm_compute. split; reflexivity. Qed.
