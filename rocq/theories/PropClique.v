(** Property theorems C18: the enumeration of cliques.  Statements use CliqueModel (the code)
    and CliqueSpec. *)
From Coq Require Import Sorted.
From Verif Require Import CliqueModel CliqueSpec.
From Verif Require CliqueProofs.

(** For every undirected graph, every cutoff (0 = none) and either value of the flag: the loop
    terminates; the first list holds every clique (of at most the cutoff size) exactly once, in
    order of increasing size, the empty clique first. *)
Theorem C18_all_cliques : forall n adj max_n isolate, undirected n adj ->
  exists all maximal, all_and_maximal_cliques n adj max_n isolate = Some (all, maximal) /\
  NoDup all /\ hd_error all = Some [] /\
  StronglySorted (fun a b => length a <= length b) all /\
  forall c, In c all <-> is_clique n adj c /\ (max_n = 0 \/ length c <= max_n).
Proof.
  intros n adj max_n isolate H. destruct (CliqueProofs.cliques_correct n adj max_n isolate H) as (all & mx & E & SO & A & _).
  exists all, mx. split; [exact E|]. split; [now apply CliqueProofs.SS_sl_NoDup|]. split.
  - assert (I : In [] all).
    { apply A. split; [|destruct max_n; [now left|right; cbn; lia]]. split; [constructor|]. split; [intros ? []|intros ? ? []]. }
    destruct all as [|c all]; [destruct I|]. cbn. destruct I as [->|I]; [reflexivity|]. inversion SO as [|? ? _ F]; subst. rewrite Forall_forall in F.
    specialize (F _ I). apply CliqueProofs.sl_len in F as L. destruct c; [reflexivity|cbn in L; lia].
  - split; [|exact A]. clear - SO. induction SO as [|x l S1 IH F]; constructor; [exact IH|]. rewrite Forall_forall in *. intros y Hy. apply CliqueProofs.sl_len. now apply F.
Qed.
Print Assumptions C18_all_cliques.

(** Without a cutoff, the second list holds exactly the (non-empty) cliques that cannot be
    extended, once each. *)
Theorem C18_maximal_cliques : forall n adj, undirected n adj ->
  exists all maximal, all_and_maximal_cliques n adj 0 true = Some (all, maximal) /\
  NoDup maximal /\ forall c, In c maximal <-> c <> [] /\ is_maximal n adj c.
Proof.
  intros n adj H. destruct (CliqueProofs.cliques_correct n adj 0 true H) as (all & mx & E & SO & A & N & I & NN & M).
  exists all, mx. split; [exact E|]. split; [exact N|]. intros c. split.
  - intros Hc. assert (c <> []) by (intros ->; contradiction). split; [assumption|]. apply M; auto; [|now left]. apply A. now apply I.
  - intros [H1 H2]. apply M; auto; [apply H2|now left].
Qed.
Print Assumptions C18_maximal_cliques.

(** With a cutoff, cliques strictly smaller than it are marked correctly. *)
Theorem C18_maximal_below_cutoff : forall n adj max_n, undirected n adj -> 0 < max_n ->
  exists all maximal, all_and_maximal_cliques n adj max_n true = Some (all, maximal) /\ NoDup maximal /\ incl maximal all /\
  forall c, c <> [] -> length c < max_n -> (In c maximal <-> is_maximal n adj c).
Proof.
  intros n adj max_n H P. destruct (CliqueProofs.cliques_correct n adj max_n true H) as (all & mx & E & SO & A & N & I & NN & M).
  exists all, mx. split; [exact E|]. split; [exact N|]. split; [exact I|]. intros c Hn L. split.
  - intros Hc. apply M; auto; [apply A; now apply I|now right].
  - intros Hm. apply M; auto; [apply Hm|now right].
Qed.
Print Assumptions C18_maximal_below_cutoff.

(** At the cutoff size the marking is wrong: on the single edge 0 - 1 with cutoff 1, {1} is
    reported as maximal, and {0} is not. *)
Definition edge (x y : nat) : bool := negb (x =? y).
Theorem C18_maximal_at_cutoff_refuted :
  undirected 2 edge /\ all_and_maximal_cliques 2 edge 1 true = Some ([[]; [0]; [1]], [[1]]) /\ ~ is_maximal 2 edge [1].
Proof.
  split; [intros x y _ _; unfold edge; now rewrite Nat.eqb_sym|]. split; [reflexivity|]. intros [_ H].
  destruct (H 0) as (x & [<-|[]] & E); [lia|cbn; intros [|[]]; discriminate|discriminate].
Qed.
Print Assumptions C18_maximal_at_cutoff_refuted.

(** The flag switches the second list off. *)
Theorem C18_flag_off : forall n adj max_n, undirected n adj ->
  exists all, all_and_maximal_cliques n adj max_n false = Some (all, []).
Proof.
  intros n adj max_n H. destruct (CliqueProofs.cliques_correct n adj max_n false H) as (all & mx & E & _ & _ & _ & _ & _ & M). subst mx. eauto.
Qed.
Print Assumptions C18_flag_off.

(** A path 0 - 1 - 2 with an isolated vertex 3. *)
Definition path (x y : nat) : bool := (x + y =? 1) || ((x + y =? 3) && (x <? 3) && (y <? 3)).
Example C18_example : undirected 4 path /\
  all_and_maximal_cliques 4 path 0 true = Some ([[]; [0]; [1]; [2]; [3]; [0; 1]; [1; 2]], [[3]; [0; 1]; [1; 2]]).
Proof.
  split; [|reflexivity]. intros x y _ _. unfold path. rewrite (Nat.add_comm x y). f_equal. rewrite <- !andb_assoc. f_equal. apply andb_comm.
Qed.
