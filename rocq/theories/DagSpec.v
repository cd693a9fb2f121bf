(** What the scenario built from a DAG should be. *)
From Coq Require Import List Arith Bool Ascii String.
From Verif Require Import ScenarioModel ScenarioSpec DagModel.
Import ListNotations.
Open Scope nat_scope.

(** The arguments are a dictionary: the nodes are different. *)
Definition is_dict (a : problem_args) : Prop := NoDup (map fst (a_dag a)).
(** [u] is a parent of [v] in the graph *)
Definition edge (a : problem_args) (u v : string) : Prop := exists c, In (u, c) (a_dag a) /\ In v c.
Definition is_latent (a : problem_args) (s : string) : Prop := In s (a_classical_latents a) \/ In s (a_nonclassical_latents a).
Definition is_party (a : problem_args) (s : string) : Prop := (exists u, edge a u s) /\ ~ is_latent a s.
(** a source: a node with an entry in the dictionary that is no party and no intermediate latent *)
Definition is_source (a : problem_args) (u : string) : Prop := In u (map fst (a_dag a)) /\ ~ is_party a u /\ ~ is_latent a u.
Definition is_classical (a : problem_args) (u : string) : Prop :=
  match a_classical a with CText b => b = true | CNone => False | CList l => In u l end.

(** The graphs that are accepted: *)
Record accepted (a : problem_args) : Prop := {
  ac_outcomes : a_outcomes a <> [];
  ac_settings : a_settings a = [] \/ List.length (a_settings a) = List.length (a_outcomes a);
  ac_latents : forall l, ~ (In l (a_classical_latents a) /\ In l (a_nonclassical_latents a));
  (* [order], if it lists the parties, lists them once *)
  ac_order : (forall s, In s (a_order a) <-> is_party a s) -> NoDup (a_order a);
  (* as many outcomes as parties *)
  ac_parties : exists l, NoDup l /\ (forall s, In s l <-> is_party a s) /\ List.length l = List.length (a_outcomes a);
  (* classical sources are sources *)
  ac_classical : match a_classical a with CText b => b = true | CNone => True | CList l => forall u, In u l -> is_source a u end;
  (* the parents of a non-classical latent are sources, one of them non-classical *)
  ac_nonclassical_latents : forall l, In l (a_nonclassical_latents a) ->
      (forall u, edge a u l -> is_source a u) /\ exists u, edge a u l /\ ~ is_classical a u;
  (* parties point to parties *)
  ac_party_children : forall u v, is_party a u -> edge a u v -> is_party a v;
  (* latents that are children of sources have an entry and point to parties *)
  ac_latent_children : forall u l, is_source a u -> edge a u l -> is_latent a l ->
      In l (map fst (a_dag a)) /\ forall v, edge a l v -> is_party a v;
  (* every party is reached by a source, directly or through a latent *)
  ac_reached : forall v, is_party a v -> exists u, is_source a u /\
      (edge a u v \/ exists l, is_latent a l /\ edge a u l /\ edge a l v);
  ac_levels : match a_levels a with LInt _ | LList [] => True
              | LList l => exists us, NoDup us /\ (forall u, In u us <-> is_source a u) /\ List.length l = List.length us end }.

(** The scenario described by the graph, given the names of parties and sources in their order. *)
Record describes (a : problem_args) (names srcs : list string) (sc : scenario) : Prop := {
  d_outcomes : outcomes sc = a_outcomes a;
  d_settings : private_settings sc = match a_settings a with [] => map (fun _ => 1) (a_outcomes a) | s => s end;
  d_names : NoDup names /\ (forall s, In s names <-> is_party a s) /\ List.length names = nr_parties sc;
  d_sources : NoDup srcs /\ (forall u, In u srcs <-> is_source a u) /\ List.length srcs = nr_sources sc;
  d_levels : levels sc = match a_levels a with LInt 0 | LList [] => map (fun _ => 1) srcs | LInt n => map (fun _ => n) srcs | LList l => l end;
  (* the observed parents of a party, in increasing order *)
  d_parents : forall p v, nth_error names p = Some v ->
      NoDup (nth p (parents sc) []) /\
      (forall q, In q (nth p (parents sc) []) <-> exists u, nth_error names q = Some u /\ edge a u v) /\
      forall i j, i < j < List.length (nth p (parents sc) []) -> nth i (nth p (parents sc) []) 0 < nth j (nth p (parents sc) []) 0;
  (* sources: classical, parties reached, and parties joined (for the commutation rule C07) *)
  d_classical : forall k u src, nth_error srcs k = Some u -> nth_error (sources sc) k = Some src ->
      (s_classical src = true <-> is_classical a u) /\
      forall p v, nth_error names p = Some v ->
        (reaches src p <-> edge a u v \/ exists l, is_latent a l /\ edge a u l /\ edge a l v) /\
        forall q w, nth_error names q = Some w ->
          (joins src p q <-> (p = q /\ edge a u v) \/ exists l, is_latent a l /\ edge a u l /\ edge a l v /\ edge a l w) /\
          (joins_quantum src p q <-> ~ is_classical a u /\
             ((p = q /\ edge a u v) \/ exists l, In l (a_nonclassical_latents a) /\ edge a u l /\ edge a l v /\ edge a l w)) }.

(** the order of insertion of the dictionary *)
Definition in_dict_order (a : problem_args) (l : list string) : Prop :=
  exists keep, l = filter keep (map fst (a_dag a)).
