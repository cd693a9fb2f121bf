(** Model of the construction of a scenario from a DAG (InflationProblem.__init__,
    InflationProblem.py:37-49 and 86-291): names and order of parties, sources, intermediate
    latents, observed parents and inflation levels, with the checks of the arguments.

    Simplifications: all names are texts already (the code applies str), so a DAG is a list of
    (node, children) with different nodes, in the order of insertion of the dictionary; the
    children of a node are a list of which only the elements matter (the code makes a set);
    arguments that are not given are empty; warnings are not modelled; default names are modelled
    up to 58 parties (chr(ord("A") + i) below 123).  None = an exception. *)
From Coq Require Import List Arith Bool Ascii String.
From Verif Require Import ScenarioModel ColsModel.
Import ListNotations.
Open Scope string_scope. Open Scope nat_scope. Open Scope list_scope.

Inductive level_arg := LInt (n : nat) | LList (l : list nat).
Inductive classical_arg := CText (is_all : bool) | CNone | CList (l : list string).
Record problem_args := {
  a_dag : list (string * list string);
  a_outcomes : list nat;
  a_settings : list nat;
  a_levels : level_arg;
  a_classical : classical_arg;
  a_nonclassical_latents : list string;
  a_classical_latents : list string;
  a_order : list string }.

Definition inb (s : string) (l : list string) : bool := existsb (String.eqb s) l.
Definition subset (l1 l2 : list string) : bool := forallb (fun s => inb s l2) l1.
(** dict lookup; None = KeyError *)
Fixpoint children_of (dag : list (string * list string)) (u : string) : option (list string) :=
  match dag with [] => None | (v, c) :: d => if String.eqb u v then Some c else children_of d u end.

(** lines 93-106 *)
Definition settings_of (a : problem_args) : option (list nat) :=
  match a_settings a with
  | [] => Some (repeat 1 (List.length (a_outcomes a)))
  | s => if List.length s =? List.length (a_outcomes a) then Some s else None
  end.
(** intermediate_latents, lines 113-117 *)
Definition latents_of (a : problem_args) : list string := a_classical_latents a ++ a_nonclassical_latents a.
(** implicit_names, line 122 *)
Definition implicit_names (a : problem_args) : list string :=
  nodup string_dec (filter (fun s => negb (inb s (latents_of a))) (List.concat (map snd (a_dag a)))).
(** line 156 *)
Definition letter (i : nat) : string := String (ascii_of_nat (65 + i)) "".
(** the names of the parties, lines 119-156 *)
Definition names_of_args (a : problem_args) : option (list string) :=
  let n := List.length (a_outcomes a) in
  match a_dag a with
  | [] => match a_order a with
          | [] => if n <=? 58 then Some (map letter (seq 0 n)) else None
          | o => if List.length o =? n then Some o else if n <=? 58 then Some (map letter (seq 0 n)) else None
          end
  | _ =>
      let imp := implicit_names a in
      if negb (List.length imp =? n) then None
      else match a_order a with
           | [] => Some (py_sorted String.ltb imp)
           | o => if subset imp o && subset o imp then Some o else Some (py_sorted String.ltb imp)
           end
  end.
(** lines 158-167 *)
Definition full_dag (a : problem_args) (names : list string) : list (string * list string) :=
  match a_dag a with [] => [("h_global", names)] | d => d end.
(** _actual_sources, lines 170-176 *)
Definition actual_sources (a : problem_args) (names : list string) : list string :=
  filter (fun u => negb (inb u names) && negb (inb u (latents_of a))) (map fst (full_dag a names)).
(** is source u classical, lines 177-189; None = ValueError or the assertion at 185 *)
Definition classical_flags (a : problem_args) (names : list string) : option (string -> bool) :=
  match a_classical a with
  | CText true => Some (fun _ => true)
  | CText false => None
  | CNone => Some (fun _ => false)
  | CList l => if subset l (actual_sources a names) then Some (fun u => inb u l) else None
  end.
(** lines 191-204: a non-classical latent needs a parent that is a non-classical source, and all
    its parents must be sources (KeyError otherwise) *)
Definition latent_ok (a : problem_args) (names : list string) (classical : string -> bool) (l : string) : bool :=
  let ps := map fst (filter (fun uc => inb l (snd uc)) (full_dag a names)) in
  subset ps (actual_sources a names) && negb (forallb classical ps).
(** names_to_integers, lines 209-210: the last position; beyond the number of parties an index error *)
Fixpoint last_position (s : string) (l : list string) (i : nat) : option nat :=
  match l with
  | [] => None
  | t :: l' => match last_position s l' (S i) with
               | Some j => Some j
               | None => if String.eqb s t then Some i else None
               end
  end.
Definition party_index (a : problem_args) (names : list string) (s : string) : option nat :=
  match last_position s names 0 with
  | Some i => if i <? List.length (a_outcomes a) then Some i else None
  | None => None
  end.
(** adjacency_matrix, lines 211-220: pairs (parent, child) *)
Definition adjacency (a : problem_args) (names : list string) : option (list (nat * nat)) :=
  option_map (@List.concat _)
    (map_opt (fun uc => match party_index a names (fst uc), map_opt (party_index a names) (snd uc) with
                        | Some i, Some js => Some (map (fun j => (i, j)) js)
                        | _, _ => None
                        end)
             (filter (fun uc => inb (fst uc) names) (full_dag a names))).
(** parents_per_party, line 223 *)
Definition has_edge (adj : list (nat * nat)) (i j : nat) : bool := existsb (fun e => (fst e =? i) && (snd e =? j)) adj.
Definition parents_of (n : nat) (adj : list (nat * nat)) : list (list nat) :=
  map (fun j => filter (fun i => has_edge adj i j) (seq 0 n)) (seq 0 n).
(** the rows of the hypergraph, lines 241-270 *)
Definition latent_of (a : problem_args) (names : list string) (l : string) : option latent :=
  match children_of (full_dag a names) l with
  | None => None
  | Some c => option_map (fun js => {| l_nonclassical := inb l (a_nonclassical_latents a); l_desc := js |})
                         (map_opt (party_index a names) c)
  end.
Definition source_of (a : problem_args) (names : list string) (classical : string -> bool) (u : string) : option source :=
  match children_of (full_dag a names) u with
  | None => None
  | Some c =>
      let lat := filter (fun s => negb (inb s names)) c in
      if subset lat (latents_of a) then
        match map_opt (party_index a names) (filter (fun s => inb s names) c), map_opt (latent_of a names) lat with
        | Some js, Some ls => Some {| s_classical := classical u; s_children := js; s_latents := ls |}
        | _, _ => None
        end
      else None
  end.
(** inflation_level_per_source, lines 276-291; an int 0 counts as not given *)
Definition levels_of (a : problem_args) (k : nat) : option (list nat) :=
  match a_levels a with
  | LInt 0 | LList [] => Some (repeat 1 k)
  | LInt n => Some (repeat n k)
  | LList l => if List.length l =? k then Some l else None
  end.
(** __init__: the names of the parties, the names of the sources and the scenario *)
Record problem := { p_names : list string; p_sources : list string; p_scenario : scenario }.
Definition build_problem (a : problem_args) : option problem :=
  match a_outcomes a with [] => None | _ =>
  match settings_of a with None => None | Some settings =>
  if existsb (fun l => inb l (a_nonclassical_latents a)) (a_classical_latents a) then None else
  match names_of_args a with None => None | Some names =>
  match classical_flags a names with None => None | Some classical =>
  if negb (forallb (latent_ok a names classical) (a_nonclassical_latents a)) then None else
  match adjacency a names with None => None | Some adj =>
  match map_opt (source_of a names classical) (actual_sources a names) with None => None | Some srcs =>
  match levels_of a (List.length srcs) with None => None | Some lv =>
  let sc := {| outcomes := a_outcomes a; private_settings := settings;
               parents := parents_of (List.length (a_outcomes a)) adj; sources := srcs; levels := lv |} in
  (* lines 273-274 *)
  if forallb (fun p => existsb (fun k => hypergraph sc k p) (seq 0 (nr_sources sc))) (seq 0 (nr_parties sc))
  then Some {| p_names := names; p_sources := actual_sources a names; p_scenario := sc |} else None
  end end end end end end end.
