(** Model of the choice of file and format when a problem is exported, and of the reduction of copy
    indices of a monomial. *)
From Coq Require Import List Arith Bool String Ascii.
Import ListNotations.
Open Scope list_scope.

(** ** Exports.  Python's str.split(".") *)
Definition dot : ascii := "."%char.
Fixpoint split_dots (s : string) : list string :=
  match s with
  | EmptyString => [EmptyString]
  | String c r =>
      if Ascii.eqb c dot then EmptyString :: split_dots r
      else match split_dots r with h :: t => String c h :: t | [] => [String c EmptyString] end
  end.
Inductive format := LPFormat | MPSFormat | SDPAFormat | CSVFormat | MATFormat.
(** inflation/lp/InflationLP.py 920-925, inflation/sdp/InflationSDP.py 1304-1309: the extension and the
    name of the file, with the default extension *)
Definition extension_of (default filename : string) : string * string :=
  let parts := split_dots filename in
  if 2 <=? List.length parts then (last parts EmptyString, filename) else (default, (filename ++ "." ++ default)%string).
(** InflationLP.write_to_file, inflation/lp/InflationLP.py 910-938: the format and the file written, or
    None for the exception (what is written is modelled in LPWriteModel) *)
Definition lp_export (filename : string) : option (format * string) :=
  let '(extension, filename) := extension_of "lp" filename in
  if String.eqb extension "lp" then Some (LPFormat, filename)
  else if String.eqb extension "mps" then Some (MPSFormat, filename) else None.
(** InflationSDP.write_to_file, inflation/sdp/InflationSDP.py 1293-1322 (what is written is modelled in
    SdpaModel, CsvModel, MatModel) *)
Definition sdp_export (filename : string) : option (format * string) :=
  let '(extension, filename) := extension_of "dat-s" filename in
  if String.eqb extension "dat-s" then Some (SDPAFormat, filename)
  else if String.eqb extension "csv" then Some (CSVFormat, filename)
  else if String.eqb extension "mat" then Some (MATFormat, filename) else None.

(** ** reduce_inflation_indices.  numpy.unique: the sorted different entries *)
Fixpoint insert_unique (x : nat) (l : list nat) : list nat :=
  match l with
  | [] => [x]
  | y :: t => if x <? y then x :: l else if x =? y then l else y :: insert_unique x t
  end.
Definition unique (l : list nat) : list nat := fold_right insert_unique [] l.
Fixpoint index (x : nat) (l : list nat) : nat :=
  match l with [] => 0 | y :: t => if x =? y then 0 else S (index x t) end.
(** numpy.unique(l, return_inverse=True)[1] *)
Definition inverse_positions (l : list nat) : list nat := map (fun x => index x (unique l)) l.
Fixpoint set_nth {A} (l : list A) (i : nat) (x : A) : list A :=
  match l, i with
  | [], _ => []
  | _ :: t, 0 => x :: t
  | y :: t, S j => y :: set_nth t j x
  end.
(** inflation/sdp/quantum_tools.py 50-74.  A monomial is given by its columns (the code transposes
    it): the parties, the copy indices of every source, the settings and the outcomes *)
Definition reduce_indices (columns : list (list nat)) : list (list nat) :=
  let nr_sources := List.length columns - 3 in
  let padded := map (cons 0) columns in
  let new := fold_left (fun t source => set_nth t (1 + source) (inverse_positions (nth (1 + source) t []))) (seq 0 nr_sources) padded in
  map (fun c => tl c) new.
