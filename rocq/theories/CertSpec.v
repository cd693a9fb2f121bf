(** How the text of a certificate is read: a sum of signed terms, each a number, a name, or a number,
    a star and a name. *)
From Coq Require Import List Arith Bool Ascii String QArith Qcanon.
From Verif Require Import ScenarioModel SearchModel MargModel.
Import ListNotations.
Close Scope Q_scope. Close Scope Qc_scope. Open Scope string_scope. Open Scope nat_scope. Open Scope list_scope.

Definition is_digit (c : ascii) : bool := let k := nat_of_ascii c in (48 <=? k) && (k <=? 57).
(** texts between plus and minus signs, with the sign before them (true: minus) *)
Fixpoint signed_texts (minus : bool) (acc s : string) : list (bool * string) :=
  match s with
  | EmptyString => [(minus, acc)]
  | String ch s' =>
      if Ascii.eqb ch "+" then (minus, acc) :: signed_texts false "" s'
      else if Ascii.eqb ch "-" then (minus, acc) :: signed_texts true "" s'
      else signed_texts minus (acc ++ String ch "")%string s'
  end.
(** the text before the first star, and after it *)
Fixpoint at_star (s : string) : string * option string :=
  match s with
  | EmptyString => ("", None)
  | String ch s' => if Ascii.eqb ch "*" then ("", Some s') else (String ch (fst (at_star s')), snd (at_star s'))
  end.
Definition starts_with_digit (s : string) : bool := match s with String ch _ => is_digit ch | EmptyString => false end.
(** [None]: the constant *)
Definition read_term (read : string -> option Qc) (t : bool * string) : option (option string * Qc) :=
  let signed v := if fst t then (- v)%Qc else v in
  if starts_with_digit (snd t)
  then match read (fst (at_star (snd t))) with None => None | Some v => Some (snd (at_star (snd t)), signed v) end
  else Some (Some (snd t), signed 1%Qc).
Definition read_sum (read : string -> option Qc) (s : string) : option (list (option string * Qc)) :=
  fold_right (fun t acc => match read_term read t, acc with Some q, Some l => Some (q :: l) | _, _ => None end) (Some [])
             (filter (fun t => negb (String.eqb (snd t) "")) (signed_texts false "" s)).
(** what the text says, for the values [x] of the named moments *)
Definition sum_value (x : string -> Qc) (l : list (option string * Qc)) : Qc :=
  sumQ (map (fun q => snd q * match fst q with Some n => x n | None => 1 end)%Qc l).

Fixpoint has_no (bad : ascii -> bool) (s : string) : bool := match s with EmptyString => true | String ch s' => negb (bad ch) && has_no bad s' end.
Definition sign (c : ascii) : bool := Ascii.eqb c "+" || Ascii.eqb c "-".
(** names that can be read in a sum *)
Definition readable_name (s : string) : Prop := s <> "" /\ starts_with_digit s = false /\ has_no sign s = true.
(** how numbers that are not negative are written and read *)
Record sum_numbers (show : Qc -> string) (read : string -> option Qc) : Prop := {
  sn_read : forall v, (0 <= v)%Qc -> read (show v) = Some v;
  sn_digit : forall v, (0 <= v)%Qc -> starts_with_digit (show v) = true;
  sn_chars : forall v, (0 <= v)%Qc -> has_no (fun ch => sign ch || Ascii.eqb ch "*") (show v) = true;
  sn_zero : read "0" = Some 0%Qc }.

(** arrays of probabilities: the outcomes come first, then the settings *)
Record probability_array (sc : scenario) (arr : ndarray) : Prop := {
  pa_shape : nd_shape arr = outcomes sc ++ private_settings sc;
  pa_nonneg : forall o x, Forall2 lt o (outcomes sc) -> Forall2 lt x (private_settings sc) -> (0 <= nd_at arr (o ++ x))%Qc;
  pa_total : forall x, Forall2 lt x (private_settings sc) -> sumQ (map (fun o => nd_at arr (o ++ x)) (ndindex (outcomes sc))) = 1%Qc }.
