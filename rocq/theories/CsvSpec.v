(** How the human-readable form of a programme is read. *)
From Coq Require Import List Arith Bool Ascii String ZArith QArith Qcanon.
From Verif Require Import ScenarioModel MargModel SearchModel SdpaModel NameModel CertSpec CsvModel.
Import ListNotations.
Close Scope Q_scope. Close Scope Qc_scope. Open Scope string_scope. Open Scope nat_scope. Open Scope list_scope.

(** a cell of the matrix is a number, a name, or a number, a star and a name *)
Definition starts_with_minus (s : string) : bool := match s with String ch _ => Ascii.eqb ch "-" | EmptyString => false end.
Definition read_cell (read : string -> option Qc) (s : string) : option (Qc * option string) :=
  if starts_with_digit s || starts_with_minus s
  then match read_number read (fst (at_star s)) with Some v => Some (v, snd (at_star s)) | None => None end
  else Some (1%Qc, Some s).
(** what it says, for the values [x] of the named moments *)
Definition cell_value (x : string -> Qc) (t : Qc * option string) : Qc :=
  (fst t * match snd t with Some n => x n | None => 1 end)%Qc.
Definition cell (l : list (list string)) (i j : nat) : string := nth j (nth i l []) "".

(** numbers: those of certificates, written without exponents; natural numbers can be read too,
    and a text with a star is not a number *)
Record csv_numbers (show : Qc -> string) (read : string -> option Qc) : Prop := {
  cn_sum : sum_numbers show read;
  cn_nat : forall k, read (dec k) = Some (Q2Qc (inject_Z (Z.of_nat k)));
  cn_star : forall s t, read (s ++ String "*" t)%string = None }.
(** names that can be told from numbers *)
Definition name_like (s : string) : Prop := s <> "" /\ starts_with_digit s = false /\ starts_with_minus s = false.
