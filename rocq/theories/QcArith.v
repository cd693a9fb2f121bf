(** Linear arithmetic on Qc by transport to Q. *)
From Coq Require Import QArith Qcanon Lqa List.
Import ListNotations.

Lemma this_add x y : (this (x + y)%Qc == this x + this y)%Q.
Proof. cbn [this Qcplus Q2Qc]. apply Qred_correct. Qed.
Lemma this_mul x y : (this (x * y)%Qc == this x * this y)%Q.
Proof. cbn [this Qcmult Q2Qc]. apply Qred_correct. Qed.
Lemma this_opp x : (this (- x)%Qc == - this x)%Q.
Proof. cbn [this Qcopp Q2Qc]. apply Qred_correct. Qed.
Lemma this_0 : (this 0%Qc == 0)%Q. Proof. reflexivity. Qed.
Lemma this_1 : (this 1%Qc == 1)%Q. Proof. reflexivity. Qed.
Lemma Qc_eq_this (x y : Qc) : x = y -> (this x == this y)%Q.
Proof. intros ->. reflexivity. Qed.

Ltac qc_push H := repeat (rewrite this_add in H || rewrite this_mul in H || rewrite this_opp in H || rewrite this_0 in H || rewrite this_1 in H).
Ltac qc_prep :=
  unfold Qcminus in *;
  repeat match goal with
  | H : @eq Qc _ _ |- _ => apply Qc_eq_this in H; qc_push H
  | H : (_ <= _)%Qc |- _ => unfold Qcle in H; qc_push H
  | H : (_ < _)%Qc |- _ => unfold Qclt in H; qc_push H
  | H : ~ (_ <= _)%Qc |- _ => apply Qcnot_le_lt in H
  | H : ~ (_ < _)%Qc |- _ => apply Qcnot_lt_le in H
  end;
  try match goal with
  | |- @eq Qc _ _ => apply Qc_is_canon
  | |- (_ <= _)%Qc => unfold Qcle
  | |- (_ < _)%Qc => unfold Qclt
  end;
  repeat (rewrite this_add || rewrite this_mul || rewrite this_opp || rewrite this_0 || rewrite this_1).
Ltac qclra := qc_prep; lra.
Ltac qcnra := qc_prep; nra.
