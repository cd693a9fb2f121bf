(** Finite sums and products of rationals: basic lemmas. *)
From Coq Require Import Permutation Sorted.
From Verif Require Import MargModel ScenarioProofs.

Lemma sumQ_cons a b : sumQ (a :: b) = (a + sumQ b)%Qc.
Proof. reflexivity. Qed.
Lemma sumQ_nil : sumQ [] = 0%Qc.
Proof. reflexivity. Qed.
Lemma sumQ_app a b : sumQ (a ++ b) = (sumQ a + sumQ b)%Qc.
Proof. induction a as [|x a IH]; [rewrite sumQ_nil; cbn [app]; ring|]. cbn [app]. rewrite !sumQ_cons, IH. ring. Qed.
Lemma sumQ_perm a b : Permutation a b -> sumQ a = sumQ b.
Proof.
  induction 1 as [|x a b _ IH|x y a|a b c _ IH1 _ IH2]; rewrite ?sumQ_cons; [reflexivity|rewrite IH; reflexivity|ring|congruence].
Qed.
Lemma sumQ_flat_map {A} (f : A -> list Qc) l : sumQ (flat_map f l) = sumQ (map (fun x => sumQ (f x)) l).
Proof. induction l as [|x l IH]; [reflexivity|]. cbn [flat_map map]. rewrite sumQ_app, IH. reflexivity. Qed.
Lemma sumQ_zero {A} (l : list A) (f : A -> Qc) : (forall x, In x l -> f x = 0%Qc) -> sumQ (map f l) = 0%Qc.
Proof.
  induction l as [|x l IH]; intros H; [reflexivity|]. cbn [map]. rewrite sumQ_cons, H by (left; reflexivity).
  rewrite IH; [ring|]. intros y Hy; apply H; right; exact Hy.
Qed.
Lemma sumQ_ext {A} (l : list A) (f g : A -> Qc) : (forall x, In x l -> f x = g x) -> sumQ (map f l) = sumQ (map g l).
Proof. intros H. f_equal. apply map_ext_in, H. Qed.
Lemma sumQ_add {A} (l : list A) (f g : A -> Qc) : sumQ (map (fun x => f x + g x)%Qc l) = (sumQ (map f l) + sumQ (map g l))%Qc.
Proof. induction l as [|x l IH]; [cbn [map]; rewrite ?sumQ_nil; ring|]. cbn [map]. rewrite !sumQ_cons, IH. ring. Qed.
Lemma sumQ_scale {A} (l : list A) c (f : A -> Qc) : sumQ (map (fun x => c * f x)%Qc l) = (c * sumQ (map f l))%Qc.
Proof. induction l as [|x l IH]; [cbn [map]; rewrite ?sumQ_nil; ring|]. cbn [map]. rewrite !sumQ_cons, IH. ring. Qed.
Lemma sumQ_swap {A B} (l : list A) (m : list B) (f : A -> B -> Qc) :
  sumQ (map (fun x => sumQ (map (f x) m)) l) = sumQ (map (fun y => sumQ (map (fun x => f x y) l)) m).
Proof.
  induction l as [|x l IH]; cbn [map].
  - symmetry. apply sumQ_zero. reflexivity.
  - rewrite sumQ_cons, IH, <- sumQ_add. reflexivity.
Qed.
Lemma sumQ_filter {A} (l : list A) (p : A -> bool) (f : A -> Qc) :
  sumQ (map f (filter p l)) = sumQ (map (fun x => if p x then f x else 0%Qc) l).
Proof. induction l as [|x l IH]; [reflexivity|]. cbn [filter map]. rewrite sumQ_cons, <- IH. destruct (p x); cbn [map]; rewrite ?sumQ_cons; ring. Qed.
Lemma sumQ_nonneg {A} (l : list A) (f : A -> Qc) : (forall x, In x l -> 0 <= f x)%Qc -> (0 <= sumQ (map f l))%Qc.
Proof.
  induction l as [|x l IH]; intros H; cbn [map]; [apply Qcle_refl|]. rewrite sumQ_cons.
  replace 0%Qc with (0 + 0)%Qc by ring. apply Qcplus_le_compat; [apply H; left; reflexivity|].
  apply IH. intros y Hy. apply H; right; exact Hy.
Qed.
(** a sum in which only one element contributes *)
Lemma sumQ_single {A} (dec : forall x y : A, {x = y} + {x <> y}) (l : list A) (a : A) (f : A -> Qc) : NoDup l -> In a l ->
  (forall x, In x l -> x <> a -> f x = 0%Qc) -> sumQ (map f l) = f a.
Proof.
  induction l as [|x l IH]; intros N Hin H; [destruct Hin|]. inversion N as [|? ? Hx Nl]; subst. cbn [map]. rewrite sumQ_cons.
  destruct (dec x a) as [->|Hne].
  - rewrite sumQ_zero; [ring|]. intros y Hy. apply H; [right; exact Hy|]. intros ->. contradiction.
  - rewrite (H x (or_introl eq_refl) Hne), IH; [ring|exact Nl| |].
    + destruct Hin as [<-|Hin]; [congruence|exact Hin].
    + intros y Hy Hn. apply H; [right; exact Hy|exact Hn].
Qed.

Lemma prodQ_cons a b : prodQ (a :: b) = (a * prodQ b)%Qc.
Proof. reflexivity. Qed.
Lemma prodQ_nil : prodQ [] = 1%Qc.
Proof. reflexivity. Qed.
Lemma prodQ_app a b : prodQ (a ++ b) = (prodQ a * prodQ b)%Qc.
Proof. induction a as [|x a IH]; [rewrite prodQ_nil; cbn [app]; ring|]. cbn [app]. rewrite !prodQ_cons, IH. ring. Qed.
Lemma prodQ_perm a b : Permutation a b -> prodQ a = prodQ b.
Proof.
  induction 1 as [|x a b _ IH|x y a|a b c _ IH1 _ IH2]; rewrite ?prodQ_cons; [reflexivity|rewrite IH; reflexivity|ring|congruence].
Qed.
Lemma Qcpower_repeat v k : Qcpower v k = prodQ (repeat v k).
Proof. induction k; [reflexivity|]. cbn. rewrite IHk. reflexivity. Qed.

Lemma perm_of_same_elements {A} (l l' : list A) : NoDup l -> NoDup l' -> (forall x, In x l <-> In x l') -> Permutation l l'.
Proof. intros. apply NoDup_Permutation; assumption. Qed.
