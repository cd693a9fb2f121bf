(** Which products of operators a column specification asks for. *)
From Verif Require Import CanonModel CanonSpec ScenarioModel.

(** Operator [x] (an index, 0 being the zero operator) belongs to party [p] and may be used: all
    outcomes of parties with children, all but the last outcome of the others. *)
Definition usable (sc : scenario) (hc : list bool) (x p : nat) : Prop :=
  p < nr_parties sc /\
  exists c s o, nth_error (sdp_lexorder sc) x = Some (mkrow (p + 1) c s o) /\
    (nth p hc false = true \/ o + 1 < nth p (outcomes sc) 0).

(** a product whose k-th factor is an operator of the k-th party of the block *)
Definition of_block (sc : scenario) (hc : list bool) (m : word) (block : list nat) : Prop :=
  Forall2 (usable sc hc) m block.

(** a product of usable operators *)
Definition usable_word (sc : scenario) (hc : list bool) (m : word) : Prop :=
  forall x, In x m -> exists p, usable sc hc x p.

(** number of operators of party [p] in a product *)
Definition party_count (sc : scenario) (p : nat) (m : word) : nat :=
  length (filter (fun x => match nth_error (sdp_lexorder sc) x with Some r => row_party r =? p + 1 | None => false end) m).

(** operators of different parties commute: no non-classical latent of a non-classical source
    acts on two parties *)
Definition separate_parties (sc : scenario) : Prop :=
  forall src l p q, In src (sources sc) -> s_classical src = false -> In l (s_latents src) ->
    l_nonclassical l = true -> In p (l_desc l) -> In q (l_desc l) -> p = q.

(** different positions hold different products: no product is listed twice in any form *)
Definition pairwise_different (nc ortho : table) (cols : list word) : Prop :=
  forall i j w w', nth_error cols i = Some w -> nth_error cols j = Some w' -> proj_eq nc ortho w w' -> i = j.

(** a product of pairwise commuting operators *)
Definition all_commute (nc : table) (m : word) : Prop := forall x y, In x m -> In y m -> nc x y = false.

(** The columns for all products of usable operators with a property: the identity comes first,
    no product occurs twice in any form, every column is a non-zero product with the property,
    and every product with the property is zero or equal to a column. *)
Record columns_for (sc : scenario) (hc : list bool) (allowed : word -> Prop) (cols : list word) : Prop := {
  cf_first : hd_error cols = Some [];
  cf_different : pairwise_different (sdp_notcomm sc) (sdp_orthomat sc) cols;
  cf_sound : forall w, In w cols -> usable_word sc hc w /\ allowed w /\ ~ is_zero_product (sdp_notcomm sc) (sdp_orthomat sc) w;
  cf_complete : forall m, usable_word sc hc m -> allowed m ->
    is_zero_product (sdp_notcomm sc) (sdp_orthomat sc) m \/
    exists w, In w cols /\ proj_eq (sdp_notcomm sc) (sdp_orthomat sc) m w
}.

(** the bounds of the three kinds of specification; a maximal length of 0 means no bound *)
Definition within (mml : nat) (m : word) : Prop := mml = 0 \/ length m <= mml.
Definition npa_allowed (level mml : nat) (m : word) : Prop := length m <= level /\ within mml m.
Definition local_allowed (sc : scenario) (lengths : list nat) (mml : nat) (m : word) : Prop :=
  (forall p, p < nr_parties sc -> party_count sc p m <= nth p lengths 0) /\ within mml m.
Definition physical_allowed (sc : scenario) (caps : list (option nat)) (mml : nat) (m : word) : Prop :=
  all_commute (sdp_notcomm sc) m /\
  (forall p cap, nth_error caps p = Some (Some cap) -> party_count sc p m <= cap) /\ within mml m.
