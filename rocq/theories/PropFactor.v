(** Property theorems C11 and C12. *)
From Coq Require Import Permutation.
From Verif Require Import ScenarioModel ScenarioSpec SymModel SymSpec FactorModel FactorSpec.
From Verif Require FactorProofs PropScenario.
Import PropScenario.

(** ** C11: for every monomial with at most 255 different tuples of copy indices. *)
Theorem C11_pieces_are_the_linked_classes : forall sc mon, wf_scenario sc ->
  (forall k, In k mon -> k < length (lexorder sc)) -> mon <> [] ->
  distinct_copies sc mon <= 255 ->
  exists pieces lab, factorize_monomial_1d sc mon = Some pieces /\ length lab = length mon /\
    pieces = map (piece mon lab) (seq 0 (length pieces)) /\
    (forall i, i < length mon -> nth i lab 0 < length pieces) /\
    (forall q, q < length pieces -> exists i, i < length mon /\ nth i lab 0 = q) /\
    (forall i j, i < length mon -> j < length mon -> (nth i lab 0 = nth j lab 0 <-> linked sc mon i j)).
Proof. intros sc mon W V N D. apply FactorProofs.factorize_correct; assumption. Qed.
Print Assumptions C11_pieces_are_the_linked_classes.

(** Together the pieces contain exactly the operators of the monomial. *)
Theorem C11_no_operator_lost : forall sc mon, wf_scenario sc ->
  (forall k, In k mon -> k < length (lexorder sc)) -> distinct_copies sc mon <= 255 ->
  exists pieces, factorize_monomial_1d sc mon = Some pieces /\ Permutation (concat pieces) mon.
Proof. exact FactorProofs.factorize_perm. Qed.
Print Assumptions C11_no_operator_lost.

Example C11_nonvacuous :
  (* A^{1,0,1}, B^{2,1}, A^{2,0,2}, C^{0,1,1} : B and A^{2,..} share source copy; B and C share the classical source *)
  factorize_monomial_1d ex_sc [0; 20; 12; 27] = Some [[20; 12; 27]; [0]] /\
  factorize_monomial_1d ex_sc [0; 20; 24] = Some [[0; 20; 24]].
Proof. vm_compute. split; reflexivity. Qed.

(** Without the bound the property is false of the code: component labels are stored in
    8-bit integers, so that with 257 independent operators the first and the last end up
    in one piece. *)
Definition many_copies : scenario := {|
  outcomes := [1]; private_settings := [1]; parents := [[]];
  sources := [ {| s_classical := true; s_children := [0]; s_latents := [] |} ]; levels := [257] |}.
Theorem C11_refuted_beyond_255 : wf_scenario many_copies /\
  (forall k, In k (seq 0 257) -> k < length (lexorder many_copies)) /\
  ~ linked many_copies (seq 0 257) 0 256 /\
  exists pieces, factorize_monomial_1d many_copies (seq 0 257) = Some ([0; 256] :: pieces).
Proof.
  split; [|split; [|split]].
  - split; [reflexivity|reflexivity| |reflexivity| |]; cbn.
    + intros ps q [<-|[]] [].
    + intros n [<-|[]]. lia.
    + intros p Hp. eexists. split; [left; reflexivity|left; cbn; lia].
  - intros k Hk. apply in_seq in Hk. replace (length (lexorder many_copies)) with 257 by (vm_compute; reflexivity). lia.
  - assert (C : forall i, i < 257 -> copies_at many_copies (seq 0 257) i = [i + 1]).
    { assert (F : forallb (fun i => match copies_at many_copies (seq 0 257) i with [c] => c =? i + 1 | _ => false end) (seq 0 257) = true) by (vm_compute; reflexivity).
      intros i Hi. rewrite forallb_forall in F. specialize (F i ltac:(apply in_seq; lia)). cbn beta in F.
      destruct (copies_at many_copies (seq 0 257) i) as [|c [|? ?]]; try discriminate. apply Nat.eqb_eq in F. congruence. }
    intros H. assert (G : forall i j, linked many_copies (seq 0 257) i j -> i = j).
    { intros i j Hl. induction Hl as [x y (H1 & H2 & H3)|x|x y _ IH|x y z _ IH1 _ IH2]; try congruence.
      rewrite seq_length in H1, H2. rewrite !C in H3 by assumption. destruct H3 as ([|k] & H3 & H4).
      - cbn in H4. lia.
      - exfalso. apply H3. destruct k; reflexivity. }
    apply G in H. discriminate.
  - assert (E : match factorize_monomial_1d many_copies (seq 0 257) with Some (p :: _) => p = [0; 256] | _ => False end) by (vm_compute; reflexivity).
    destruct (factorize_monomial_1d many_copies (seq 0 257)) as [[|p pieces]|]; [destruct E| |destruct E]. subst p. eauto.
Qed.
Print Assumptions C11_refuted_beyond_255.

(** ** C12 *)
Theorem C12_never_factorizes_sound : forall sc mon, wf_scenario sc ->
  (forall k, In k mon -> k < length (lexorder sc)) ->
  ever_factorizes sc = false -> factorize_long sc mon = Some [mon].
Proof. exact (fun sc mon W V => FactorProofs.shortcut_sound sc W mon V). Qed.
Print Assumptions C12_never_factorizes_sound.

(** and indeed all operators are pairwise linked, directly *)
Theorem C12_never_factorizes_all_linked : forall sc mon i j, wf_scenario sc ->
  (forall k, In k mon -> k < length (lexorder sc)) ->
  ever_factorizes sc = false -> i < length mon -> j < length mon -> adjacent_ops sc mon i j.
Proof.
  intros sc mon i j W V E Hi Hj. repeat split; auto.
  apply (FactorProofs.ever_false_share sc W); auto; apply V, nth_In; assumption.
Qed.
Print Assumptions C12_never_factorizes_all_linked.

Definition one_copy : scenario := {|
  outcomes := [2; 2]; private_settings := [2; 1]; parents := [[]; [0]];
  sources := [ {| s_classical := false; s_children := [0; 1]; s_latents := [] |} ]; levels := [1] |}.
Example C12_nonvacuous : ever_factorizes one_copy = false /\ ever_factorizes ex_sc = true /\
  factorize_long one_copy [0; 4; 3] = Some [[0; 4; 3]].
Proof. vm_compute. repeat split. Qed.
