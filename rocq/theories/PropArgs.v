(** C52: the arguments of a linear programme that are exported (write_to_file), with their
    dictionaries by name. *)
From Coq Require Import List Arith Bool Ascii String QArith Qcanon Lia Permutation.
From Verif Require Import MargModel QcSum FactorModel UniqueProofs LPSolveModel LPSolveSpec LPSolveProofs SearchModel ProgramModel ProgramSpec ProgramProofs ProgramProofs2 ProgramProofs3 ProgramLP ProgramLPProofs ArgsModel ArgsProofs.
From Verif Require SDPSolveSpec NameLPProofs PropWrite PropNameLP PropSound PropProgram SoundProofs4 NameLPProofs2 NameSpec NameModel NameLPModel LPMomentModel.
From Verif Require Import LPWriteModel LPWriteSpec.
Import ListNotations.
Close Scope Q_scope. Open Scope string_scope. Open Scope nat_scope. Open Scope list_scope.

Lemma existsb_not_in x l : ~ In x l -> existsb (String.eqb x) l = false.
Proof.
  intros N. destruct (existsb (String.eqb x) l) eqn:E; [|reflexivity]. exfalso. apply existsb_exists in E as (y & I & Q). apply String.eqb_eq in Q. subst y. exact (N I).
Qed.
(** The programme described by the exported arguments: a valuation of the names that gives the known
    moments their values is feasible for the arguments exactly when it satisfies the minimal and extra
    constraints, the semi-known relations and the bounds ([lp_point]); with default non-negativity also
    the unknown moments and the unused variable "constant_term" have to be non-negative. *)
Definition describes (P : lp_programme) (nm : moment -> string) (s : state) (a : LPWriteModel.lp_args) : Prop :=
  (forall m v, In m (columns P) -> (In (nm m, v) (a_known a) <-> In (m, v) (known s))) /\
  (forall w, respects_lp a w <-> forall m v, In (m, v) (known s) -> w (nm m) = v) /\
  forall w, respects_lp a w ->
      (lp_args_feasible false a w <-> lp_point P false s (fun m => w (nm m))) /\
      (lp_args_feasible true a w <-> lp_point P false s (fun m => w (nm m)) /\ (forall m, In m (columns P) -> ~ In m (keys (known s)) -> (0 <= w (nm m))%Qc) /\ (0 <= w "constant_term"%string)%Qc) /\
      lp_args_value a w = expr_at (fun m => w (nm m)) (ProgramModel.objective s).
(** Whenever the programme can be solved (prepare_lp), the arguments exist, are well formed and describe
    the same programme. *)
Theorem C52_arguments P nm nonneg c s a' : programme_ok P -> reachable lp c s ->
  (forall d, In d (extra_equalities s) -> d <> []) -> (forall d, In d (extra_inequalities s) -> d <> []) ->
  prepare_lp P nonneg false false s = Some a' ->
  (forall m m', In m (columns P) -> In m' (columns P) -> nm m = nm m' -> m = m') -> (forall m, In m (columns P) -> nm m <> "constant_term") ->
  exists a k, prepare_arguments P nm no_caches s = Some (a, k) /\ wf_lp a /\ variables a = map nm (columns P) ++ ["constant_term"] /\ describes P nm s a.
Proof.
  intros OK R E1 E2 EP INJ NCT. pose proof (reachable_semi_shorter lp c s R) as SEMI. unfold describes. pose proof (po_columns _ OK) as NC.
  destruct (prepared_parts P nonneg s a' false false EP) as (PK & PO & PL & PU & PS & PS' & XE & XI).
  destruct (reachable_bounds_nodup lp c s R) as (NL & NU). pose proof (reachable_wf lp c s R) as Wf. destruct Wf as [NK NS _]. pose proof (ow_nodup _ _ (reachable_objective lp c s R)) as NO.
  pose proof (eq_blocks P nonneg s a' OK (conj E1 E2) false false EP) as (EB & EA).
  destruct (stack_ok (List.length (columns P)) [minimal_sparse_inequalities P; sparse_extra P (extra_inequalities s)]) as (MI & AI & RI).
  { constructor; [apply (po_ineq _ OK)|constructor; [apply (extra_ok P _ E2 XI)|constructor]]. }
  unfold prepare_arguments. rewrite PK, PO, PL, PU, XE, XI. cbn [andb].
  assert (NI : ~ In "constant_term" (monomial_names P nm)) by (intros I; apply in_map_iff in I as (m & Q & I); exact (NCT m I Q)). rewrite (existsb_not_in _ _ NI).
  cbn [no_caches cached_equalities cached_inequalities moment_equalities_by_name moment_inequalities_by_name].
  destruct (vec_dict P nm NC INJ _ PK NK) as (K1 & K2 & K3 & _). destruct (vec_dict P nm NC INJ _ PO NO) as (O1 & O2 & _ & O4).
  destruct (vec_dict P nm NC INJ _ PL NL) as (_ & L2 & L3 & _). destruct (vec_dict P nm NC INJ _ PU NU) as (_ & U2 & U3 & _).
  assert (COLS : forall m ks, all_columns P ks = true -> In m ks -> In m (columns P)) by (intros m ks A I; exact (all_columns_in P ks m A I)).
  assert (SK : forall k x, In (k, x) (semiknown_by_name nm s) <-> exists m u, In (m, (fst x, u)) (semiknown s) /\ k = nm m /\ snd x = nm u).
  { intros k x. unfold semiknown_by_name. rewrite update_new; cbn [app].
    - rewrite in_map_iff. split.
      + intros ((m & (q & u)) & Q & I). cbn [fst snd] in Q. injection Q as <- <-. exists m, u. cbn [fst snd]. auto.
      + intros (m & u & I & -> & Q). exists (m, (fst x, u)). cbn [fst snd]. rewrite <- Q. destruct x. auto.
    - unfold keys. rewrite map_map. cbn [fst]. rewrite <- (map_map fst nm). apply NameLPProofs.nodup_map_in; [|exact NS].
      intros a b Ha Hb. apply INJ; apply (COLS _ _ PS); assumption. }
  eexists. eexists. split; [reflexivity|].
  assert (INC : forall k, In k (monomial_names P nm) -> In k (monomial_names P nm ++ ["constant_term"])) by (intros k I; apply in_or_app; left; exact I).
  assert (RESP : forall w, (forall k v, In (k, v) (known_vars_by_name P nm s) -> w k = v) <-> forall m v, In (m, v) (known s) -> w (nm m) = v).
  { intros w. split; intros H.
    - intros m v I. apply H, K3. eauto.
    - intros k v I. apply K3 in I as (m & I & ->). apply H, I. }
  assert (KNM : forall m v, In m (columns P) -> (In (nm m, v) (known_vars_by_name P nm s) <-> In (m, v) (known s))).
  { intros m v Im. split; intros H.
    - apply K3 in H as (m' & I & Q). assert (m = m') by (apply INJ; [exact Im|apply (COLS _ _ PK), (in_map fst _ _ I)|exact Q]). subst m'. exact I.
    - apply K3. eauto. }
  split; [|split; [reflexivity|split; [exact KNM|split; [exact RESP|]]]].
  - constructor; cbn [variables a_objective a_known a_semiknown a_equalities a_inequalities a_lower a_upper].
    + apply (Permutation_NoDup (l := "constant_term" :: monomial_names P nm)); [apply Permutation_cons_append|]. constructor; [exact NI|]. apply names_nodup; assumption.
    + split; [exact K1|]. intros k I. apply INC, K2, I.
    + split; [exact O1|]. intros k I. apply INC, O2, I.
    + intros d [H|H].
      * destruct (dicts_keys P nm NC INJ _ d EB H) as [D1 D2]. split; [exact D1|]. intros k I. apply INC, D2, I.
      * destruct (dicts_keys P nm NC INJ _ d MI H) as [D1 D2]. split; [exact D1|]. intros k I. apply INC, D2, I.
    + intros k q k2 I. apply SK in I as (m & u & I & -> & Q). cbn [fst snd] in *. assert (C1 := COLS _ _ PS (in_map fst _ _ I)). assert (C2 := COLS _ _ PS' (in_map (fun p => snd (snd p)) _ _ I)). cbn [fst snd] in C1, C2. subst k2.
      split; [apply INC, in_map, C1|]. split; [apply INC, in_map, C2|]. intros Q. apply INJ in Q; [|exact C1|exact C2]. specialize (SEMI _ _ _ I). rewrite Q in SEMI. exact (Nat.lt_irrefl _ SEMI).
    + split; intros k I; apply INC; [apply L2, I|apply U2, I].
  - intros w RW. unfold respects_lp in RW. cbn [variables a_objective a_known a_semiknown a_equalities a_inequalities a_lower a_upper] in RW. assert (RW0 := proj1 (RESP w) RW). clear RW. rename RW0 into RW.
    assert (BASE : forall b, lp_args_feasible b {|
      variables := monomial_names P nm ++ ["constant_term"]; a_objective := objective_by_name P nm s; a_known := known_vars_by_name P nm s; a_semiknown := semiknown_by_name nm s;
      a_equalities := equalities_by_name P nm s; a_inequalities := inequalities_by_name P nm s; a_lower := lowerbounds_by_name P nm s; a_upper := upperbounds_by_name P nm s |} w <->
      lp_point P false s (fun m => w (nm m)) /\ (b = true -> forall k, In k (monomial_names P nm ++ ["constant_term"]) -> ~ In k (keys (known_vars_by_name P nm s)) -> (0 <= w k)%Qc)).
    { intros b. unfold lp_args_feasible. cbn [variables a_objective a_known a_semiknown a_equalities a_inequalities a_lower a_upper].
      unfold equalities_by_name, inequalities_by_name. rewrite (dicts_forall P nm NC INJ (fun v => v = 0%Qc) _ w EB), (dicts_forall P nm NC INJ (fun v => (0 <= v)%Qc) _ w MI). rewrite EA, AI. cbn [map concat]. rewrite app_nil_r, !Forall_app, (Forall_act _ (minimal_sparse_equalities P)), (Forall_act _ (minimal_sparse_inequalities P)).
      unfold sparse_extra. rewrite !rows_act, !map_map, !Forall_map, !Forall_forall.
      assert (EX : forall d, (forall m, In m (keys d) -> In m (columns P)) -> sumQ (map (fun q => (snd q * (fun j => w (nm (nth j (columns P) []))) (fst q))%Qc) (indexed P d)) = expr_at (fun m => w (nm m)) d).
      { intros d I. rewrite (indexed_sum P (fun j => w (nm (nth j (columns P) []))) d). unfold expr_at. apply sumQ_ext. intros p Hp. destruct (column_ok P (fst p) (I _ (in_map fst _ _ Hp))) as [_ Q]. rewrite Q. reflexivity. }
      rewrite forallb_forall in XE, XI. split.
      - intros (Hn & Hs & (Q1 & Q2) & (Q3 & Q4) & Hl & Hu). split; [|exact Hn]. constructor; auto; try discriminate.
        + intros d Hd. rewrite <- EX; [apply Q2, Hd|]. intros m. apply (COLS _ _ (XE d Hd)).
        + intros d Hd. rewrite <- EX; [apply Q4, Hd|]. intros m. apply (COLS _ _ (XI d Hd)).
        + intros m k u I. apply (Hs (nm m) k (nm u)). apply SK. exists m, u. auto.
        + intros m v I. apply Hl, L3. eauto.
        + intros m v I. apply Hu, U3. eauto.
      - intros ([Q1 Q2 Q3 Q4 Q5 Q6 Q7 Q8 _] & Hn). split; [exact Hn|]. split; [|split; [|split; [|split]]].
        + intros k q k2 I. apply SK in I as (m & u & I & -> & Q). cbn [fst snd] in *. subst k2. apply Q5, I.
        + split; [exact Q1|]. intros d Hd. rewrite EX; [apply Q3, Hd|]. intros m. apply (COLS _ _ (XE d Hd)).
        + split; [exact Q2|]. intros d Hd. rewrite EX; [apply Q4, Hd|]. intros m. apply (COLS _ _ (XI d Hd)).
        + intros k v I. apply L3 in I as (m & I & ->). apply Q7, I.
        + intros k v I. apply U3 in I as (m & I & ->). apply Q8, I. }
    assert (KK : forall m, In m (columns P) -> (In (nm m) (keys (known_vars_by_name P nm s)) <-> In m (keys (known s)))).
    { intros m Im. split; intros H; apply in_map_iff in H as ((k & v) & Q & I); cbn [fst] in Q; subst k.
      - apply (in_map fst _ (m, v)). apply KNM; assumption.
      - apply (in_map fst _ (nm m, v)). apply KNM; assumption. }
    split; [|split].
    + rewrite (BASE false). split; [intros [H _]; exact H|intros H; split; [exact H|discriminate]].
    + rewrite (BASE true). split.
      * intros [H N]. split; [exact H|]. split.
        -- intros m Im NKm. apply (N eq_refl); [apply INC, in_map, Im|]. intros I. apply NKm, KK; assumption.
        -- apply (N eq_refl); [apply in_or_app; right; left; reflexivity|]. intros I. apply NI, K2, I.
      * intros (H & N & C0). split; [exact H|]. intros _ k Ik NKk. apply in_app_or in Ik as [Ik|[<-|[]]]; [|exact C0].
        apply in_map_iff in Ik as (m & <- & Im). apply N; [exact Im|]. intros I. apply NKk, KK; assumption.
    + apply O4.
Qed.
Print Assumptions C52_arguments.

(** The files.  The hypotheses besides those of C52_arguments are those of C29: constraints without
    unknowns hold, at most four decimals, and bounds on unknowns that are used. *)
Theorem C52_mps_file P nm nonneg c s a' order : programme_ok P -> reachable lp c s ->
  (forall d, In d (extra_equalities s) -> d <> []) -> (forall d, In d (extra_inequalities s) -> d <> []) ->
  prepare_lp P nonneg false false s = Some a' ->
  (forall m m', In m (columns P) -> In m' (columns P) -> nm m = nm m' -> m = m') -> (forall m, In m (columns P) -> nm m <> "constant_term") ->
  (forall l, Permutation (order l) l) ->
  exists a k, prepare_arguments P nm no_caches s = Some (a, k) /\
    (known_constraints_hold a -> all_four_decimals a -> bounds_ok a ->
     exists f, write_to_mps order a = Some f /\ mps_well_formed f /\
       forall w x, (forall m v, In (m, v) (known s) -> w (nm m) = v) -> agrees_mps a x w ->
         (mps_feasible f x <-> lp_point P false s (fun m => w (nm m)) /\ (forall m, In m (columns P) -> ~ In m (keys (known s)) -> (0 <= w (nm m))%Qc) /\ (0 <= w "constant_term"%string)%Qc) /\
         mps_value f x = expr_at (fun m => w (nm m)) (ProgramModel.objective s)).
Proof.
  intros OK R E1 E2 EP INJ NCT O. destruct (C52_arguments P nm nonneg c s a' OK R E1 E2 EP INJ NCT) as (a & k & E & W & _ & _ & RW & D).
  exists a, k. split; [exact E|]. intros KC FD B. destruct (PropWrite.C29_mps order a O W KC FD B) as (f & F1 & F2 & F3). exists f. split; [exact F1|]. split; [exact F2|].
  intros w x RS AG. apply RW in RS. destruct (F3 w x RS AG) as [G1 G2], (D w RS) as (_ & D2 & D3). split; [rewrite G1; exact D2|rewrite G2; exact D3].
Qed.
Print Assumptions C52_mps_file.

(** The LP file, for programmes without bounds (with bounds it cannot be read, C29_lp_bounds_refuted). *)
Lemma empty_by_name names P : vec_by_name names (coo_vec P []) = [].
Proof.
  assert (E : lil_row (coo_vec P []) 0 = []).
  { unfold lil_row, coo_vec. cbn [map c_ent c_cols existsb]. induction (seq 0 _) as [|j l IH]; [reflexivity|exact IH]. }
  unfold vec_by_name, to_name_dicts. unfold name_dict. change (c_rows (coo_vec P [])) with 1. cbn [seq map nth]. rewrite E. reflexivity.
Qed.
Theorem C52_lp_file P nm nonneg c s a' show read order filename : programme_ok P -> reachable lp c s ->
  (forall d, In d (extra_equalities s) -> d <> []) -> (forall d, In d (extra_inequalities s) -> d <> []) ->
  prepare_lp P nonneg false false s = Some a' ->
  (forall m m', In m (columns P) -> In m' (columns P) -> nm m = nm m' -> m = m') -> (forall m, In m (columns P) -> nm m <> "constant_term") ->
  lower s = [] -> upper s = [] ->
  number_format show read -> (forall l, Permutation (order l) l) -> ~ in_string "010" filename ->
  exists a k, prepare_arguments P nm no_caches s = Some (a, k) /\
    (known_constraints_hold a -> PropWrite.objective_ok a ->
     exists text f, write_to_lp show order a filename = Some text /\ read_lp read text = Some f /\
       forall w x, (forall m v, In (m, v) (known s) -> w (nm m) = v) -> agrees_lp a x w ->
         (lp_feasible f x <-> lp_point P false s (fun m => w (nm m)) /\ (forall m, In m (columns P) -> ~ In m (keys (known s)) -> (0 <= w (nm m))%Qc) /\ (0 <= w "constant_term"%string)%Qc) /\
         lp_value f x = expr_at (fun m => w (nm m)) (ProgramModel.objective s)).
Proof.
  intros OK R E1 E2 EP INJ NCT LO UP F O FN. destruct (C52_arguments P nm nonneg c s a' OK R E1 E2 EP INJ NCT) as (a & k & E & W & _ & _ & RW & D).
  exists a, k. split; [exact E|]. intros KC OB.
  assert (AL : a_lower a = [] /\ a_upper a = []).
  { unfold prepare_arguments in E. destruct (_ && _) in E; [|discriminate E]. apply (f_equal (option_map fst)) in E. cbn [option_map fst] in E. injection E as <-. cbn [a_lower a_upper].
    unfold lowerbounds_by_name, upperbounds_by_name. rewrite LO, UP. split; apply empty_by_name. }
  destruct AL as [AL AU]. destruct (PropWrite.C29_lp show read order a filename F O FN W AL AU KC OB) as (text & f & F1 & F2 & F3). exists text, f. split; [exact F1|]. split; [exact F2|].
  intros w x RS AG. apply RW in RS. destruct (F3 w x RS AG) as [G1 G2], (D w RS) as (_ & D2 & D3). split; [rewrite G1; exact D2|rewrite G2; exact D3].
Qed.
Print Assumptions C52_lp_file.

(** What the code does not guarantee: after the first export the constraints are remembered, so that
    every later export has the constraints of the first one, whatever the state. *)
Theorem C52_stale_constraints_refuted P nm s k0 a k s2 a2 k2 : prepare_arguments P nm k0 s = Some (a, k) -> prepare_arguments P nm k s2 = Some (a2, k2) ->
  a_equalities a2 = a_equalities a /\ a_inequalities a2 = a_inequalities a.
Proof.
  unfold prepare_arguments. intros E E2. destruct (_ && _) in E; [|discriminate E]. destruct (_ && _) in E2; [|discriminate E2].
  assert (K : k = {| cached_equalities := Some (moment_equalities_by_name P nm k0 s); cached_inequalities := Some (moment_inequalities_by_name P nm k0 s) |}) by congruence.
  subst k.
  injection E as <-. injection E2 as <- _. cbn. auto.
Qed.
Print Assumptions C52_stale_constraints_refuted.

(** ** Generated programmes, with the names of C51 *)
Theorem C52_generated_programmes sc names ao sup r nonneg s a' (object : list nat -> NameModel.moment) : PropSound.ready sc -> NameSpec.good_names sc names -> LPMomentModel.generate sc ao sup = Some r ->
  let P := LPMomentModel.r_programme r in
  (forall c, In c (columns P) -> exists b, NameLPModel.lp_monomial sc names (PropNameLP.column_words r c) NameLPModel.start_book = Some (object c, b)) ->
  reachable lp (LPMomentModel.r_context r) s -> (forall d, In d (extra_equalities s) -> d <> []) -> (forall d, In d (extra_inequalities s) -> d <> []) ->
  prepare_lp P nonneg false false s = Some a' ->
  exists a k, prepare_arguments P (fun c => NameModel.m_name (object c)) no_caches s = Some (a, k) /\ wf_lp a /\ describes P (fun c => NameModel.m_name (object c)) s a.
Proof.
  intros RD GN G P OBJ R E1 E2 EP. assert (RD' := RD). destruct RD' as [W AC Hout Hset Np FC].
  destruct (C52_arguments P (fun c => NameModel.m_name (object c)) nonneg _ s a' (SoundProofs4.programme_is_ok sc W Hout Hset Np FC ao sup r G) R E1 E2 EP) as (a & k & E & Wf & _ & D).
  - intros m m' I I' Q. destruct (OBJ m I) as (b & B), (OBJ m' I') as (b' & B'). exact (PropNameLP.column_names_inj sc names ao sup r m m' _ _ _ _ RD GN G I I' B B' Q).
  - intros m I. destruct (OBJ m I) as (b & B).
    destruct (NameLPProofs2.lp_monomial_good sc names W GN (PropNameLP.column_words r m) NameLPModel.start_book (NameLPProofs2.start_inv sc names)) as (m1 & b1 & B1 & _ & GM & _).
    { intros w Hw. exact (PropNameLP.column_usable sc ao sup r m w RD G I Hw). }
    assert (m1 = object m) by congruence. subst m1. apply (proj1 (NameLPProofs2.not_constant sc names W GN (object m) GM)).
  - exists a, k. auto.
Qed.
Print Assumptions C52_generated_programmes.

(** ** Examples *)
(** columns 1, a, b, ab with a >= ab; a has the value 1/2, so that ab is b/2 *)
Definition args_names (m : moment) : string := match m with [] => "1" | [0] => "a" | [1] => "b" | _ => "ab" end.
Definition args_ops : list op := [SetValues [([0], Some (Q2Qc (1 # 2)))] true false].
Definition args_state : state := match run lp PropProgram.lp_ctx args_ops (generated lp PropProgram.lp_ctx) with Some s => s | None => {| known := []; semiknown := []; lower := []; upper := []; ProgramModel.objective := []; ProgramModel.processed := []; extra_equalities := []; extra_inequalities := [] |} end.
Definition args_of : option (LPWriteModel.lp_args * caches) := prepare_arguments PropProgram.lp_prog args_names no_caches args_state.
Definition shown (d : list (string * Qc)) : list (string * Q) := map (fun p => (fst p, this (snd p))) d.
Lemma args_reachable : reachable lp PropProgram.lp_ctx args_state.
Proof. exists args_ops. unfold args_state. destruct (run lp PropProgram.lp_ctx args_ops (generated lp PropProgram.lp_ctx)) as [s|] eqn:E; [reflexivity|]. exfalso. apply (f_equal is_some) in E. vm_compute in E. discriminate E. Qed.
Example C52_case : (exists a', prepare_lp PropProgram.lp_prog true false false args_state = Some a') /\ extra_equalities args_state = [] /\ extra_inequalities args_state = [] /\
  option_map (fun q => let a := fst q in (variables a, shown (a_known a), map (fun p => (fst p, (this (fst (snd p)), snd (snd p)))) (a_semiknown a), map shown (a_equalities a), map shown (a_inequalities a))) args_of =
    Some (["1"; "a"; "b"; "ab"; "constant_term"], [("1", 1%Q); ("a", (1 # 2)%Q)], [("ab", ((1 # 2)%Q, "b"))], [], [[("a", 1%Q); ("ab", (-1 # 1)%Q)]])%string.
Proof.
  split; [|split; [vm_compute; reflexivity|split; [vm_compute; reflexivity|vm_compute; reflexivity]]].
  destruct (prepare_lp PropProgram.lp_prog true false false args_state) as [a'|] eqn:E; [eauto|]. exfalso. apply (f_equal is_some) in E. vm_compute in E. discriminate E.
Qed.
Lemma args_inj m m' : In m (columns PropProgram.lp_prog) -> In m' (columns PropProgram.lp_prog) -> args_names m = args_names m' -> m = m'.
Proof. intros [<-|[<-|[<-|[<-|[]]]]] [<-|[<-|[<-|[<-|[]]]]] E; try reflexivity; discriminate E. Qed.
Lemma args_not_constant m : In m (columns PropProgram.lp_prog) -> args_names m <> "constant_term"%string.
Proof. intros [<-|[<-|[<-|[<-|[]]]]]; discriminate. Qed.
(** The constraint a = b is added after an export: the next export does not have it, so that a point
    with a = 1/2 and b = 1/4 is feasible for it and not for the programme. *)
Definition args_point (m : moment) : Qc := match m with [] => 1%Qc | [0] => Q2Qc (1 # 2) | [1] => Q2Qc (1 # 4) | _ => Q2Qc (1 # 8) end.
Definition args_value (x : string) : Qc := if String.eqb x "1" then args_point [] else if String.eqb x "a" then args_point [0] else if String.eqb x "b" then args_point [1] else if String.eqb x "ab" then args_point [0; 1] else 0%Qc.
Definition a_is_b : list (list (moment * Qc)) := [[([0], 1%Qc); ([1], (- (1))%Qc)]].
Theorem C52_new_constraints_lost_refuted : exists P nm c s a k s2 a2 k2 w, programme_ok P /\ reachable lp c s /\
  (forall m m', In m (columns P) -> In m' (columns P) -> nm m = nm m' -> m = m') /\
  prepare_arguments P nm no_caches s = Some (a, k) /\ step lp c (SetExtraEqualities a_is_b) s = Some s2 /\ prepare_arguments P nm k s2 = Some (a2, k2) /\
  respects_lp a2 w /\ lp_args_feasible false a2 w /\ ~ lp_point P false s2 (fun m => w (nm m)).
Proof.
  destruct C52_case as ((a' & EP) & X1 & X2 & _).
  destruct (C52_arguments PropProgram.lp_prog args_names true PropProgram.lp_ctx args_state a' PropProgram.lp_prog_ok args_reachable) as (a & k & E & _ & _ & _ & RW & D); [rewrite X1; intros d []|rewrite X2; intros d []|exact EP|exact args_inj|exact args_not_constant|].
  pose (s2 := set_extra_equalities a_is_b args_state). assert (E2 : step lp PropProgram.lp_ctx (SetExtraEqualities a_is_b) args_state = Some s2) by reflexivity.
  destruct (prepare_arguments PropProgram.lp_prog args_names k s2) as [(a2 & k2)|] eqn:E3.
  2: { exfalso. revert E3. unfold prepare_arguments. destruct (_ && _) eqn:B; [discriminate|]. intros _. revert B. apply Bool.not_false_iff_true. vm_compute. reflexivity. }
  assert (A : a2 = a).
  { destruct (C52_stale_constraints_refuted _ _ _ _ _ _ _ _ _ E E3) as [Q1 Q2]. unfold prepare_arguments in E, E3. destruct (_ && _) in E; [|discriminate E]. destruct (_ && _) in E3; [|discriminate E3].
    assert (Ea : variables a = variables a2 /\ a_objective a = a_objective a2 /\ a_known a = a_known a2 /\ a_semiknown a = a_semiknown a2 /\ a_lower a = a_lower a2 /\ a_upper a = a_upper a2).
    { apply (f_equal (option_map fst)) in E, E3. cbn [option_map fst] in E, E3. injection E as <-. injection E3 as <-. cbn. repeat split. }
    destruct Ea as (T1 & T2 & T3 & T4 & T5 & T6). clear - Q1 Q2 T1 T2 T3 T4 T5 T6. destruct a, a2. cbn in *. congruence. }
  assert (V : forall m, In m (columns PropProgram.lp_prog) -> args_value (args_names m) = args_point m) by (intros m [<-|[<-|[<-|[<-|[]]]]]; reflexivity).
  assert (RS : respects_lp a args_value).
  { apply RW. assert (C0 : forallb (fun p => Qc_eq_bool (args_value (args_names (fst p))) (snd p)) (known args_state) = true) by (vm_compute; reflexivity).
    rewrite forallb_forall in C0. intros m v I. exact (Qc_eq_bool_correct _ _ (C0 _ I)). }
  exists PropProgram.lp_prog, args_names, PropProgram.lp_ctx, args_state, a, k, s2, a2, k2, args_value.
  split; [exact PropProgram.lp_prog_ok|]. split; [exact args_reachable|]. split; [exact args_inj|]. split; [exact E|]. split; [exact E2|]. split; [exact E3|]. rewrite A. split; [exact RS|]. split.
  - apply (D args_value RS). constructor; try discriminate.
    + intros i I. vm_compute in I. exfalso. lia.
    + intros i I. change (c_rows (minimal_sparse_inequalities PropProgram.lp_prog)) with 1 in I. assert (i = 0) by lia. subst i. apply Qcle_alt. vm_compute. discriminate.
    + rewrite X1. intros d [].
    + rewrite X2. intros d [].
    + assert (C0 : forallb (fun p => Qc_eq_bool (args_value (args_names (fst p))) (fst (snd p) * args_value (args_names (snd (snd p))))) (semiknown args_state) = true) by (vm_compute; reflexivity).
      rewrite forallb_forall in C0. intros m q u I. exact (Qc_eq_bool_correct _ _ (C0 _ I)).
    + apply RW, RS.
    + assert (L : lower args_state = []) by (vm_compute; reflexivity). rewrite L. intros m v [].
    + assert (L : upper args_state = []) by (vm_compute; reflexivity). rewrite L. intros m v [].
  - intros [_ _ Q _ _ _ _ _ _]. specialize (Q _ (or_introl eq_refl)). apply (f_equal (fun v => Qc_eq_bool v 0)) in Q. vm_compute in Q. discriminate Q.
Qed.
Print Assumptions C52_new_constraints_lost_refuted.
