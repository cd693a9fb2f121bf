# Formal model of ecboghiu/inflation in Rocq (Coq 8.16.1)

## 1. Method

Shallow, total, computable Gallina models mirror the Python functions branch by branch
(`theories/*Model.v`, `ProgramLP.v`; every definition cites file and lines and names its
simplifications). Specifications that do not use the model's helpers live in `*Spec.v`. Proofs
are in `*Proofs*.v`. The property theorems are in `Prop*.v`, together with the small
statement-level definitions they need, non-vacuity `Example`s, and refutations
(`*_refuted`) where the code does not do what one would expect.

Python exceptions are values (`None`). Loops are structural recursion, folds, or recursion on
fuel whose exhaustion is `None`; theorems show that the fuel suffices. Histories (caches,
`set_*`/`update_*` calls) are lists of operations folded over an explicit state, and the theorems
are invariants over all such lists.

Three layers are connected end to end for linear programmes (C43): causal models
(`CausalSpec.v`) -> inflations of distributions (`InflatedSpec.v`, `ClassicalProofs*.v`) ->
generated programme (`LPModel.v`, `LPMomentModel.v`) -> values set (`ProgramModel.v`) -> solver
task and certificate (`LPSolveModel.v`). The same chain is proved for semidefinite programmes (C44):
moments of an inflation (`QInflationSpec.v`, `ClassicalMoments.v`) -> relaxation (`SDPMomentModel.v`) -> values set
(`ProgramModel.v`) -> solver arguments, primal, dual and certificate (`SDPSolveModel.v`).

## 2. Trusted base

* Coq 8.16.1's kernel (incl. `vm_compute` in examples and refutations), `coqc`, and the parser.
* `Print Assumptions` of **every** theorem of MANIFEST.json answers
  `Closed under the global context`: no axioms at all, neither the standard library's nor ours
  (see section 7 for the list of theorems; regenerate with the one-line script given there).
  `vcheck` also lists seven entries `Coq.ssr.ssrunder.Under_rel.*`: they are the parameters of
  the standard library's own module type loaded by ssreflect's plumbing, and no theorem uses them.
* No `Axiom`, `Parameter`, section-less `Variable`/`Hypothesis`, `Admitted`, functor, module
  type, `Declare Module`, `bypass_check` or plugin is used.
* The models are faithful transcriptions, by hand, of the pinned Python source. What stands
  between the models and the running program:
  - Python/numpy/numba semantics: integers are `nat` (no overflow of `uint8/16/32` dtypes except where a
    theorem is about it: C11), arrays are lists, dictionaries are association lists in insertion order,
    hashing never collides (`__eq__` of atomic monomials compares hashes);
  - floats are exact rationals `Qc`; `np.isclose` is its documented formula over rationals;
  - printing a number and reading it back is exact, except in C29 where rounding to 4 decimals is
    the finding;
  - scipy's sparse matrices are lists of entries; MOSEK is not modelled: theorems quantify over
    every feasible point of the task it is given (and its documented file formats are given by
    reader semantics in `SdpaSpec.v`, `LPWriteSpec.v`).
* For the rational model of reals: weak duality and certificate statements hold for all rational points;
  Farkas' lemma is proved over `Qc` (`Farkas.v`, `Duality.v`).

## 3. What is modelled

| source file | modelled (file of the model) | not modelled |
|---|---|---|
| `InflationProblem.py` | `__init__` (Dag, Scenario, Factor, LP models), `_compatible_template_measurements`, `all_and_maximal_compatible_templates` (LP, Clique), `original_dag_events`, operator names and their interpretation (Name), `_is_knowable_q_non_networks`, `rectify_fake_setting` (Know), `factorize_monomial_1d/2d` (Factor), `discover_lexorder_symmetries` (Sym), `_lexorder_lookup`, `mon_to_lexrepr`, `_from_2dndarray` (Scenario) | `__repr__`, SymPy symbols of operators |
| `sdp/fast_npa.py` | canonicaliser `nb_lexmon_to_canonical`, `to_canonical_1d_internal`, `lexmon_is_zero`, `remove_projector_squares`, `mon_lexsorted`, `dot_mon`, `reverse_mon` (Canon), components and overlap (Factor, Phys), `nb_is_knowable` (Know), `nb_is_physical` (Phys), commutation (Scenario), `apply_source_perm` (Sym), names (Name) | `jit` |
| `sdp/quantum_tools.py` | `calculate_momentmatrix_1d_internal` (Moment), `apply_inflation_symmetries` (Orbit), `construct_normalization_eqs`, `expand_moment_normalisation` (Norm), `reduce_inflation_indices` (File) | symbolic (SymPy) helpers `flatten_symbolic_powers`, `generate_operators`, `lexicographic_order`, `commutation_relations` |
| `sdp/InflationSDP.py` | generation, moments, `set_distribution` (SDPMoment), canonical memo and orbit representatives (Memo), columns (Cols), column symmetries (Column), normalisation (Norm), names (Name), `set_*`, `update_values`, bounds, objective, clean-up (Program), solver arguments, certificates (SDPSolve), Hermitian default bounds (Herm), certificates as dictionaries and texts (Cert), `reset` and stored solutions (Reset), the reported value (Value), the choice of file and format (File) | `solve`'s printing, `certificate_as_probs`, `probs_from_dict` (SymPy) |
| `sdp/sdp_utils.py` | `solveSDP_MosekFUSION` pre-processing, primal and dual problems, certificate (SDPSolve) | MOSEK; in primal mode the signs of its dual values |
| `sdp/monomial_classes.py`, `lp/monomial_classes.py`, `sdp/monomial_utils.py` | marginals, `evaluate`, `is_hermitian`, `dagger`, names (Marg, Herm, Name, NameLP), equality of moments (LPMoment) | symbolic values |
| `sdp/writer_utils.py` | `write_to_sdpa` (Sdpa), `write_to_mat` (Mat), `convert_to_human_readable` (Csv) | separators of `write_to_csv`, file I/O |
| `lp/InflationLP.py` | generation of events, columns and constraints (LP, LPMoment), state and `set_*` (Program), sparse matrices and `_prepare_solver_arguments` (ProgramLP), certificates as dictionaries and texts, `evaluate_polynomial`, `evaluate_certificate` (Cert), factorisation conditions and their sparse forms (FactCond), names of moments and factorisation conditions by name (NameLP), dictionaries by name and the arguments for export (Args), `reset` and stored solutions (Reset), the reported value (Value), arguments of `solve` (Mode), the choice of file and format (File) | symbols given by the user, other keyword arguments of `solve` |
| `lp/lp_utils.py` | `solveLP_sparse`, `drop_zero_rows`, `canonical_order` (LPSolve), `solveLP`, `to_sparse`, `convert_dicts` (LPDict) | MOSEK |
| `lp/writer_utils.py` | `write_to_lp`, `write_to_mps`, `process_arguments`, `format_constraint_lp` (LPWrite) | `lp_to_mps` |
| `lp/numbafied.py` | `nb_outer_bitwise_or/xor`, `nb_mon_to_lexrepr_bool` (LP), `nb_is_do_conditional` (Name, NameLP) | |
| `optimization_utils.py` | both search loops (Search) | SciPy's root finder (a parameter) |
| `utils.py` | `clean_coefficients` (Search), `expand_sparse_vec`, `vstack` (LPSolve), `partsextractor` (FactCond), `all_and_maximal_cliques` (Clique), `format_permutations`, `perm_combiner` (Sym) | `make_numerical`, `flatten`, printing |

## 4. Per property: what is modelled and how it is proved

| id | title | status | modelled in | how proved |
|---|---|---|---|---|
| C01 | Commutation canonical form is a complete invariant | proved | CanonModel; theorems in PropCanon.v | lexicographic normal form of a trace monoid: the result is equivalent to the input and least in its class; completeness by antisymmetry |
| C02 | The canonical form is the lexicographically first representative | proved | CanonModel; theorems in PropCanon.v | invariant of the canonicalisation loop |
| C03 | Full canonicalisation decides equality of projector products | proved | CanonModel; theorems in PropCanon.v, PropScenario.v | congruence generated by commutation, idempotence and orthogonality; invariance under each generator |
| C04 | Canonicalisation is idempotent and shrinking | proved | CanonModel; theorems in PropCanon.v | corollaries of C01 and C03 |
| C05 | Moment matrix indices identify exactly the equal moments | proved | MomentModel; theorems in PropCanon.v | invariant of the dictionary of known words |
| C06 | Symmetrised moment matrix merges exactly the symmetry orbits | proved | OrbitModel; theorems in PropOrbit.v | loop invariant: labels are orbit compatible; the least element represents its orbit |
| C07 | Commutation table is a valid commutation relation | proved | ScenarioModel; theorems in PropScenario.v | case analysis of the commutation test against the rule of the specification |
| C08 | Commutation and source overlap are unchanged by relabelling source copies | proved | SymModel; theorems in PropSym.v | injectivity of copy permutations |
| C09 | The operator list enumerates exactly the inflated operators | proved | ScenarioModel; theorems in PropScenario.v | enumeration lemmas for the operator list; lookup is its inverse |
| C10 | The discovered inflation symmetries are the full group of source-copy permutations | proved | SymModel; theorems in PropSym.v | enumeration of all permutations; group laws from composition of relabellings |
| C11 | Factorisation splits a monomial into its independent parts | proved | FactorModel; theorems in PropFactor.v | closure invariant of the component search; refuted beyond 255 copies |
| C12 | The 'never factorizes' shortcut is sound | proved | FactorModel; theorems in PropFactor.v | direct from C11 |
| C13 | Effective settings encode private setting and parent outcomes without collision | proved | ScenarioModel; theorems in PropScenario.v | mixed-radix numbering |
| C14 | Knowable moments are exactly the do-free ones | proved | KnowModel; theorems in PropKnow.v | case analysis against the specification of knowable monomials |
| C15 | Fake-setting removal recovers the private setting | proved | KnowModel; theorems in PropKnow.v | direct |
| C16 | compute_marginal returns the marginal probability | proved | MargModel; theorems in PropMarg.v | induction on the axes of the array |
| C17 | Partial evaluation of a product of moments is exact | proved | MargModel; theorems in PropMarg.v | induction on factors |
| C18 | Clique enumeration returns exactly the cliques | proved | CliqueModel; theorems in PropClique.v | queue invariant of the breadth-first search |
| C19 | The linear programme describes exactly the symmetric behaviours of the inflated scenario | proved | LPModel; theorems in PropLP.v | inclusion-exclusion over finite distributions; completeness of the generated equalities |
| C20 | All terms of an expansion exist in the programme | proved | LPModel; theorems in PropLP.v | enumeration of events, against measurements of the specification |
| C21 | LP orbits are exactly the symmetry classes | proved | LPModel; theorems in PropLP.v | orbits of events, as C06 |
| C22 | Known, semi-known and unknown moments stay disjoint | proved | ProgramModel; theorems in PropProgram.v | histories: values and semi-known values are exactly those implied |
| C23 | Setting values does not depend on earlier settings | proved | ProgramModel; theorems in PropProgram.v | histories: resetting |
| C24 | Canonicalisation results do not depend on previous calls | proved | MemoModel; theorems in PropMemo.v | cache invariant over all call histories |
| C25 | User-supplied extra constraints reach the solver | proved | ProgramModel, ProgramLP; theorems in PropProgram.v | refutation for SDP, proof for LP up to the solver task |
| C26 | A dual certificate of the linear programme is a valid witness | proved | LPSolveModel; theorems in PropSolve.v | task = problem; weak and strong duality over Qc (Farkas); validity of the certificate |
| C27 | SDP preprocessing and certificate are sound | proved | SDPSolveModel; theorems in PropSDP.v | weak duality with positive semidefinite matrices; validity of the certificate |
| C28 | The SDPA file describes the same programme | proved | SdpaModel; theorems in PropSdpa.v | reader semantics of the emitted rows |
| C29 | The LP and MPS files describe the same programme | proved | LPWriteModel; theorems in PropWrite.v | character-level reader of LP files and record-level reader of MPS files |
| C30 | Normalisation equalities hold for every quantum/probability assignment | proved | NormModel; theorems in PropNorm.v | linear functional semantics of the emitted equalities |
| C31 | Cleaning a certificate only rescales and drops small terms | proved | SearchModel; theorems in PropSearch.v | rational arithmetic |
| C32 | Critical-parameter search keeps its bracket and terminates | proved | SearchModel; theorems in PropSearch.v | loop invariants with an arbitrary solver as parameter |
| C33 | Column generation returns exactly the requested operator products | proved | ColsModel; theorems in PropCols.v | enumeration against the specification of columns |
| C34 | Column symmetries are permutations acting as a group | proved | ColumnModel; theorems in PropOrbit.v | group action on columns |
| C35 | Inflation representative is constant on orbits | proved | MemoModel; theorems in PropMemo.v | least element of the orbit, over all histories |
| C36 | Dictionaries of moments are aggregated linearly | proved | ProgramModel; theorems in PropProgram.v | linearity |
| C37 | The physicality test accepts only products that are non-negative in every quantum state | proved | PhysModel; theorems in PropPhys.v | components and palindromes; positivity in every state from an algebraic argument |
| C38 | Names identify operators and moments | proved | NameModel; theorems in PropName.v | injectivity and read-back of rendered texts, invariants over construction histories |
| C39 | Bounds merge monotonically | proved | ProgramModel; theorems in PropBounds.v, PropProgram.v | histories of bounds |
| C40 | Objective with known moments is rewritten without changing its value | proved | ProgramModel; theorems in PropProgram.v | histories; value of the objective at consistent points |
| C41 | Default lower bounds of Hermitian moments | proved | HermModel, QuantumSpec; theorems in PropPhys.v | orbits; explicit quantum counterexample over rational complex numbers |
| C42 | The scenario built from a DAG | proved | DagModel; theorems in PropDag.v | exact characterisation of accepted arguments and of the resulting scenario |
| C43 | Verdicts of linear programmes about distributions are right | proved | LPMomentModel with LPModel, ProgramModel, ProgramLP, LPSolveModel; CausalSpec, InflatedSpec; theorems in PropSound.v | causal model -> inflation by copying sources and noise (means of independent variables) -> point of the programme -> point of the task; certificates by C26 |
| C44 | Verdicts of semidefinite programmes about distributions are right | proved | SDPMomentModel with ColumnModel, MomentModel, OrbitModel, NormModel, NameModel, ProgramModel, SDPSolveModel; QInflationSpec, QModelSpec, SDPRunSpec, CausalSpec; theorems in PropSoundSDP.v | means of an inflation -> point of the programme (each atom, moment, equality, bound and the moment matrix) -> verdicts by C27; classical causal models via copies of sources and noise; quantum models via copies of states, operators of different parties or copies commute and factorise, exchange of copies; products of two operators and their exchanged conjugate are squared norms of partial means; mixtures by convexity |
| C45 | Verdicts about supports are right | proved | LPMomentModel, SDPMomentModel, ProgramModel (supports_step), ProgramLP, LPSolveModel, SDPSolveModel; SupportSpec, SupportSDPSpec; theorems in PropSupport.v, PropSupportSDP.v | the values of a compatible distribution with the same support, multiplied by a large number, are a point of the problem (its constraints are homogeneous but for the bounds 1); then C43's way to the task; for semidefinite programmes the same with the moments of C44 (a large multiple of a positive semidefinite matrix is positive semidefinite) |
| C46 | Certificates as the user sees them | proved | CertModel with SearchModel, ProgramModel, LPMomentModel, SDPMomentModel; CertSpec (reading of sums); theorems in PropCert.v, PropCertSDP.v | dictionary: unique keys and the error of cleaning; text: reading back term by term; evaluation: certificates are non-negative at the moments of an inflation (C43) and of quantum models (C44), the known moments are marginals between 0 and 1 |
| C47 | Linear programmes given as dictionaries are the ones that are solved | proved | LPDictModel with LPSolveModel; LPDictSpec; theorems in PropDict.v | rows of the matrices and dictionaries correspond one by one; composition with C26 |
| C48 | The MATLAB file describes the same programme | proved | MatModel; theorems in PropMat.v | shift of the indices commutes with the meaning of matrix, values, bounds and (in)equalities; induction for the dropped coefficients |
| C49 | The human-readable form says what the programme says | proved | CsvModel; theorems in PropCsv.v | reader semantics of cells and sums of signed terms (as C46); sorted lists for the bounds |
| C50 | Factorisation conditions of linear programmes | proved | FactCondModel with LPMomentModel, LPModel; FactCondSpec; theorems in PropFactCond.v | the set of columns is closed under factors (GlueProofs); behaviours whose columns factorise have independent sources: last outcomes by normalisation, exclusive outcomes by positivity, the rest by relabelling to a column |
| C51 | Names of moments in linear programmes | proved | NameLPModel with NameModel, LPMomentModel, FactCondModel; NameLPSpec, NameSpec; theorems in PropNameLP.v | names of increasing words are texts from which the word is read back (injectivity of the general forms of C38); the dictionaries satisfy the invariant that an entry is named by its own moment; columns are closed under factors and different |
| C52 | The exported linear programme is the one that is solved | proved | ArgsModel with ProgramModel, ProgramLP, LPWriteModel; ProgramSpec, LPWriteSpec; theorems in PropArgs.v | a row of a sparse matrix and its dictionary by name have the same value at every point (entries at one place are added, names of columns are different); composition with the programme of C25, the names of C51 and the files of C29; semi-known moments are longer than the moment they are proportional to (invariant) |
| C53 | reset discards what the user has set | proved | ResetModel with ProgramModel; ProgramSpec; theorems in PropReset.v | the newly generated state computed for every problem; invariants over histories of calls with resets and solves |
| C54 | A stored solution belongs to the current problem | proved | ResetModel with ProgramModel, ProgramLP, SDPSolveModel; theorems in PropReset.v | invariant over histories: the fields read by the solver task are those of the stored solution |
| C55 | Values can be given in several calls | proved | ProgramModel; ProgramSpec; theorems in PropSteps.v | invariant over the calls: the known values are those of the specification of C22 for all the values given so far; what a call derives depends on the values of single factors only |
| C56 | Values, bounds and the objective can be set in any order | proved | ProgramModel; ProgramSpec; theorems in PropOrder.v | invariant over the calls: the known values, bounds, objective and processed objective are functions of the table of values and of the last request of each kind |
| C57 | solve reports the optimum of the user's objective in the user's direction | proved | ProgramModel; ProgramSpec; PropValue (reported); theorems in PropValue.v | invariant: the objective of a state is the one set last; the processed objective has its value (C40); the direction changes the sign twice |
| C58 | What solve of a linear programme solves | proved | ProgramLP; LPSolveModel; PropMode (modes, solve_args); theorems in PropMode.v | case analysis of the flags; the task is the problem with slack (C26), whose points with slack at most 0 are those of the programme (C25) |
| C59 | The file and the format of an export | proved | FileModel; PropFile (no_dot, ends_with); theorems in PropFile.v | Python's split on dots: induction on the text; the last part is the extension exactly if the text ends with the dot and it |
| C60 | Reducing the copy indices of a monomial | proved | FileModel; PropReduce (renaming, increasing_on, no_gaps); theorems in PropReduce.v | numpy.unique is the sorted list without repetition; ranks in it extend to a permutation of the copies; sorted lists with the same members are equal |

## 5. What the code does not do (found while modelling)

Each has a `_refuted` theorem or is excluded by an explicit hypothesis, and is named in the MANIFEST note.

* C11: component labels are `uint8`; more than 255 source copies in one monomial overflow (`C11_refuted_beyond_255`).
* C18: with a cutoff on the size of cliques, cliques of the cutoff size are all called maximal.
* C22/C23/C40: `update_values` leaves stale semi-known moments; default lower bounds are not restored; in support problems lower
  bounds go stale; setting an objective that mentions a semi-known moment always raises.
* C24: the memo key lacks `apply_only_commutations`; words of several zero operators are returned unreduced.
* C25: semidefinite programmes never use extra (in)equalities, and `set_values` discards them.
* C26: certificates with bounds, with an objective of known variables, or with negative lower bounds and default
  non-negativity are wrong; zero rows raise.
* C27: line 516 overwrites the objective's contribution to the certificate; in relaxed mode with default
  non-negativity the slack is forced to be non-negative; further sign issues in the note.
* C28: SDPA files minimise although the objective is to be maximised; bounds of semi-known moments are dropped; with two or more
  inequalities the block is larger than declared; negative upper bounds are printed as `--`.
* C29: LP files with bounds have no line breaks there and cannot be read; constants of objectives are lost; violated
  constraints between known moments are left out; MPS rounds coefficients to 4 decimals.
* C30: the search for normalisation equalities stops at the first missing word; parties with one outcome raise.
* C31/C32: the documented threshold of `clean_coefficients` is not the one applied; pre-checks of the bisection are insufficient.
* C33: duplicate columns are only warned about; capitalised "Local..." is read as "physical".
* C35: the inflation representative is computed from the word before canonicalisation (line 1633).
* C37: `nb_is_physical` accepts products that are not positive when non-classical latents make parties not commute.
* C41: the default lower bound 0 of Hermitian moments is not valid with two copies of two quantum sources: an explicit
  qubit realisation gives a moment of -304/625000 (`C41_symmetric_bound_refuted`).
* C51: with party names AB, A, BA two moments of a linear programme share the legacy name pABA(00|00).
* C52: `moment_equalities_by_name` and `moment_inequalities_by_name` (InflationLP.py 1737-1746) are cached and never
  cleared: constraints set with `set_extra_equalities` after one `write_to_file` are missing in the next file, and extra
  constraints of the first export stay in later files after `set_values` has discarded them.  Lines 1937-1938 assign to
  a dictionary that is made afresh, so that the constant term is not a known value but an unused variable.
* C38: names depend on the history of constructions; `P[...]` names of several operators are not read back; party names with `_`
  or that are prefixes of others collide.
* C42: cycles of observed nodes, classical latents without parents, and level 0 are accepted.
* C43: with linearised constraints a compatible distribution with a probability of at most 1e-8 can be declared incompatible
  (`C43_tiny_products_refuted`).
* C45: in supports problems values of at most 1e-8 are taken for impossible events, which can exclude a compatible distribution
  (`C45_small_probabilities_refuted`); a second `set_distribution` keeps the lower bounds of the first and can make a possible
  support infeasible (`C45_second_support_refuted`).
* C46: `evaluate_certificate` uses coefficients rounded to three decimals and can be negative at a compatible distribution
  (`C46_negative_evaluation_refuted`, Bell scenario); a semidefinite certificate with both `1` and `constant_term` loses one of the
  two in `certificate_as_dict`, because `Constant_Term` equals `One` as a key (`C46_constant_lost_refuted`);
  `InflationSDP.certificate_as_string` raises IndexError if nothing is printed (`C46_empty_text_refuted`); without cleaning,
  coefficients within 1e-5 of 1 are not printed (`C46_near_one_refuted`).
* C47: `solveLP` passes omitted arguments on as None, which raises (`C47_omitted_arguments_refuted`); with semi-known variables
  equalities given as a sparse matrix are silently dropped (`C47_replaced_equalities_refuted`); names that occur only in bounds raise
  KeyError (`C47_bounds_declare_nothing_refuted`).
* C48: coefficients of at most 1e-8 of the objective are not written to the MATLAB file (`C48_objective_refuted`); a zero moment that
  is used but not in the matrix gets index 0 (`C48_zero_refuted`); in supports problems One is not among the known values, so the file
  does not say that it is 1.
* C49: a known value that is an integer k >= 2 is printed as the name of moment k (`C49_integer_value_refuted`); coefficients within 1e-5
  of 1 are printed as 1 (`C49_coefficient_refuted`); a constraint without terms raises IndexError (`C49_total`).
* C53: in a semidefinite programme reset("values") leaves the known values substituted in `_processed_objective`
  (`C53_objective_after_reset_refuted`); lower bounds are not restored for moments still known, so the order of names matters
  (`C53_order_refuted`); in problems about supports reset() makes One known with value 1, the newly generated problem does not
  (`C53_supports_refuted`).
* C54: set_extra_equalities and set_extra_inequalities do not delete the stored solution, so a linear programme that has become
  infeasible still reports the old optimum and certificate (`C54_lp_extra_refuted`); in a semidefinite programme this is harmless
  because extra constraints are ignored (C25).
* C55: the value of a factor that is not itself a moment of the programme is deleted at the end of the call, so products with factors
  valued in a later call are not known (`C55_not_a_column_refuted`); with linearised polynomial constraints a product once known to
  vanish stays 0 after the factor gets another value by update_values (`C55_lpi_refuted`).
* C56: a negative value of a Hermitian moment is accepted after the lower bound that allows it has been set and refused before
  (`C56_acceptance_refuted`).
* C57: coefficients of an objective up to 1e-8 are dropped, so an objective with small coefficients only is reported as 0
  (`C57_small_coefficients_refuted`).
* C58: relaxed solves of linear programmes drop the default non-negativity (lp_utils.py 213-214), so infeasible problems can reach
  the value 0 (`C58_nonnegativity_is_lost_refuted`); `feas_as_optim=True` is read after the check that protects the objective
  (`C58_feas_as_optim_ignores_the_objective_refuted`).
* C59: the extension is searched in the whole path (InflationLP.py 921, InflationSDP.py 1304), so a name without extension in
  `./` or in a directory with a dot raises although a default is documented (`C59_directories_refuted`).
* C60: `reduce_inflation_indices` numbers the copies by size, not by first use, so it is no representative even for
  monomials that differ only by a renaming of copies (`C60_not_a_representative_refuted`).
* C44 (excluded by hypotheses of `sdp_run`: the calls succeed): `knowable_atoms`, `atomic_monomials`, `atomic_factors` are cached
  and never cleared, so after a second `generate_relaxation` on the same object `set_distribution` uses the atoms of the first;
  with `shared_randomness=True` values of knowable atoms that are not moments themselves stay among the known moments and the
  assertion in `_prepare_solver_arguments` fails (columns {1, A11 A22}), as it does when the columns lack the identity; the assertion
  "Multiple indices" fails for explicit columns that are not closed under the symmetries.

## 6. Tests of the theorems

`seeded/LOG.jsonl` records the mutations: each edits one definition of the model the way a bug would, rebuilds, and lists the
theorems that fail; where none failed the theorem was tightened (field `theorems_tightened`) or the edit shown to be harmless.

## 7. Theorems and assumptions

All of the following are closed under the global context. To recheck: for each name N in MANIFEST.json compile
`From Verif Require Import <its file>. Print Assumptions N.`

* C01: `C01_canonical_form_sound`, `C01_canonical_form_complete`
* C02: `C02_canonical_form_lex_least`
* C03: `C03_equal_iff_same_canonical_form`, `C03_zero_iff_forced_zero`, `C03_result_is_equal`, `C03_commuting_fast_path`, `C03_scenario_tables_well_formed`, `C03_scenario_equal_iff_same_canonical_form`, `C03_scenario_orthogonality`
* C04: `C04_idempotent`, `C04_shape`
* C05: `C05_moment_matrix`
* C06: `C06_symmetrised_matrix_is_orbits`, `C06_labels_consecutive`, `C06_no_symmetries`, `C06_scenario_moment_matrix`
* C07: `C07_commutation_rule`, `C07_symmetric`, `C07_reflexive`, `C07_independent_of_outcomes`, `C07_same_measurement_commutes`, `C07_different_parties_commute`, `C07_all_classical_commutes`
* C08: `C08_source_permutation_preserves`, `C08_symmetries_preserve_commutation`, `C08_shared_source_meaning`
* C09: `C09_operator_list_exact`, `C09_operator_list_sorted_no_repetition`, `C09_conversion_roundtrip`, `C09_conversion_roundtrip_indices`, `C09_unknown_operator_rejected`
* C10: `C10_symmetries_are_all_relabellings`, `C10_every_relabelling_found`, `C10_identity_first`, `C10_group`
* C11: `C11_pieces_are_the_linked_classes`, `C11_no_operator_lost`, `C11_refuted_beyond_255`
* C12: `C12_never_factorizes_sound`, `C12_never_factorizes_all_linked`
* C13: `C13_effective_settings_bijection`
* C14: `C14_knowable_iff`
* C15: `C15_private_setting`, `C15_networks_unchanged`, `C15_injective_on_knowable`
* C16: `C16_compute_marginal`, `C16_knowable_moment_value`, `C16_canonical_knowable_sorted`
* C17: `C17_evaluate_exact`, `C17_known_report_exact`, `C17_known_report_error`, `C17_knowability_status`, `C17_compound_marginal`
* C18: `C18_all_cliques`, `C18_maximal_cliques`, `C18_maximal_below_cutoff`, `C18_maximal_at_cutoff_refuted`, `C18_flag_off`
* C19: `C19_programme_exact`, `C19_inequalities_are_event_probabilities`, `C19_behaviours_exist`
* C20: `C20_programme_is_generated`
* C21: `C21_orbits_are_classes`, `C21_atomic_same_for_images`, `C21_atomic_is_an_image`, `C21_atomic_without_symmetry`
* C22: `C22_never_both`, `C22_known_exactly`, `C22_semiknown_exactly`, `C22_only_specified`, `C22_without_values`, `C22_values_are_correct`, `C22_target_is_not_semiknown`, `C22_supports`, `C22_update_values_refuted`
* C23: `C23_values_afresh`, `C23_everything_afresh`, `C23_bounds_only_shrink`, `C23_bounds_refuted`
* C24: `C24_answers_independent_of_history`, `C24_internal_calls_are_good`, `C24_flag_not_in_key_refuted`
* C25: `C25_lp_constraints_reach_the_solver`, `C25_lp_task_is_built`, `C25_extra_constraints_are_the_users`, `C25_extra_inequalities_are_the_users`, `C25_sdp_ignores_extra_constraints_refuted`, `C25_discarded_by_set_values_refuted`
* C26: `C26_tasks_are_built`, `C26_primal_task_is_the_problem`, `C26_dual_bounds_primal`, `C26_dual_is_tight`, `C26_infeasibility_is_detected`, `C26_certificate_is_valid`, `C26_certificate_at_known`, `C26_certificate_from_primal_is_valid`, `C26_bound_rows`, `C26_semiknown_rows`, `C26_example_args`, `C26_example_solution`, `C26_known_objective_certificate_refuted`, `C26_bounds_certificate_refuted`, `C26_negative_lower_bound_refuted`
* C27: `C27_same_programme`, `C27_same_programme_relaxed`, `C27_total`, `C27_dual_bound`, `C27_dual_bound_relaxed`, `C27_certificate`, `C27_certificate_relaxed`, `C27_certificate_infeasible`, `C27_ray_infeasible`, `C27_clean`, `C27_certificate_objective_refuted`, `C27_returned_matrix_refuted`, `C27_known_target_refuted`
* C28: `C28_same_programme`, `C28_bounds`, `C28_number_of_variables`, `C28_total`, `C28_sense_refuted`, `C28_negative_known_refuted`, `C28_semiknown_bound_refuted`, `C28_two_inequalities_refuted`, `C28_negative_upperbound_refuted`, `C28_known_moments_refuted`
* C29: `C29_lp`, `C29_lp_optimum`, `C29_mps`, `C29_mps_optimum`, `C29_lp_bounds_refuted`, `C29_lp_known_objective_refuted`, `C29_case`, `C29_known_constraint_refuted`, `C29_default_non_negative_refuted`, `C29_mps_rounding_refuted`
* C30: `C30_equalities_hold`, `C30_assignment_exists`, `C30_functional_exists`, `C30_no_repetition`, `C30_columns_complete`, `C30_columns_sound`, `C30_rows_complete`, `C30_dictionary`, `C30_break_refuted`, `C30_single_outcome_refuted`
* C31: `C31_cleaning`, `C31_fails_exactly`, `C31_scale_invariant`, `C31_documented_threshold_refuted`
* C32: `C32_bisect_bracket`, `C32_bisect_finds`, `C32_bisect_upper_bound`, `C32_bisect_returns`, `C32_bisect_certificate`, `C32_bisect_checks_insufficient_refuted`, `C32_dual_terminates`, `C32_dual_descends`, `C32_dual_sound`, `C32_dual_failure`
* C33: `C33_npa`, `C33_local`, `C33_physical`, `C33_blocks`, `C33_symmetric`, `C33_text`, `C33_duplicate_identity_refuted`, `C33_explicit_refuted`, `C33_explicit`, `C33_single_column_refuted`, `C33_npa_latents_refuted`, `C33_capital_local_refuted`
* C34: `C34_column_symmetries`, `C34_symmetry_used`, `C34_acts_on_moment_matrix`
* C35: `C35_representative`, `C35_representative_is_first`, `C35_symmetries_are_relabellings`, `C35_unreduced_word_refuted`
* C36: `C36_linear`, `C36_value_changes_little`
* C37: `C37_physical_iff`, `C37_physical_is_nonnegative`, `C37_converse_refuted`, `C37_latents_refuted`
* C38: `C38_operator_names`, `C38_atom_names`, `C38_conjugation`, `C38_dictionary`, `C38_same_moment`, `C38_parse`, `C38_representatives_are_atoms`, `C38_name_depends_on_history_refuted`, `C38_reading_names_refuted`, `C38_underscore_refuted`, `C38_prefix_refuted`
* C39: `C39_bounds_reach_the_solver`, `C39_requested_bounds_hold`, `C39_known_have_no_bounds`, `C39_set_upper`, `C39_set_lower`, `C39_contradiction_is_detected`
* C40: `C40_same_value`, `C40_no_known_moments`, `C40_fails_exactly`
* C41: `C41_which_moments`, `C41_self_conjugate_nonnegative`, `C41_commuting_nonnegative`, `C41_no_inflation_nonnegative`, `C41_symmetric_bound_refuted`
* C42: `C42_accepts`, `C42_describes`, `C42_order`, `C42_sources_have_no_parents`, `C42_well_formed`, `C42_default_dag`, `C42_acyclic_refuted`, `C42_latent_without_parents_refuted`, `C42_level_zero_refuted`
* C43: `C43_problem_is_built`, `C43_compatible_distributions_have_inflations`, `C43_compatible_distributions_are_feasible`, `C43_infeasible_means_incompatible`, `C43_negative_optimum_means_incompatible`, `C43_mixtures_are_feasible_with_shared_randomness`, `C43_certificates_hold_for_compatible_distributions`, `C43_certificates_hold_for_mixtures`, `C43_negative_certificate_means_incompatible`, `C43_optimum_bounds_compatible_distributions`, `C43_tiny_products_refuted`
* C44: `C44_compatible_distributions_have_moments`, `C44_mixtures_have_moments`, `C44_commuting_moments_are_nonnegative`, `C44_one_copy_moments_are_nonnegative`, `C44_quantum_distributions_have_moments`, `C44_quantum_mixtures_have_moments`, `C44_programmes_are_built`, `C44_names`, `C44_moments_are_a_point`, `C44_mixtures_are_feasible_with_shared_randomness`, `C44_exclusion_is_right`, `C44_exclusion_is_right_with_shared_randomness`, `C44_quantum_distributions_are_not_excluded`, `C44_quantum_mixtures_are_not_excluded_with_shared_randomness`, `C44_bounds_hold`, `C44_certificates_hold`, `C44_certificates_hold_for_mixtures`, `C44_negative_certificate_excludes`, `C44_certificates_hold_for_quantum_distributions`
* C45: `C45_problem_is_built`, `C45_possible_supports_are_feasible`, `C45_possible_mixtures_are_feasible`, `C45_tables_have_no_small_values`, `C45_infeasible_means_impossible`, `C45_negative_optimum_means_impossible`, `C45_small_probabilities_refuted`, `C45_second_support_refuted`, `C45_sdp_possible_supports_are_feasible`, `C45_sdp_exclusion_is_right`, `C45_sdp_tables_have_no_small_values`, `C45_sdp_names`
* C46: `C46_dictionary_is_the_certificate`, `C46_cleaned_dictionary`, `C46_dictionary_exists`, `C46_evaluation_at_compatible_distributions`, `C46_evaluation_at_mixtures`, `C46_negative_evaluation_means_incompatible`, `C46_text_says_the_dictionary`, `C46_text_exists`, `C46_negative_evaluation_refuted`, `C46_constant_lost_refuted`, `C46_empty_text_refuted`, `C46_near_one_refuted`, `C46_sdp_evaluation_is_the_certificate`, `C46_sdp_evaluation`, `C46_sdp_negative_evaluation`, `C46_sdp_certificate_in_moments`
* C47: `C47_inferred_variables`, `C47_same_problem`, `C47_task_is_the_problem`, `C47_dual_bounds`, `C47_certificate`, `C47_omitted_arguments_refuted`, `C47_bounds_declare_nothing_refuted`, `C47_replaced_equalities_refuted`
* C48: `C48_same_programme`, `C48_names`, `C48_objective_refuted`, `C48_zero_refuted`
* C49: `C49_matrix`, `C49_objective`, `C49_constraints`, `C49_bounds`, `C49_total`, `C49_integer_value_refuted`, `C49_coefficient_refuted`
* C50: `C50_conditions_exist`, `C50_equivalent`, `C50_exact`, `C50_compatible_distributions_satisfy_them`
* C51: `C51_atoms_of_programmes`, `C51_representatives_are_atoms`, `C51_atom_names`, `C51_moments`, `C51_columns`, `C51_conditions_by_name`, `C51_prefix_refuted`
* C52: `C52_arguments`, `C52_mps_file`, `C52_lp_file`, `C52_stale_constraints_refuted`, `C52_generated_programmes`, `C52_new_constraints_lost_refuted`
* C53: `C53_all_is_new`, `C53_nothing_remains`, `C53_values`, `C53_objective`, `C53_bounds`, `C53_names`, `C53_succeeds`, `C53_never_both`, `C53_known_have_no_bounds`, `C53_direction`, `C53_objective_after_reset_refuted`, `C53_order_refuted`, `C53_supports_refuted`
* C54: `C54_sdp_solution_is_current`, `C54_lp_solution_is_current`, `C54_lp_extra_refuted`
* C55: `C55_values_in_steps`, `C55_lp_succeeds`, `C55_not_a_column_refuted`, `C55_lpi_refuted`
* C56: `C56_any_order`, `C56_bounds_in_the_end`, `C56_acceptance_refuted`
* C57: `C57_reported_value`, `C57_sdp_passes_it`, `C57_only_if_feasible`, `C57_small_coefficients_refuted`
* C58: `C58_two_modes`, `C58_plain`, `C58_relaxed`, `C58_negative_value_means_infeasible`, `C58_feas_as_optim_ignores_the_objective_refuted`, `C58_nonnegativity_is_lost_refuted`, `C58_sdp_objective`
* C59: `C59_lp`, `C59_sdp`, `C59_directories_refuted`
* C60: `C60_renaming`, `C60_as_small_as_possible`, `C60_same_pattern`, `C60_shared_copies`, `C60_only_same_pattern`, `C60_idempotent`, `C60_not_a_representative_refuted`
