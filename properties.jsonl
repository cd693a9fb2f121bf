{"id": "C01", "title": "Commutation canonical form is a complete invariant", "statement": "When an operator word (product of measurement operators, given as lexicographic indices) is canonicalised using commutations only, the result is the same product (reachable from the input by exchanging neighbouring operators that commute), and two words receive the same result exactly when one can be turned into the other by such exchanges.", "quantifier": "every commutation table that is symmetric, and every pair of words of any length over it", "why_tests_cant": "The number of words and of commutation tables is infinite; a missed identification only shows up for particular interleavings of commuting operators.", "anchors": ["inflation/sdp/fast_npa.py: nb_lexmon_to_canonical, to_canonical_1d_internal"]}
{"id": "C02", "title": "The canonical form is the lexicographically first representative", "statement": "The commutation-canonical form of a word is lexicographically no larger than every word that is equal to it up to commutations, and is itself one of these words.", "quantifier": "every symmetric commutation table, every word and every word equivalent to it", "why_tests_cant": "Minimality is a statement about the whole (exponentially large) equivalence class.", "anchors": ["inflation/sdp/fast_npa.py: nb_lexmon_to_canonical"]}
{"id": "C03", "title": "Full canonicalisation decides equality of projector products", "statement": "With commutations, idempotence of projectors and orthogonality of different outcomes of the same measurement taken as the only relations, the canonicaliser reports zero exactly for the products that these relations force to be zero, and gives two non-zero products the same canonical form exactly when the relations make them equal.", "quantifier": "every scenario in which outcomes of one measurement are numbered consecutively and share their commutation row; every pair of words", "why_tests_cant": "Completeness of a rewriting strategy over all words; tests sample a few words in a few scenarios.", "anchors": ["inflation/sdp/fast_npa.py: to_canonical_1d_internal, lexmon_is_zero, remove_projector_squares"]}
{"id": "C04", "title": "Canonicalisation is idempotent and shrinking", "statement": "Canonicalising an already canonical word returns it unchanged, canonical words contain no operator twice in a row and no adjacent orthogonal pair, and canonicalisation never makes a word longer or introduces an operator not present in it.", "quantifier": "every scenario and every word", "why_tests_cant": "Infinite family of words.", "anchors": ["inflation/sdp/fast_npa.py: to_canonical_1d_internal, remove_projector_squares"]}
{"id": "C05", "title": "Moment matrix indices identify exactly the equal moments", "statement": "In the generated moment matrix an entry is 0 exactly when the product row-dagger times column is zero, two non-zero entries carry the same index exactly when their products are equal up to the relations and Hermitian conjugation (or commutations when everything commutes), the matrix is symmetric, the indices used are 1..n without gaps, and the returned dictionary maps each index to exactly one canonical word of that class.", "quantifier": "every generating set of columns and every scenario", "why_tests_cant": "Entry identification depends on the order of discovery and all pairs of columns.", "anchors": ["inflation/sdp/quantum_tools.py: calculate_momentmatrix_1d_internal", "inflation/sdp/fast_npa.py: reverse_mon, dot_mon"]}
{"id": "C06", "title": "Symmetrised moment matrix merges exactly the symmetry orbits", "statement": "After applying the inflation symmetries, two entries of the moment matrix have the same index exactly when their original indices are in the same orbit of the symmetry group acting on the matrix; the returned orbit table sends every original index to its symmetrised index, the representatives point back to an original index of the same orbit, and zero stays zero; with no symmetries everything is returned unchanged.", "quantifier": "every moment matrix and every group of column permutations acting consistently on it", "why_tests_cant": "A one-pass merging loop is only correct because the permutations form a group; tests cannot cover all groups and matrices.", "anchors": ["inflation/sdp/quantum_tools.py: apply_inflation_symmetries, reduce_inflation_indices"]}
{"id": "C07", "title": "Commutation table is a valid commutation relation", "statement": "The commutation table handed to the canonicaliser is symmetric, every operator commutes with itself, whether two operators commute never depends on their outcomes, operators of one measurement commute, operators of different parties commute unless a non-classical source reaches both through a non-classical intermediate latent, operators that share only classical sources commute, and operators that use different copies of all their common non-classical sources commute; otherwise two operators commute only if they use the same copies of all common sources and are either of different parties or have the same setting.", "quantifier": "every list of operators of every scenario (any number of parties, sources, copies, settings, outcomes; any set of classical sources; both the commuting and non-commuting modes)", "why_tests_cant": "Quantifies over all scenarios and all pairs of operators.", "anchors": ["inflation/sdp/fast_npa.py: nb_operators_commute, commutation_matrix"]}
{"id": "C08", "title": "Commutation and source overlap are unchanged by relabelling source copies", "statement": "Permuting the copies of any source consistently in two operators changes neither whether they commute nor whether they share a source copy.", "quantifier": "every pair of operators, every source, every permutation of its copies", "why_tests_cant": "All permutations and all operator pairs.", "anchors": ["inflation/sdp/fast_npa.py: nb_operators_commute, nb_exists_shared_source, apply_source_perm"]}
{"id": "C09", "title": "The operator list enumerates exactly the inflated operators", "statement": "The lexicographic operator list contains every operator (party, one copy per connected source, setting, outcome) that the inflation allows, exactly once and nothing else, and converting a monomial to indices and back returns the same monomial.", "quantifier": "every scenario and inflation level, every monomial over its operators", "why_tests_cant": "All scenario sizes.", "anchors": ["inflation/InflationProblem.py: __init__, mon_to_lexrepr"]}
{"id": "C10", "title": "The discovered inflation symmetries are the full group of source-copy permutations", "statement": "The discovered symmetries of the operator list start with the identity, are permutations of the operator list, are closed under composition and contain every combination of permutations of the copies of each source.", "quantifier": "every scenario and inflation level", "why_tests_cant": "The group has product-of-factorials many elements for arbitrary levels.", "anchors": ["inflation/InflationProblem.py: discover_lexorder_symmetries", "inflation/utils.py: perm_combiner, format_permutations"]}
{"id": "C11", "title": "Factorisation splits a monomial into its independent parts", "statement": "Factorising a monomial in which at most 255 different tuples of copy indices occur returns pieces whose operators together are exactly those of the monomial, each piece listing its operators in the original order; two operators are in the same piece exactly when they are linked by a chain of operators of the monomial consecutive ones of which share a source copy. (Beyond 255 the 8-bit component labels wrap around and unlinked operators can be put together.)", "quantifier": "every monomial with at most 255 different tuples of copy indices, over every scenario", "why_tests_cant": "Reachability in arbitrary graphs.", "anchors": ["inflation/sdp/fast_npa.py: nb_classify_disconnected_components, nb_overlap_matrix, nb_exists_shared_source", "inflation/InflationProblem.py: factorize_monomial_1d"]}
{"id": "C12", "title": "The 'never factorizes' shortcut is sound", "statement": "When the problem declares that no monomial can factorise, factorising any monomial the long way would indeed return it in one piece.", "quantifier": "every scenario in which the flag is false and every monomial", "why_tests_cant": "All networks, all inflation levels.", "anchors": ["inflation/InflationProblem.py: ever_factorizes, factorize_monomial_1d"]}
{"id": "C13", "title": "Effective settings encode private setting and parent outcomes without collision", "statement": "For every party the effective settings are in one-to-one correspondence with the tuples (private setting, parent outcomes) within range, in lexicographic order.", "quantifier": "every DAG, every cardinality vector", "why_tests_cant": "All mixed-radix shapes.", "anchors": ["inflation/InflationProblem.py: __init__ (effective_to_parent_settings), rectify_fake_setting"]}
{"id": "C14", "title": "Knowable moments are exactly the do-free ones", "statement": "A monomial is reported as knowable exactly when each party appears at most once, for each source all the operators in it use the same copy, and every operator's parents' outcomes encoded in its setting agree with the parents' operators in the monomial.", "quantifier": "every monomial of every scenario", "why_tests_cant": "All networks and monomials.", "anchors": ["inflation/sdp/fast_npa.py: nb_is_knowable", "inflation/InflationProblem.py: _is_knowable_q_non_networks, is_knowable_q"]}
{"id": "C15", "title": "Fake-setting removal recovers the private setting", "statement": "Rectifying a knowable monomial replaces every party's effective setting by its private setting, leaving parties, copies and outcomes unchanged.", "quantifier": "every monomial of every scenario", "why_tests_cant": "All monomials.", "anchors": ["inflation/InflationProblem.py: rectify_fake_setting"]}
{"id": "C16", "title": "compute_marginal returns the marginal probability", "statement": "The value assigned to a knowable moment from a probability array is the sum of the array over the outcomes of the absent parties, at the settings requested (setting 0 for absent parties). (The code reads the outcomes in the order of the rows, so this needs the parties to be listed in increasing order; every canonical knowable moment lists them so.)", "quantifier": "every probability array of every shape, every knowable moment", "why_tests_cant": "All arrays.", "anchors": ["inflation/sdp/monomial_utils.py: compute_marginal"]}
{"id": "C17", "title": "Partial evaluation of a product of moments is exact", "statement": "Evaluating a compound moment against a table of known atomic moments returns a value and a list of unknown factors whose product always equals the product of all factors; it is reported known exactly if no unknown factors remain or the value is zero, semi-known if some but not all factors were known.", "quantifier": "every compound moment and every table of known values", "why_tests_cant": "Arbitrary multiplicities and tables.", "anchors": ["inflation/lp/monomial_classes.py: CompoundMoment.evaluate", "inflation/sdp/monomial_classes.py: CompoundMoment"]}
{"id": "C18", "title": "Clique enumeration returns exactly the cliques", "statement": "The clique enumeration returns every clique of the graph exactly once, by increasing size, and, when no size cutoff is given, marks as maximal exactly those (non-empty ones) that cannot be extended; with a cutoff it lists the cliques up to that size and the marking is exact below the cutoff size (at the cutoff size it is not).", "quantifier": "every finite simple graph (and every cutoff)", "why_tests_cant": "All graphs.", "anchors": ["inflation/utils.py: all_and_maximal_cliques"]}
{"id": "C19", "title": "The linear programme describes exactly the symmetric behaviours of the inflated scenario", "statement": "The points satisfying all equalities and inequalities of the linear programme (before values are set) are exactly the behaviours of the inflated scenario, i.e. the families of joint distributions of compatible measurements that agree on common events, which are invariant under relabelling of source copies: no such behaviour is excluded, and nothing else is allowed. Each inequality is the non-negativity of the probability of one complete event.", "quantifier": "every scenario, every behaviour, every assignment of the programme's variables", "why_tests_cant": "All distributions and scenario shapes.", "anchors": ["inflation/lp/InflationLP.py: minimal_sparse_equalities, minimal_sparse_inequalities"]}
{"id": "C20", "title": "All terms of an expansion exist in the programme", "statement": "Every event occurring in an expansion of a generated event is itself among the generated (non Collins-Gisin) events, so the lookup cannot fail.", "quantifier": "every scenario and every generated event", "why_tests_cant": "All scenario shapes.", "anchors": ["inflation/lp/InflationLP.py: _generate_lp, minimal_sparse_inequalities, minimal_sparse_equalities"]}
{"id": "C21", "title": "LP orbits are exactly the symmetry classes", "statement": "Two monomials of the linear programme are assigned the same representative exactly when an inflation symmetry maps one to the other, and an atomic monomial's representative is the same for all images under symmetries and is one of them.", "quantifier": "every scenario, every group of symmetries, every monomial", "why_tests_cant": "All groups and monomial sets.", "anchors": ["inflation/lp/InflationLP.py: _discover_inflation_orbits, _AtomicMonomial"]}
{"id": "C22", "title": "Known, semi-known and unknown moments stay disjoint", "statement": "After any history of calls no moment is both known and semi-known. After set_values, the known moments are exactly those given, the products of valued factors (with their product as value) and, with linearised polynomial constraints, the products with a negligible valued part; the semi-known ones are exactly the other products with some valued factor, with the product of the values as coefficient and the moment of the remaining factors, itself not semi-known, as target; the normalisation and zero moments are 1 and 0 unless the user gives them another value. (For update_values the semi-known part is false: stale entries of an earlier call remain.)", "quantifier": "every assignment of values (any subset of atomic and compound moments), every history of assignments", "why_tests_cant": "All histories.", "anchors": ["inflation/sdp/InflationSDP.py: update_values, set_values, _reset_values, _cleanup_after_set_values", "inflation/lp/InflationLP.py: update_values, set_values"]}
{"id": "C23", "title": "Setting values does not depend on earlier settings", "statement": "After set_values(v), the known and semi-known values and the extra constraints are the same whatever was set before; after also setting bounds and objective the whole programme is. (For the bounds alone it is false: the default lower bound of a moment that once was known is not restored.)", "quantifier": "every history of set_values calls", "why_tests_cant": "History quantification.", "anchors": ["inflation/sdp/InflationSDP.py: set_values, _reset_values, _update_bounds, _cleanup_after_set_values"]}
{"id": "C24", "title": "Canonicalisation results do not depend on previous calls", "statement": "The memoised canonicaliser returns for every call the value the unmemoised canonicaliser gives for the same arguments, whatever was asked before, as long as the only-commutations mode and the representative are asked for non-zero words without removable squares, as the package itself does (otherwise it is false: the mode is not part of the cache key).", "quantifier": "every history of calls", "why_tests_cant": "History quantification.", "anchors": ["inflation/sdp/InflationSDP.py: _to_canonical_memoized_1d, _to_inflation_repr_1d"]}
{"id": "C25", "title": "User-supplied extra constraints reach the solver", "statement": "For linear programmes the points feasible for the task passed to the solver are exactly those satisfying the generated constraints, every equality and inequality supplied with set_extra_equalities / set_extra_inequalities since the last set_values, the known and semi-known values, the bounds and non-negativity. (For semidefinite programmes it is false: extra constraints are never passed on.)", "quantifier": "every list of extra constraints", "why_tests_cant": "All constraint lists and call histories.", "anchors": ["inflation/sdp/InflationSDP.py: set_extra_equalities, set_extra_inequalities, _prepare_solver_arguments", "inflation/lp/InflationLP.py: _prepare_solver_matrices"]}
{"id": "C26", "title": "A dual certificate of the linear programme is a valid witness", "statement": "The task built for the primal formulation has exactly the points and values of the programme given by the arguments (inequalities, equalities, known values, bounds, optional slack); every value of the dual formulation bounds every point's value from above, the bound is tight, and an infeasible programme makes the dual unbounded. When no explicit bounds are passed and no known variable occurs in the objective, the certificate is non-negative at every point that satisfies the constraints for whatever known values, and at the given known values it equals the dual value minus the objective. (Explicit bounds and known variables in the objective invalidate the certificate; a negative lower bound makes the two formulations differ.)", "quantifier": "every programme (matrices, bounds, known values), every point of the primal and of the dual task", "why_tests_cant": "All real matrices and vectors.", "anchors": ["inflation/lp/lp_utils.py: solveLP_sparse"]}
{"id": "C27", "title": "SDP preprocessing and certificate are sound", "statement": "Provided semi-known moments are proportional to unknown ones, substituting them (or adding them as equalities) and moving known moments to the constant part describes the same feasible points, moment matrices and values as the original programme, with and without the relaxation of a feasibility problem to the largest smallest eigenvalue. The value of every point of the dual bounds every feasible value, a ray of the dual with negative value excludes every point, and the certificate, evaluated at any other values of the known moments, bounds the programme with those values (unless a known moment of the moment matrix is in the objective: its contribution is overwritten). The moment matrix returned after solving the dual is only the constant part of it.", "quantifier": "every programme (masks, objective, constraints, known and semi-known moments), every feasible point, every dual point, every assignment of known values", "why_tests_cant": "All matrices of every size and all dual points.", "anchors": ["inflation/sdp/sdp_utils.py: solveSDP_MosekFUSION"]}
{"id": "C28", "title": "The SDPA file describes the same programme", "statement": "If the known values and upper bounds are not negative, bounds are zero or exceed 1e-8, and there is at most one inequality, then the exported SDPA file is well formed; its variables are exactly the unknown moments, each once; a point satisfies the file exactly when the corresponding values of all moments make the moment matrix positive semidefinite and satisfy the bounds on unknown moments, the equalities and the inequality; and the objective line is the objective of the programme without its constant. The header counts the unknowns. Nothing is raised if objective, bounds and constraints are about unknown moments, the unit and moments known to vanish. (Beyond these conditions the export is wrong: SDPA minimises but the objective to be maximised is written with its own sign, negative known values lose their sign, bounds on semi-known moments are dropped, several inequalities or a negative upper bound give an unreadable file, and known moments in the objective or in equalities raise.)", "quantifier": "every programme (moment matrix, known and semi-known values, bounds, objective, equalities and inequalities) and every point", "why_tests_cant": "All programmes and all points; the tests look for a few substrings in one file.", "anchors": ["inflation/sdp/writer_utils.py: write_to_sdpa"]}
{"id": "C29", "title": "The LP and MPS files describe the same programme", "statement": "Reading back the LP file of a programme without bounds gives, whatever the printing of numbers and the iteration order of sets, a programme with the same feasible points, objective values and optimum as the one in memory (variables not negative); the MPS file is well formed and does so including bounds when no number has more than four decimals and bounds are not negative. (Not so, and proved not so: an LP file with any bound cannot be read, an objective made of known values is lost, violated constraints between known values are left out, default_non_negative=False is not exported, more decimals are rounded away.)", "quantifier": "every programme, number format, set iteration order and file name", "why_tests_cant": "All programmes, and the meaning of the file for an external reader.", "anchors": ["inflation/lp/writer_utils.py: write_to_lp, write_to_mps, format_constraint_lp"]}
{"id": "C30", "title": "Normalisation equalities hold for every quantum/probability assignment", "statement": "Every normalisation equality generated for the moment matrix is satisfied by every assignment in which the outcomes of a measurement sum to identity, none is repeated, its coefficients are +1 for the total and -1 for each (different) summand, and every column/row combination is either represented or holds for any moments because a product vanishes - provided the columns contain every word a column asks for (a missing word ends the search in that column).", "quantifier": "every well-formed scenario, list of columns and moment assignment", "why_tests_cant": "All moment assignments.", "anchors": ["inflation/sdp/quantum_tools.py: construct_normalization_eqs, expand_moment_normalisation", "inflation/sdp/InflationSDP.py: _discover_normalization_eqns"]}
{"id": "C31", "title": "Cleaning a certificate only rescales and drops small terms", "statement": "Cleaning coefficients divides all coefficients by one positive common factor (the absolute value of one of them), sets to zero exactly those that do not exceed the threshold after rescaling and rounds the others; keys and signs are kept, and it fails exactly when there are coefficients and none exceeds the threshold. (The documentation applies the threshold to the coefficients before rescaling.)", "quantifier": "every coefficient dictionary and threshold", "why_tests_cant": "All dictionaries.", "anchors": ["inflation/utils.py: clean_coefficients"]}
{"id": "C32", "title": "Critical-parameter search keeps its bracket and terminates", "statement": "Whatever values the solver reports: the bisection returns a parameter that is the middle of an interval, narrower than twice the tolerance, with the (shifted) reported value positive at its lower and negative at its upper end (or a parameter where it vanishes), so it finds a critical parameter up to the tolerance and bounds all feasible parameters; it returns whenever the ends are on the two sides and enough iterations are allowed, and the certificate returned belongs to the reported parameter. The dual search's values go down by more than the precision, so that it ends; the reported value is a critical value of one of its certificates and an upper bound on all feasible parameters.", "quantifier": "every oracle and starting interval", "why_tests_cant": "All oracles.", "anchors": ["inflation/optimization_utils.py: max_within_feasible, _maximize_via_bisect, _maximize_via_dual"]}
{"id": "C33", "title": "Column generation returns exactly the requested operator products", "statement": "Generating columns for npaN, localN or physicalN (with an optional maximal length) returns the identity first, only non-zero products of the requested operators (all outcomes of parties with children, all but the last of the others) within the requested bounds, every such product exactly once in some form, and each in canonical form; every inflation symmetry maps the columns to columns. A list of lists of parties gives the products with one operator per listed party that are not zero and not equal to a shorter product. The text of the specification is read accordingly. (npa and local: for networks in which operators of different parties commute. Explicitly listed columns are used as given: repeated or zero products are not removed.)", "quantifier": "every scenario and every column specification (npaN, localN, physicalN, explicit)", "why_tests_cant": "All levels.", "anchors": ["inflation/sdp/InflationSDP.py: build_columns, _build_cols_from_specs"]}
{"id": "C34", "title": "Column symmetries are permutations acting as a group", "statement": "The permutations of columns induced by inflation symmetries are bijections of the columns, include the identity, compose as the underlying symmetries, and map equal moment-matrix entries to equal entries.", "quantifier": "every scenario and every symmetric generating set", "why_tests_cant": "All groups.", "anchors": ["inflation/sdp/InflationSDP.py: _discover_columns_symmetries"]}
{"id": "C35", "title": "Inflation representative is constant on orbits", "statement": "Two monomials related by permuting copies of sources get the same inflation representative, and the representative is related to the monomial by such a permutation; this holds after any history of calls on reduced (e.g. canonical) monomials.", "quantifier": "every monomial, every source-copy permutation", "why_tests_cant": "All permutations.", "anchors": ["inflation/sdp/InflationSDP.py: _to_inflation_repr_1d, _inflation_orbit_and_rep_1d"]}
{"id": "C36", "title": "Dictionaries of moments are aggregated linearly", "statement": "Normalising a user dictionary of moments adds the coefficients of all keys denoting the same moment, so that its value under every assignment of values to moments changes only by the terms with a coefficient of at most 1e-8, which are dropped.", "quantifier": "every dictionary, every assignment", "why_tests_cant": "All dictionaries.", "anchors": ["inflation/sdp/InflationSDP.py: _sanitise_dict", "inflation/lp/InflationLP.py: _sanitise_dict"]}
{"id": "C37", "title": "The physicality test accepts only products that are non-negative in every quantum state", "statement": "The test reports a product of operators physical exactly when each of its factors (operators of one party linked by shared source copies, in order) is a palindrome or, when the sandwich rule is off, a single operator. If operators of different parties commute, an accepted product is of the form u*u and so has a non-negative value in every state, and with the sandwich rule off all its operators commute.", "quantifier": "every product of operators of every scenario, every state", "why_tests_cant": "All products and all states.", "anchors": ["inflation/sdp/fast_npa.py: nb_is_physical"]}
{"id": "C38", "title": "Names identify operators and moments", "statement": "For semidefinite relaxations with different party names free of the characters _ ^ = * , | ( ) [ ] < > and blanks: the name and both old names of every operator are read back as that operator; different atomic moments have different names and, when no party name is the beginning of another, different legacy names; after any history of constructions every moment made is found under its name and under its legacy name, no text names two moments, and two products of atomic moments get the same moment, and the same name, exactly when they agree up to order, unit factors and conjugation of the whole; a text <..>*..*<..> of operator names that is not yet the name of a moment is read as the product of those operators.", "quantifier": "every scenario, every admissible list of party names, every history of moment constructions, every text made of operator names", "why_tests_cant": "String-level injectivity over all names and all orders of construction.", "anchors": ["inflation/InflationProblem.py: _interpretation_to_name, _lexrepr_to_all_names", "inflation/sdp/InflationSDP.py: op_from_name, _monomial_from_atoms, _interpret_name, _interpret_atomic_string", "inflation/sdp/monomial_utils.py: name_from_atom_names", "inflation/lp/monomial_classes.py: _name, _raw_name", "inflation/sdp/monomial_classes.py: dagger"]}
{"id": "C39", "title": "Bounds merge monotonically", "statement": "For semidefinite programmes, after any history known moments carry no bounds; set_bounds fails exactly when the requested bounds contradict each other or a known value, and otherwise the bounds of unknown moments are exactly those requested, with the default 0 for the other Hermitian moments; set_values fails when a value violates a bound. The constraints passed to the solver are the generated ones and exactly these bounds (a bound of at most 1e-8 in absolute value is passed as 0), so feasible points satisfy every requested bound up to 1e-8.", "quantifier": "every history of set_bounds and set_values", "why_tests_cant": "All histories.", "anchors": ["inflation/sdp/InflationSDP.py: set_bounds, _update_bounds, _reset_lowerbounds", "inflation/lp/InflationLP.py: set_bounds"]}
{"id": "C40", "title": "Objective with known moments is rewritten without changing its value", "statement": "After any history the objective used by the solver takes the same value as the objective set by the user on every point consistent with the known values, and mentions no known moment but the normalisation; setting an objective fails exactly when it mentions a semi-known moment.", "quantifier": "every objective, every assignment", "why_tests_cant": "All assignments.", "anchors": ["inflation/sdp/InflationSDP.py: set_objective, _update_objective"]}
{"id": "C41", "title": "Default lower bounds of Hermitian moments", "statement": "The moments that get the default lower bound 0 are exactly those each of whose factors is turned into its own conjugate by a relabelling of source copies and commutations. The bound holds in every state for products equal to their own conjugate, for problems in which all operators commute, and for all such moments when there is one copy of every source.", "quantifier": "every scenario, every history of computations, every moment, every state", "why_tests_cant": "All moments and all quantum states.", "anchors": ["inflation/sdp/monomial_classes.py: is_hermitian", "inflation/sdp/InflationSDP.py: generate_relaxation 372-378, 408"]}
{"id": "C42", "title": "The scenario built from a DAG", "statement": "The constructor accepts exactly the arguments that describe a scenario: a number of outcomes for every node with a parent that is not an intermediate latent, settings and levels of the right number, classical sources among the sources, disjoint sets of latents, no edges from parties or latents to latents, non-classical latents with only sources as parents and a non-classical one among them, and a source in the past of every party. The parties are then those nodes, in the order given or else in alphabetical order; the sources are the other nodes of the dictionary that are no latents, in insertion order, and have no parents; observed parents, parties reached by a source and pairs of parties joined by a quantum path are those of the graph. With positive levels the scenario is well formed, and without a DAG it is that of one source of all parties.", "quantifier": "every dictionary of nodes and children, every list of outcomes, settings, levels, classical sources, latents and every order", "why_tests_cant": "All graphs.", "anchors": ["inflation/InflationProblem.py: __init__ 86-291"]}
{"id": "C43", "title": "Verdicts of linear programmes about distributions are right", "statement": "For every scenario without directed cycles and every inflation level, a linear programme set up from a distribution that some classical causal model of the scenario produces is feasible, and its relaxed versions have optimum at least 0 - so infeasibility, or a negative relaxed optimum, shows that no causal model gives the distribution; the same holds for mixtures of such distributions when shared randomness is allowed. A certificate that the solver's dual variables give is non-negative at the known values of every distribution the scenario can give, so it is a valid inequality. Without a distribution the optimum bounds the objective at every distribution the scenario can give. (With linearised constraints this needs that products of known probabilities that are at most 1e-8 are zero.)", "quantifier": "every acyclic scenario, inflation level, causal model, mixture, objective, setting of the options, and every feasible dual point", "why_tests_cant": "All causal models (any finite source alphabets and response functions) and all inflations.", "anchors": ["inflation/lp/InflationLP.py: generate_relaxation pieces 1302-1353, set_distribution, set_values, set_objective, _prepare_solver_arguments, solve", "inflation/lp/lp_utils.py: solveLP_sparse", "inflation/lp/monomial_classes.py: evaluate"]}
{"id": "C44", "title": "Verdicts of semidefinite programmes about distributions are right", "statement": "For every scenario without directed cycles, every inflation level and every suitable set of generating columns: if a distribution is realised in a way that gives moments with the laws of an inflation (projective measurements, exchangeable copies, independence of products on different copies, original probabilities on copies of the original scenario) and non-negative means for the products to which the code gives the default bound, then these means are a feasible point of the programme set up from the distribution. Every distribution of a classical causal model is of this kind, and so is every distribution of a finite-dimensional quantum model (sources emit classical values and entangled systems, parties measure projectively what they get) when the columns are products of at most one operator, when all operators commute or when there is one copy of every source. So no distribution of this kind is ever reported impossible - neither by an infeasible primal, a dual ray, nor a negative relaxed optimum - and with shared randomness the same holds for mixtures. Without feasibility mode the optimum, and the value of every dual point, bounds the objective; the certificate is non-negative at the known values of every such distribution, and a distribution at which it is negative is impossible.", "quantifier": "every acyclic scenario, inflation level, list of generating columns, realisation, objective, history of set_* calls that only bound, and every point of the primal and dual problems given to the solver", "why_tests_cant": "All realisations and all inflations.", "anchors": ["inflation/sdp/InflationSDP.py: generate_relaxation, Moment_1d, set_distribution, set_values, set_objective, _prepare_solver_arguments, solve", "inflation/sdp/sdp_utils.py: solveSDP_MosekFUSION", "inflation/sdp/monomial_classes.py"]}
{"id": "C45", "title": "Verdicts about supports are right", "statement": "With supports_problem=True, a linear programme set up from a table of which events are possible (zero and non-zero entries) is always built, and is feasible, with relaxed optimum at least 0, whenever some distribution that a classical causal model of the scenario produces has exactly this support (whatever its probabilities and whatever the non-zero numbers in the table); with shared randomness the same holds for mixtures. The same holds for a semidefinite programme (if it is built), also for distributions of quantum models of the scenario when the columns are as C44 asks. So infeasibility or a negative relaxed optimum shows that no causal model has this support. This holds for a first call of set_distribution in which the values that the code takes for zero (at most 1e-8) are zero, in particular for all tables with entries 0 or at least 1; not for smaller probabilities, nor for a second set_distribution on the same object.", "quantifier": "every acyclic scenario, inflation level, table, causal model, quantum model, mixture, list of columns and setting of the options", "why_tests_cant": "All causal models and all supports.", "anchors": ["inflation/lp/InflationLP.py: __init__ 132, _cleanup_after_set_values 1665-1690, set_distribution, _prepare_solver_arguments", "inflation/sdp/InflationSDP.py: __init__ supports_problem, generate_relaxation, set_distribution, set_values, _cleanup_after_set_values 1955-1975, _prepare_solver_arguments, solve", "inflation/lp/lp_utils.py: solveLP_sparse", "inflation/sdp/sdp_utils.py: solveSDP_MosekFUSION"]}
{"id": "C46", "title": "Certificates as the user sees them", "statement": "certificate_as_dict without cleaning is the certificate of the solver (same value for all values of the moments); with cleaning it is the certificate divided by its smallest coefficient, up to the rounding of each coefficient. certificate_as_string is a text that, read as a sum of signed terms, says what the dictionary says. evaluate_certificate of a certificate of a linear programme, at a distribution that the scenario can give (with shared randomness: a mixture of such), or of a semidefinite programme, at a classical or quantum distribution, is never below minus the possible rounding error (at most half a thousandth per moment, plus what the chopping of coefficients below 1e-8 can change), so a value below that shows incompatibility. (Not all negative values do; a semidefinite certificate must not have both a constant term and a coefficient of 1; without cleaning, coefficients within 1e-5 of 1 are printed as 1.)", "quantifier": "every certificate, tolerance, number of decimals, scenario, distribution, causal model and mixture", "why_tests_cant": "All certificates and all distributions.", "anchors": ["inflation/lp/InflationLP.py: certificate_as_dict, string_from_dict, certificate_as_string, evaluate_polynomial, evaluate_certificate", "inflation/sdp/InflationSDP.py: certificate_as_dict, string_from_dict, certificate_as_string", "inflation/lp/monomial_classes.py: compute_marginal", "inflation/lp/lp_utils.py 526-533"]}
{"id": "C47", "title": "Linear programmes given as dictionaries are the ones that are solved", "statement": "solveLP called with dictionaries (objective, known values, semi-known variables, lists of (in)equalities, bounds), with sparse matrices, or with a mixture, hands MOSEK the problem that the arguments state by name: the same points satisfy it, with the same value, the values returned as x are a solution of it by name, points of the dual bound it, and the returned dual certificate is non-negative (up to dropped coefficients below 1e-8) at every point that is possible for some known values. If the variables are not declared they are the names mentioned, sorted. (The objective, the known values and the inequalities must be given, and the equalities if nothing is semi-known; names in bounds do not count as mentioned; with semi-known variables the equalities must be dictionaries.)", "quantifier": "every number of variables, constraints and bounds, all names, coefficients, values and options", "why_tests_cant": "All linear programmes and all their points.", "anchors": ["inflation/lp/lp_utils.py: solveLP, to_sparse, convert_dicts, solveLP_sparse", "inflation/utils.py: partsextractor, vstack"]}
{"id": "C48", "title": "The MATLAB file describes the same programme", "statement": "write_to_file with the extension mat writes a file that MATLAB can use (indices from 1, as many coefficients as moments in each constraint) and that says what the programme says: numbers given to the moments satisfy the programme (matrix, values, multiples, bounds, equalities, inequalities) exactly when the same numbers, given to the indices of the file, satisfy the file, and every solution of the file comes from one of the programme; the objective is the same up to coefficients of at most 1e-8, which are left out; the table of names gives each index the name of its moment. (The zero moment may be used only if it is in the matrix, and One must have the value 1.)", "quantifier": "every programme: matrix, known and semi-known values, bounds, (in)equalities, objective; all points", "why_tests_cant": "All programmes and all their points.", "anchors": ["inflation/sdp/writer_utils.py: write_to_mat 156-247", "inflation/sdp/InflationSDP.py: write_to_file"]}
{"id": "C49", "title": "The human-readable form says what the programme says", "statement": "In the CSV form (convert_to_human_readable), each cell of the matrix on or above the diagonal is a number, a name or a number times a name with the value of the corresponding moment, and the cells below are 0; the text of the objective is its value (up to a constant of at most 1e-8); each equality and inequality is there, in order, and its text is its combination of moments; the table of bounds has each bounded moment once, by name, with its bounds; only a constraint without terms makes the conversion fail. (Known values must not be integers from 2 on, and coefficients within 1e-5 of 1 must be 1.)", "quantifier": "every programme, all names, values and coefficients", "why_tests_cant": "All programmes and all texts.", "anchors": ["inflation/sdp/writer_utils.py: convert_to_human_readable 14-112, write_to_csv 115-153"]}
{"id": "C50", "title": "Factorisation conditions of linear programmes", "statement": "For every generated linear programme the four dictionaries of factorisation conditions exist (no key is missing): their keys are the columns with at least two factors, the parts are the single factors (factorization_conditions), respectively the first factor and the product of the others (quadratic_factorization_conditions), and the sparse forms give their column numbers. A vector satisfies the full conditions exactly when it satisfies the quadratic ones. With the conditions the programme is exact: a vector satisfies the rows of the programme and the conditions exactly when it gives the probabilities of a behaviour of the inflation that is invariant under exchange of copies and in which events that involve different source copies are independent. In particular the probabilities of an inflation of a distribution that the scenario can give satisfy them.", "quantifier": "every scenario with few enough copies, both choices of outcomes, every vector of values", "why_tests_cant": "All scenarios and all values.", "anchors": ["inflation/lp/InflationLP.py: factorization_conditions, quadratic_factorization_conditions, sparse_factorization_conditions, sparse_quadratic_factorization_conditions", "inflation/utils.py: partsextractor"]}
{"id": "C51", "title": "Names of moments in linear programmes", "statement": "In a generated linear programme every atom has a name and a legacy name that determine it. Whatever moments are made, in whatever order, each is found again under its name and under its legacy name, two moments have the same name only when they are the same product of the same factors, and the name of a moment does not depend on what was made before; so no two columns share a name, and the dictionaries of factorisation conditions by name have the same entries in the same order as the dictionaries on moments, none overwritten. For the legacy names no name of a party may be the beginning of another party's name.", "quantifier": "every scenario, every list of party names made of letters, digits and similar characters, every history of moments made from atoms of the programme, every generated programme", "why_tests_cant": "All scenarios, names and histories: two moments with one name only collide for particular names and sets of events.", "anchors": ["inflation/lp/monomial_classes.py: InternalAtomicMonomial, CompoundMoment", "inflation/lp/InflationLP.py: _monomial_from_atoms, Monomial, factorization_conditions_by_name, quadratic_factorization_conditions_by_name"]}
{"id": "C52", "title": "The exported linear programme is the one that is solved", "statement": "Whenever a linear programme can be solved, the first write_to_file exports the same programme: different moments have different names, the exported arguments are well formed, and a valuation of the names that gives the known moments their values is feasible for the exported programme exactly when it satisfies the minimal constraints, the extra constraints set by the user, the semi-known relations and the bounds, with the same objective; the formats that require it add that unknown moments are not negative. Under the conditions of C29 the MPS file, and for programmes without bounds the LP file, describes this programme. Constraints set after the first export are not exported: every later export has the constraints of the first.", "quantifier": "every programme, every history of calls that set values, bounds, objectives and extra constraints, every injective naming of the moments (in particular that of every generated programme)", "why_tests_cant": "All programmes and histories; the loss of constraints needs a second export.", "anchors": ["inflation/lp/InflationLP.py: _prepare_solver_arguments, write_to_file, moment_equalities_by_name, moment_inequalities_by_name, semiknown_by_name, known_vars_by_name, _coo_vec_to_name_dict, _coo_mat_to_dict"]}
{"id": "C53", "title": "reset discards what the user has set", "statement": "In a problem that is not about supports, reset() makes the problem the newly generated one, whatever has been done with it: every later sequence of calls then has the effect it has on a newly generated problem. reset of one part makes exactly that part initial and leaves the others as they are: \"values\" (and with them the extra constraints), \"objective\" (and the direction of the optimisation), \"lowerbounds\", \"upperbounds\" or both as \"bounds\"; another name raises an exception. A reset between other calls keeps known moments free of bounds and never makes a moment both known and semi-known. After reset(\"values\") the objective given to the solver of a semidefinite programme still contains the forgotten values.", "quantifier": "every problem and every history of set_*, update_values, reset and solve calls", "why_tests_cant": "All histories; examples reset only newly generated problems.", "anchors": ["inflation/sdp/InflationSDP.py: reset, _reset_lowerbounds, _reset_upperbounds, _reset_objective, _reset_values", "inflation/lp/InflationLP.py: reset, _reset_bounds, _reset_objective, _reset_values"]}
{"id": "C54", "title": "A stored solution belongs to the current problem", "statement": "Whenever a semidefinite programme has a stored solution, calling the solver now would pass it exactly the problem, with the direction, that this solution was computed for; a linear programme likewise, unless the extra constraints have been changed since. (set_extra_equalities and set_extra_inequalities keep the stored solution, so that a linear programme can report the optimum of a problem it no longer is.)", "quantifier": "every problem and every history of set_*, update_values, reset and solve calls", "why_tests_cant": "All histories of calls between a solve and a look at its results.", "anchors": ["inflation/sdp/InflationSDP.py: solve, reset, _reset_solution, set_values, update_values, set_bounds, set_objective", "inflation/lp/InflationLP.py: solve, reset, _reset_solution, set_extra_equalities, set_extra_inequalities"]}
{"id": "C55", "title": "Values can be given in several calls", "statement": "In a problem that is not about supports, set_values(v0) followed by any number of calls update_values(v1), ..., update_values(vn), without linearised polynomial constraints, leaves the same known values, semi-known values (none), bounds, objective and extra constraints as one set_values of all the values together (later values replacing earlier ones), provided values of single factors are given to moments of the programme. For linear programmes none of these calls can fail. (If a single factor is not a moment of the programme its value is forgotten after the call that gives it, and with linearised polynomial constraints it is false when values are replaced.)", "quantifier": "every problem, state, list of calls and tables of values", "why_tests_cant": "All splittings of all tables of values into calls.", "anchors": ["inflation/sdp/InflationSDP.py: set_values, update_values, _cleanup_after_set_values", "inflation/lp/InflationLP.py: set_values, update_values, _cleanup_after_set_values"]}
{"id": "C56", "title": "Values, bounds and the objective can be set in any order", "statement": "Starting from a newly generated programme (not about supports, with the constant moments among its moments), any two histories that consist of the same call of set_values and of any calls of set_bounds and set_objective around it, and whose last lower bounds, last upper bounds and last objective are the same, leave the same known and semi-known values, lower and upper bounds, objective, processed objective and extra constraints, if all their calls succeed; the bounds left are those requested last, except for known moments. (Whether they succeed does depend on the order: a negative value of a Hermitian moment is accepted only after a lower bound that allows it.)", "quantifier": "every problem, table of values and pair of histories", "why_tests_cant": "All orders of the calls and all repetitions of them.", "anchors": ["inflation/sdp/InflationSDP.py: set_values, set_bounds, set_objective, _cleanup_after_set_values, _update_bounds, _update_objective", "inflation/lp/InflationLP.py: set_values, set_bounds, set_objective, _cleanup_after_set_values"]}
{"id": "C57", "title": "solve reports the optimum of the user's objective in the user's direction", "statement": "In every history of calls of set_values, update_values, set_bounds, set_objective and set_extra_*, if the last objective set is the polynomial p with direction 'max' (or 'min'), and the solver returns the status feasible and the supremum of the objective it was given over any set of points that have the known values, then objective_value is the supremum (infimum) of p over that set; with any other status no value is reported. (Provided no coefficient is smaller than about 1e-8 in absolute value: those are dropped. After reset('values') the claim is false, see C53.)", "quantifier": "every problem, history, objective, direction, and set of points", "why_tests_cant": "All histories before the solve, and all points of the relaxation, not those of one instance.", "anchors": ["inflation/sdp/InflationSDP.py: solve, set_objective, _update_objective, _prepare_solver_arguments", "inflation/lp/InflationLP.py: solve, set_objective"]}
{"id": "C58", "title": "What solve of a linear programme solves", "statement": "Unless feas_as_optim=True is given, solve of a linear programme with an objective (or with no relaxation asked for) gives the solver exactly the user's constraints and objective, whatever relax_known_vars and relax_inequalities are. Otherwise it minimises a slack: a value of at least 0 can be reached exactly if the constraints without the default non-negativity have a solution, and every solution of the constraints gives the value 0, so a negative optimum shows that the problem is infeasible. (A non-negative optimum does not show that it is feasible, because the default non-negativity is dropped; and feas_as_optim=True silently replaces the objective.) For semidefinite programmes, feas_as_optim is ignored whenever the objective passed to the solver mentions a moment without known value; otherwise that objective is a constant.", "quantifier": "every linear programme, reachable state and combination of the arguments", "why_tests_cant": "All programmes, all states and all points of them.", "anchors": ["inflation/lp/InflationLP.py: solve, _prepare_solver_matrices", "inflation/lp/lp_utils.py: solveLP_sparse", "inflation/sdp/InflationSDP.py: solve"]}
{"id": "C59", "title": "The file and the format of an export", "statement": "write_to_file with a name without any dot writes the default format (LP for linear programmes, sparse SDPA for semidefinite ones) to that name with the default extension added. A name ending in a supported extension (.lp, .mps; .dat-s, .csv, .mat) is written under exactly this name in that format. Every other name raises an exception. (So a name without extension in a directory whose name has a dot, such as './bell', raises instead of using the default.)", "quantifier": "every file name", "why_tests_cant": "All texts.", "anchors": ["inflation/lp/InflationLP.py: write_to_file", "inflation/sdp/InflationSDP.py: write_to_file"]}
{"id": "C60", "title": "Reducing the copy indices of a monomial", "statement": "reduce_inflation_indices returns a monomial equivalent to its input: parties, settings and outcomes are kept and the copies of every source are renamed, keeping their order and keeping 'not used' (0). The copies of every source used in the result are 1..k without gaps, no index grows, two operators share a copy of a source exactly if they did before, monomials get the same result exactly if they use the copies of every source in the same pattern (differ by an order-keeping renaming), and reducing again changes nothing. (The result is not a representative for all renamings.)", "quantifier": "every monomial: any number of operators and sources, any copy indices", "why_tests_cant": "All monomials.", "anchors": ["inflation/sdp/quantum_tools.py: reduce_inflation_indices"]}
