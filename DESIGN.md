# A Rocq (Coq 8.16.1) model of fevangelista/wicked

## 1. Approach
* `rocq/theories/*Model.v`: executable (Gallina) transcription of the C++ and Python code, function by function; every
  definition cites the `/repo` file and lines it models and says where it simplifies.  No proofs in these files.
* `*Spec.v`: the independent vocabulary of the theorem statements (what a partition is, what the value of a term is, ...),
  written without the functions of the model that the theorem is about.
* `*Proofs*.v`: lemmas.  `*Props.v`: the property theorems `Cnn_name` only, each closed by `exact`, followed by
  `Print Assumptions` and by `Example Cnn_nonvacuous` (a concrete non-trivial case that meets the hypotheses).
* Where the English claim is false of the code the exact boundary is proved for all inputs, and the failure is a theorem
  `Cnn_..._refuted` with an explicit witness (or, where possible, for every input on the wrong side of the boundary).
* Outcomes: the `res` monad has `Ok`, `Throw` (C++ exception or `exit`), `UB` (out-of-range access, division by zero, signed
  overflow in the 64-bit model) and `NoFuel` (a loop of the model cut short; the theorems show a bound for which it does not occur).
* Nondeterminism is modelled by relations and quantified over: the order `std::sort` gives to ties, thread schedules,
  histories of calls on a `WickTheorem` object and on the orbital-space registry.
* Meaning of expressions: elements of an arbitrary associative algebra over an arbitrary field of characteristic 0
  (mathcomp `algType`), arbitrary tensor values with the declared symmetry, arbitrary finite lists of orbitals: all of them
  are universally quantified in the theorems (C22, C23, C26, C33, C35, C48, C61) and shown satisfiable (`C48_fock_space`, `C61_fock_space`).

## 2. Trusted base
* The Coq 8.16.1 kernel (and `vm_compute`/`native` conversion as used by `vm_compute` in examples).
* `Print Assumptions` says **"Closed under the global context"** for every property theorem: no axiom of the standard library
  is used, none is added, and no `Admitted`, `admit`, `Parameter` or section-less `Variable` occurs.  A checker that lists
  opaque module fields will show mathcomp's sealed definitions (`BigOp.bigop`, `Finite.EnumDef.enum`, `CardDef.card`,
  `FinfunDef.finfun`, `perm`, quotient and ssr `under` tags).  These are definitions sealed by module types inside
  mathcomp/Coq's ssreflect library, not axioms.
* Libraries: the Coq standard library and mathcomp (ssreflect, algebra).  No functor, module type, plugin or unsafe flag of our
  own.
* The faithfulness of the transcription, which is by hand.  It was checked by reading, by evaluating the models on examples
  from the repository's tests, and by the mutation log (`seeded/LOG.jsonl`).

## 3. What is modelled
| /repo file | modelled | model file |
|---|---|---|
| helpers/rational.{h,cc} | all arithmetic, comparison, reduce, str, make_rational_from_str, to_double, compile, repr; once over unbounded integers and once with checked 64-bit arithmetic | RationalModel, Rational64Model, TextModel, DecimalModel |
| helpers/combinatorics.cc | factorial, binomial, permutation_sign, integer_partitions | CombinatoricsModel, PartitionsModel |
| helpers/orbital_space.{h,cc} | all: add_space (C++ and Python), reset, lookups, label_to_space, op_symbol, index_label, str, to_dict | RegistryModel, TextModel, ExprTextModel, RegTextModel, PyEinsumModel |
| helpers/algebra.hpp, helpers.h (add_to_map), product.hpp | the vector space and product operations, dot, equality, norm (with rounding) | AlgebraModel, NormModel |
| helpers/helpers.cc | join, split, split_indices, findall, stoi | TextModel, ExprTextModel |
| algebra/index, sqoperator, tensor, term, symbolic_term | comparison, canonicalize, adjoint, reindex, products, remap, strings, LaTeX | CoreModel, SortModel, CanonModel, AdjointModel, RemapModel, TextModel, ExprTextModel, LatexModel |
| algebra/expression.cc | sums, products, adjoint, canonicalize, reindex, make_operator_expr, str, make_expression, to_manybody_equation | AlgebraModel, AdjointModel, CanonModel, EquationModel, ExprTextModel |
| algebra/{expression,symbolic_term}_normal_order.cc | all | NormalOrderModel |
| algebra/equation.cc | comparison, rhs_expression, str, latex, compile("einsum"), compile("ambit") | EquationModel, EqTextModel |
| diagrams/graph_matrix, operator, operator_product, operator_expression, contraction | all but the unused signature functions | OperatorModel, CoreModel, WickSearchModel, OpTextModel |
| diagrams/wick_theorem*.cc | contract on products and expressions, elementary and composite contractions, graph canonicalization, evaluation, combinatorial factor, threads, timers, object state, printed output (single-threaded) | NextPermModel, WickSearchModel, WickEvalModel, WickThreadModel, TraceModel |
| utils.py | string_to_expr | ExprTextModel |
| utils.py | gen_op | GenOpModel |
| utils.py | compile_einsum (and OrbitalSpaceInfo::to_dict) | PyEinsumModel |

### Simplifications (also stated at each definition)
* C++ `int` and `size_t` are `Z`/`nat` without overflow, except in Rational64Model and the 64-bit factorial/binomial of C07 and in
  the parsers, where `stoi` overflow is an exception.  `boost::multiprecision::int1024_t` is `Z` (numbers below 2^1024).
* `std::map` is a strictly sorted association list under the key's `operator<`; `std::set`/`std::sort` on a total order are
  the unique sorted list; with ties, every sorted rearrangement is a possible result.
* The global `orbital_subspaces` is an explicit argument; a space number outside the registry is UB.
* Loops without a structural bound take fuel; the theorems show a bound that suffices, or quantify over every outcome.
* `std::regex` is a backtracking matcher with the priorities of ECMAScript for the fragment used (classes, `*`, `+`, `?`,
  groups, sequences); characters are 8-bit ASCII in the "C" locale.
* Threads: one step is a read or a write of a shared location, sequentially consistent; the data race on the timers (undefined
  behaviour in C++) is shown reachable, so C45's equality is about the result under this semantics.

## 4. What is not modelled
* Floating point: the limits of the exponent of `double` (C65 and C68 model 53-bit significands with any exponent).
* pybind11 glue (argument conversion, docstrings), iostream buffering and the interleaving of `PRINT` output in multi-threaded mode, wall-clock content of timers (durations are
  arbitrary numbers in C46), memory exhaustion, numbers beyond 1024 bits.

## 5. Properties
For each: what is modelled and how it is proved.  Exact statements are in the files named; status and theorem lists are in `MANIFEST.json`.

| id | model / spec | theorems and method |
|---|---|---|
| C01 rational(n,d) is exact and in canonical form | RationalModel / RationalSpec | value in Q, gcd lemmas; denominator 0 characterised. `C01_make_exact_canonical`, `C01_make_zero_denominator` |
| C02 rational +, -, *, unary minus are exact and == is equality of values | RationalModel / RationalSpec | exactness of each operation; induction over arithmetic expressions for ==. `C02_arith_exact`, `C02_expr_eq_iff_value` |
| C03 rational division is exact | RationalModel | exactness of /=; induction over expressions. `C03_div_exact`, `C03_expr_exact` |
| C04 quotients compare equal to the same number written differently | RationalModel | the natural claim is false for negative divisors: exact boundary (`C04_div_eq_pos`) and refutations, one of them for every negative divisor. `C04_div_eq_refuted`, `C04_div_eq_pos`, `C04_div_self_refuted` |
| C05 the long long build of rational never silently returns a wrong number without overflowing | Rational64Model | refinement: a checked operation returns Ok only with the unbounded result; overflow characterised. `C05_checked_sound`, `C05_small_operands_exact`, `C05_add_overflow_iff`, `C05_overflow_iff` |
| C06 printing a rational and parsing it back gives the same number | TextModel, DecModel / TextSpec | regex matcher lemmas; grammar given as an inductive relation; accepted strings characterised both ways. `C06_roundtrip`, `C06_accepts`, `C06_rejects`, `C06_injective` |
| C07 factorial and binomial are the mathematical functions | CombinatoricsModel | induction; Pascal rule; every intermediate division exact; 64-bit limits. `C07_factorial`, `C07_binomial`, `C07_binomial_division_exact`, `C07_factorial64`, `C07_binomial64` |
| C08 permutation_sign is the sign of a permutation | CombinatoricsModel | inversion counting; equal to mathcomp's `perm` parity (SignPermProps). `C08_sign_alternating`, `C08_sign_unique`, `C08_sign_is_parity`, `C08_sign_multiplicative` |
| C09 integer_partitions enumerates every partition exactly once | PartitionsModel / PartitionsSpec | simulation of ZS2 by the lexicographic successor; completeness and no repetition. `C09_partitions_exact`, `C09_partitions_negative` |
| C10 the orbital-space registry is consistent after any sequence of successful calls | RegistryModel | invariant over every history of calls. `C10_registry_consistent` |
| C11 a rejected add_space leaves the registry usable | RegistryModel | true for duplicate labels; refuted for the other rejections. `C11_duplicate_label_safe`, `C11_rejected_call_refuted`, `C11_label_alias_refuted` |
| C12 sums of terms: one entry per term, coefficient is the exact sum, no zero entries | AlgebraModel / AlgebraSpec | coefficient function is a homomorphism; invariant over programs. `C12_expression_sum`, `C12_opexpr_sum`, `C12_expression_programs`, `C12_opexpr_programs` |
| C13 equal sums compare equal whatever the order in which they were built | AlgebraModel | canonical representation of sorted maps. `C13_expression_equality`, `C13_opexpr_equality`, `C13_wf_equality` |
| C14 multiplying by zero gives the empty expression | AlgebraModel | exact for nonzero scalars; refuted for zero. `C14_scale_nonzero`, `C14_scale_zero_refuted`, `C14_division` |
| C15 dot is a symmetric bilinear form and dot(e,e)=0 only for the empty expression | AlgebraModel | bilinearity over Q, positivity. `C15_dot_value`, `C15_dot_linear`, `C15_dot_positive` |
| C16 the product of sums is bilinear and associative | AlgebraModel | coefficient of a product as a sum over factorizations; associativity from it. `C16_product_coefficient`, `C16_opexpr_product_coefficient`, `C16_distributes_left`, `C16_distributes_right`, `C16_associative`, `C16_opexpr_associative`, `C16_product_throws` |
| C17 terms with different meaning are different keys | CoreModel, AlgebraModel | equality characterised; flags merged: refuted. `C17_term_equality`, `C17_flags_merged_refuted` |
| C18 the comparison operators used as map and sort keys are strict weak orderings compatible with == | CoreModel / OrderProofs | lexicographic strict weak orders, by type. `C18_index`, `C18_sqop`, `C18_tensor`, `C18_term`, `C18_graph_matrix`, `C18_operator`, `C18_operator_product` |
| C19 canonicalize_indices sorts and returns the sign of the sorting permutation | SortModel / SortSpec | insertion sort with sign; parity by adjacent exchanges. `C19_canonicalize_indices`, `C19_sign_is_parity`, `C19_sort_deterministic` |
| C20 Tensor canonicalization preserves the tensor element | SortModel / SortSpec | alternating functions; every valuation. `C20_tensor_element`, `C20_tensor_form`, `C20_nonsymmetric_throws` |
| C21 vacuum_normal_ordered terminates and its result is normal ordered | NormalOrderModel | measure (length, inversions); throw condition; result terms characterised. `C21_terminates_normal_ordered`, `C21_throws_iff`, `C21_normal_ordered_meaning`, `C21_result_terms` |
| C22 vacuum normal ordering does not change the operator | NormalOrderModel / LadderSpec | rewriting preserved in every CCR/CAR algebra. `C22_operator_preserved`, `C22_term_preserved` |
| C23 only_same_index_contractions is exact when distinct indices mean distinct orbitals | NormalOrderModel / LadderSpec | same with injective assignments. `C23_same_index_only` |
| C24 normal ordering a normal-ordered expression changes nothing | NormalOrderModel | fixed points of the recursion. `C24_idempotent`, `C24_fixed_points` |
| C25 adjoint is an involution, reverses products, and is additive | AdjointModel, OperatorModel | involutions; anti-automorphism in *-algebras; product law refuted for `Expression` (kept as tensors order). `C25_term_involution`, `C25_expression_involution`, `C25_expression_coefficients`, `C25_expression_additive`, `C25_term_product`, `C25_expression_product_refuted`, `C25_operator_involution`, `C25_oprod_reverses`, `C25_opexpr_involution`, `C25_opexpr_product`, `C25_opexpr_additive`, `C25_expression_meaning`, `C25_term_meaning` |
| C26 canonicalize does not change the value of an expression | CanonModel / CanonSemSpec | bijective renaming of sums over indices, alternating tensors and operator words; every field and tensor values. `C26_term_value`, `C26_any_summation_order`, `C26_expression_value`, `C26_anticommuting_product` |
| C27 canonicalize is safe for every term a user can write | CanonModel / CanonSpec | characterisation of the renaming; collision witness. `C27_canonicalize_renames`, `C27_canonicalize_total`, `C27_no_collision_refuted` |
| C28 canonicalize relabels injectively and space by space | CanonModel / CanonSpec | injectivity of the renaming. `C28_injective`, `C28_labels` |
| C29 canonical form: order, determinism, idempotence | CanonModel / CanonSpec | order of the result; determinism; refutations of idempotence and uniqueness. `C29_canonical_order`, `C29_idempotent_refuted`, `C29_idempotent_if_sorted`, `C29_idempotent_single`, `C29_unique_form_refuted`, `C29_deterministic` |
| C30 operator_expr builds the operator it is asked for | AdjointModel / OperatorExprSpec | component by component; coefficient dropped: proved and refuted. `C30_component_term`, `C30_coefficient_ignored`, `C30_coefficient_refuted` |
| C31 reindexing an expression renames its indices | AdjointModel | reindex is the identity on expressions (refutation), correct on terms. `C31_reindex_identity`, `C31_reindex_refuted`, `C31_term_reindex` |
| C32 graph-matrix counts: addition, subtraction and adjoint | OperatorModel | counts by space, fixed array of 8; UB beyond. `C32_add_sub`, `C32_add_counts`, `C32_num_ops_additive`, `C32_adjoint`, `C32_make`, `C32_nine_spaces` |
| C33 OperatorProduct canonicalization only exchanges commuting operators and gets the sign right | OperatorModel / OperatorSemSpec | bubble-sort invariant; graded commutation in every algebra; boson sign refuted. `C33_commute_meaning`, `C33_exchanges`, `C33_product_meaning`, `C33_expression_meaning`, `C33_fermions_commute`, `C33_boson_sign_refuted` |
| C34 equal operator products have equal canonical forms | OperatorModel | proved when all commute; refuted in general. `C34_commuting_products`, `C34_confluence_refuted` |
| C35 commutator and bch_series are the algebraic commutator and BCH expansion | OperatorModel / OperatorSemSpec | value in every algebra; iterated commutators; exact BCH for nilpotent action. `C35_commutator`, `C35_commutator_args`, `C35_bch_series`, `C35_bch_order`, `C35_bch_exact` |
| C36 op(label, components, unique) builds the requested sum | OperatorModel / OperatorSpec | counting components; throw condition. `C36_component`, `C36_sum`, `C36_sum_unique`, `C36_throws` |
| C37 next_permutation based enumerations visit every rearrangement once | NextPermModel | std::next_permutation is the lexicographic successor; enumeration without repetition. `C37_next_is_successor`, `C37_enumeration_exact` |
| C38 elementary contractions are exactly the allowed ones | WickSearchModel / WickSearchSpec | elementary contractions = inductive relation `allowed`, each once. `C38_elementary_exact` |
| C39 every compatible set of contractions is generated exactly once | WickSearchModel / WickSearchSpec | backtracking search = all compatible multisets in the rank range, each once. `C39_search_exact` |
| C40 the fixed-size search buffer | WickSearchModel | UB iff some compatible multiset exceeds the buffer; 201-leg bound and a 202-leg witness. `C40_overflow_iff`, `C40_safe_up_to_201`, `C40_overflow_refuted` |
| C41 the combinatorial weight of a contraction counts the ways to realize it | WickEvalModel / CountSpec, WickCombSpec | counting leg choices; exact iff multiplicities <= 2; general ratio; refutation. `C41_weight_counts_ways`, `C41_weight_general`, `C41_ways_well_defined`, `C41_multiplicity_refuted` |
| C42 graph canonicalization is a symmetry of the contraction | WickEvalModel / WickGraphSpec | rearrangement, fermionic sign, optimality, invariance. `C42_symmetry`, `C42_defined`, `C42_comparison`, `C42_canonical` |
| C43 graph canonicalization has a well-defined sign | WickEvalModel / WickGraphSpec | independence of ties; refuted for repeated odd operators. `C43_sign_unique`, `C43_equal_odd_operators_refuted` |
| C44 evaluating a generated contraction never aborts and uses each operator leg once | WickEvalModel / WickLegSpec | offset invariant; every leg used exactly once. `C44_evaluation`, `C44_generated`, `C44_canonicalization_allowed`, `C44_each_leg_once` |
| C45 multi-threaded and single-threaded contraction give the same expression | WickThreadModel / WickThreadSpec | small-step interleavings; commutation of map merges; termination measure. `C45_every_schedule`, `C45_same_results`, `C45_no_deadlock`, `C45_terminates`, `C45_completes` |
| C46 timers: exact when single-threaded, bounded under threads, updates can be lost | WickThreadModel | read/write steps on the timers; bounds; lost update and data race witnesses. `C46_single_threaded`, `C46_bounds`, `C46_exact_if_atomic`, `C46_lost_update_refuted`, `C46_data_race_refuted` |
| C47 contract is linear and independent of earlier calls | WickEvalModel, WickThreadModel / WickLinearSpec | possible-results relation; linearity; histories of one object. `C47_factor`, `C47_sum`, `C47_coefficients`, `C47_additive`, `C47_history`, `C47_same_options`, `C47_options_kept` |
| C48 Wick's theorem: contract returns the operator product | WickEvalModel / WickProductSpec, WickTheoremSpec | Wick's theorem in every algebra with the anticommutation relations: pair contractions, leg counting (C41), evaluation (C44), canonicalization (C26, C42) composed; Fock space as model of the hypotheses. `C48_product`, `C48_ranks`, `C48_expectation_value`, `C48_expression`, `C48_fock_space` |
| C49 many-body equations lose nothing | EquationModel / EquationSpec | distribution of terms over keys; refutations for operator order and the separator. `C49_manybody`, `C49_key`, `C49_determines`, `C49_rhs_expression`, `C49_order_lost_refuted`, `C49_separator_refuted` |
| C50 einsum letters identify indices | EquationModel / EquationSpec | letters are injective up to 52 indices; UB beyond. `C50_letters`, `C50_limit` |
| C51 index strings round-trip | TextModel / TextSpec | round trip and exact grammar. `C51_roundtrip`, `C51_accepts`, `C51_rejects` |
| C52 tensor strings round-trip | TextModel / TextSpec | round trip. `C52_roundtrip` |
| C53 remap avoids index clashes | RemapModel | fresh names; clash inside B refuted. `C53_remap_avoids`, `C53_remap_injective`, `C53_remap_defined`, `C53_clash_refuted` |
| C54 LaTeX index names identify indices | TextModel / TextSpec | injectivity of names; clash refuted. `C54_injective`, `C54_defined`, `C54_clash_refuted` |
| C55 the numerical factor of an operator | OperatorModel | exact product of factorials. `C55_factor` |
| C56 contract returns an expression | WickEvalModel | totality of every step; leg bounds. `C56_outcome`, `C56_returns` |
| C57 str of an expression can be parsed back | ExprTextModel / ExprTextSpec | four regular expressions scanned over the printed text; round trip, and misreading of every glued coefficient. `C57_roundtrip`, `C57_equal`, `C57_term`, `C57_glued_misread`, `C57_glued_refuted`, `C57_garbage_refuted`, `C57_flag_refuted` |
| C58 gen_op spans exactly the requested components | GenOpModel / GenOpSpec | sorted label tuples are a bijection with leg counts; exact coefficient of every operator product. `C58_gen_op`, `C58_unknown_label`, `C58_diagonal_refuted` |
| C59 the compiled einsum statement computes the equation | EquationModel / EinsumSpec (numpy.einsum: parsing, acceptance, value) | letters are an injective function of the indices (C50), so both sums run over the same assignments. `C59_einsum_value`, `C59_compiles`, `C59_accepted_refuted` |
| C60 compile_einsum (Python) | PyEinsumModel / PyEinsumSpec, EinsumSpec | invariant relating consumed names, the dictionary and the indices seen so far; exact success condition; value as in C59. `C60_nonscalar_refuted`, `C60_scalar`, `C60_value`, `C60_long_names_refuted` |
| C61 contract with general spaces is the generalized (multireference) Wick theorem | WickEvalModel / WickGeneralSpec, WickStateSpec | words of operators, cumulants and moments as a convolution algebra (signed shuffle coproduct); generalized normal ordering by inversion; expansion of a product into connected groups of legs, matched with the search (C40), the weights (C41) and the evaluation (C44); logarithm of a state for the existence of cumulants; Fock space with any density matrix in the active space. `C61_product`, `C61_ranks`, `C61_expectation_value`, `C61_expression`, `C61_normal_product`, `C61_determinant`, `C61_states`, `C61_one_active_space`, `C61_active_space`, `C61_few_legs`, `C61_fock_space` |
| C62 LaTeX output means the expression and shows all but the listed details | LatexModel / LatexSpec (a grammar of the output) | the output parses to the expression; self-delimiting tokens (matching braces) make the grammar unambiguous; refuted: Greek numbers, underscores, bosons, bare signs, missing plus. `C62_meaning`, `C62_term_meaning`, `C62_term_unambiguous`, `C62_unambiguous`, `C62_faithful`, `C62_equal`, `C62_defined`, `C62_throws`, `C62_greek_refuted`, `C62_underscore_refuted`, `C62_boson_refuted`, `C62_unit_refuted`, `C62_plus_refuted`, `C62_names_refuted` |
| C63 The terms returned by contract are contractions of the product, and everything downstream accepts them | WickEvalModel, CanonModel, EquationModel, LatexModel, ExprTextModel / ContractShapeSpec, EinsumSpec | invariant over the loops of contraction_tensors_sqops (each leg's index is in exactly one tensor slot and one operator or density-matrix slot); renaming by canonicalize is injective (C28); then C50, C54, C57, C59, C62 are applied to the results. `C63_einsum`, `C63_shape`, `C63_shape_expression`, `C63_well_formed`, `C63_latex`, `C63_print_parse`, `C63_manybody` |
| C64 Equation::str identifies the equation, and compile("ambit") writes the statement with the equation's value | EqTextModel / EqTextSpec, AmbitSpec | cutting the texts at '=', blanks and brackets; C57 for the terms; renaming of the summation variables as in C59. `C64_str`, `C64_str_defined`, `C64_ambit_throws`, `C64_ambit`, `C64_ambit_unambiguous`, `C64_ambit_names`, `C64_ambit_value`, `C64_contract`, `C64_formats`, `C64_ambit_positions_refuted`, `C64_ambit_empty_refuted`, `C64_symmetry_refuted` |
| C65 The decimal coefficient of a compiled statement is the rounded coefficient | DecimalModel (IEEE rounding to 53 bits, ties to even; `%.kf`) / DecimalSpec | rounding on a grid is monotone and nearest; error analysis over Q; digits of n mod 10^k; a nearest point of a larger number is not smaller, so both roundings keep the order; ties to even are symmetric. `C65_to_double`, `C65_to_double_error`, `C65_einsum_error`, `C65_ambit_error`, `C65_einsum_exact`, `C65_ambit_exact`, `C65_einsum_vanishes`, `C65_ambit_vanishes`, `C65_unambiguous`, `C65_einsum_order`, `C65_ambit_order`, `C65_einsum_negation`, `C65_ambit_negation`, `C65_contract_ambit`, `C65_zero_refuted`, `C65_distinct_refuted`, `C65_to_double_refuted`, `C65_order_refuted` |
| C66 The printed form of operators and operator sums identifies them, and op() reads it back | OpTextModel / OpTextSpec | the text is cut at the braces; the component is read back by C36's tokens, so equal texts have equal operators. `C66_operator`, `C66_sum`, `C66_reread`, `C66_sum_defined`, `C66_repr`, `C66_repr_reads`, `C66_negative_refuted`, `C66_label_refuted` |
| C67 Registry: names of types, printed form, dictionary and replay | RegTextModel, RegistryModel, PyEinsumModel / RegTextSpec | tables searched; text cut at the fixed words and the bracket; induction over histories for the replay. `C67_add_space`, `C67_add_space_other`, `C67_str`, `C67_dict`, `C67_replay`, `C67_content`, `C67_elementary_refuted`, `C67_names_refuted` |
| C68 norm is the square root of dot with itself up to rounding | NormModel (sum of rounded squares, correctly rounded square root by Z.sqrt, 53-bit significands as in DecimalModel), NormSpec (sum of squares, nearest_sqrt: compared with every other 53-bit number through the square of the midpoint) | relative error of each step by induction on the terms ((1+2^-51)^(n+3), Bernoulli); the root is bracketed by half-units through Z.sqrt_spec; exactness of integer sums below 2^53; order dependence refuted by a nine-term expression and its adjoint. `C68_error`, `C68_zero`, `C68_integers`, `C68_integer_root`, `C68_negate`, `C68_adjoint_refuted` |
| C69 In-place operations whose argument is the object itself | AliasModel (range-for over a std::map changed by its body: an iterator is the key of its node, advancing one whose node is gone is UB), wf/coef of AlgebraSpec | induction over the part of the map not yet visited; which coefficients are erased decides between the scaled map and UB. `C69_add2`, `C69_add2_refuted`, `C69_plus`, `C69_plus_operators`, `C69_minus_refuted`, `C69_times`, `C69_times_operators`, `C69_rational` |
| C70 Results of contract when an elementary contraction is repeated three times or more | WickMultSpec.v: repetition weight of a selection of contractions; otherwise the model and the semantics of C41 and C48. | The weight computed by the code is the number of ways times the repetition weight (C41), hence the sum over the classes of C48 is scaled; a triple contraction is computed in a three-orbital case (8 instead of 4). With general spaces the same factor appears in the block sum of C61.. `C70_repeated`, `C70_expectation_value`, `C70_general`, `C70_general_expectation_value`, `C70_no_triple`, `C70_triple_refuted` |
| C71 What contract prints | TraceModel: every function of steps 1-3 with the list of (level, text) events it emits; TraceSpec: the transcript as a closed text built from the legs, picks and effects of the evaluation (WickLegSpec) | erasing the events gives the untraced model (TraceProofs, TraceProofs2); every text is computed without failure and equals its specification (TraceProofs3-7), using the exactness of the search (C38, C39), of the evaluation (C44) and the shape of the results (C63). `C71_result`, `C71_none`, `C71_levels`, `C71_basic`, `C71_summary`, `C71_term_refuted`, `C71_numbering_refuted` |
| C72 Python object semantics of expressions: copies, aliases and iterators | PyModel: heap of expression objects (maps with node identities), term objects and iterators, variables as references, one function executing a statement; PySpec: value semantics of the same statements, which object a statement changes in place, stale names, entries delivered by an iterator | invariant over all histories (PyProofs, PyProofs2), frame lemma, simulation of the heap by the value semantics for careful histories (PyProofs3-5), induction over the history for iterators (PyProofs6-7); the failures are general theorems about the offending programs (PyProofs8). `C72_sorted`, `C72_frame`, `C72_new_object`, `C72_iadd_expression`, `C72_value_semantics`, `C72_undefined`, `C72_iteration`, `C72_iteration_growing`, `C72_alias_refuted`, `C72_canonicalize_refuted`, `C72_canonicalize_in_loop_refuted`, `C72_coefficient_refuted`, `C72_endless_refuted` |
| C73 Running the generated numpy program gives the product of the operators | PipeSpec.v: statement syntax, memory and execution of statements (EinsumSpec.v for einsum itself), the operator an array stands for; the model functions contract, to_manybody, compile_einsum, einsum_factor | composition of C48/C61 (value of a result), C63 (shape), C49 (grouping), C50/C63 (einsum), C65 (decimals); a term's value as a sum over the elements of the array of its open indices; reading of statements shown unambiguous. `C73_runs`, `C73_deterministic`, `C73_program`, `C73_product`, `C73_general_product`, `C73_expectation_value`, `C73_general_expectation_value`, `C73_rounding`, `C73_reader`, `C73_names`, `C73_names_refuted` |
| C74 Contracting commutators and BCH series gives the similarity-transformed operator (coupled cluster) | BchWickSpec.v: operators of an expression, leg bounds, excitations, cluster operators, iterated commutators, the series and the exponential in an arbitrary algebra; model functions commutator_args, bch_series, contract_expr, compile_einsum | bch_series/commutator denote the algebraic series (C35) for operators valued in the algebra; their products are made of the given operators with bounded rank, so C48/C61 apply; cluster operators: even words of excitations commute, a letter is killed by two commutators, a word of n letters by n+1 (Leibniz), hence termination and exactness; composition with C73 for programs. `C74_commutators`, `C74_bch`, `C74_general_bch`, `C74_correlated_energy`, `C74_pairs`, `C74_nilpotent`, `C74_exact`, `C74_similarity_transform`, `C74_energy`, `C74_program`, `C74_returns` |
| C75 The generated ambit statements compute the operator product | AmbitPipeSpec.v: execution of ambit statements on memories of blocks (readings of the text: EqTextSpec.v, value of a statement: AmbitSpec.v), generated statements of an expression, dimensions, reading of 6-decimal numbers; model functions contract_expr, to_manybody, compile_ambit, ambit_factor | each statement of a contraction reads uniquely (C64), is executable (C63: shapes of the terms) and its value is the sum over the summed indices (C64_ambit_value), the values of the left indices being those of the position; then as C73: sums over keys, exact decimals (C65), Wick's theorem (C48, C61). `C75_runs`, `C75_deterministic`, `C75_program`, `C75_product`, `C75_general_product`, `C75_expectation_value`, `C75_general_expectation_value`, `C75_rounding`, `C75_reader`, `C75_agreement` |
| C76 Contracting rank by rank is contracting at once | RankSplitSpec.v: number of operators of a term, part of a sum with given numbers of operators; model functions contract, contract_expr (WickEvalModel), mplus (AlgebraModel) | lock-step induction on backtrack: the narrow search's list is a sublist of the wide one, hence (C39: membership, no repetition) the filter of it by the number of operators left over; the term of a composite contraction has exactly that many operators (C63 with equal bounds); filtering commutes with add_to_map on sorted maps because equal keys have equally many operators; merging outcome lists; a sorted map is the sum of two complementary parts. `C76_part`, `C76_part_expression`, `C76_extends`, `C76_extends_expression`, `C76_split`, `C76_split_expression`, `C76_all`, `C76_all_expression` |
| C77 Contracting the adjoint gives the adjoint | AdjWickSpec.v: adjoint of an algebra of operators, Hermitian tensors, adjoint of a word; model functions op_adjoint, oprod_adjoint, opexpr_adjoint, expr_adjoint (OperatorModel, AdjointModel), contract, contract_expr (WickEvalModel) | the adjoint reverses the defining recursion of both normal orderings (the density cumulants of Hermitian densities are conjugated by exchanging creation and annihilation operators), hence maps the value of an operator to that of its adjoint (exchanging legs, antisymmetry) and a product to the product of the adjoints; with C48 and C61 for both products the values of the two results agree under every linear function. `C77_normal_product`, `C77_operator_product`, `C77_product`, `C77_expression_adjoint`, `C77_ranks`, `C77_expression`, `C77_expectation_value`, `C77_self_adjoint`, `C77_general_normal_product`, `C77_general_product`, `C77_general_expression_adjoint`, `C77_general_ranks`, `C77_general_expression`, `C77_general_expectation_value`, `C77_general_self_adjoint`, `C77_general_operator_product`, `C77_fock_space` |
| C78 The numbering and the naming of the orbital spaces do not matter | RenumSpec.v: renumbering of a registry, same operator, product and sum in another numbering, representation and tensors read with the other numbers; model functions make_op_expr, component_op (OperatorModel), mplus, mminus, mscale, mprod, op_commutator, bch_series, contract, contract_expr (WickEvalModel) | the relations of the operators and the cumulants only use the types of the spaces, so both normal orderings transfer; the value of an operator is unchanged by the order of its legs (alternating normal product, antisymmetric tensor; the two leg lists are related by a permutation that acts with the same sign on both), hence product values agree; C48 and C61 for both registries give the results; op counts letters, which determines the operator; a sum of the other registry is, up to order, the image under an injective renaming of keys, and insertion, hence every algebra step, commutes with it. `C78_operators`, `C78_operator_sums`, `C78_algebra`, `C78_representation`, `C78_normal_product`, `C78_general_normal_product`, `C78_operator_product`, `C78_product`, `C78_ranks`, `C78_expression`, `C78_expectation_value`, `C78_general_operator_product`, `C78_general_product`, `C78_general_ranks`, `C78_general_expression`, `C78_general_expectation_value` |
| C79 Python objects of the OperatorExpression API: what changes in place and what does not | PyOpModel.v: heap of OperatorExpression objects, names, statements (exec_op), histories; the operations are those of OperatorModel, AlgebraModel, AliasModel and OpTextModel | value semantics defined separately (PyOpSpec); simulation by induction on the history for the names that are not stale; add2 on itself equals the value sum by comparing coefficients of well-formed maps; invariant: identities in use, all maps well formed. `C79_well_formed`, `C79_frame`, `C79_new_object`, `C79_exception`, `C79_value_semantics`, `C79_undefined`, `C79_defined`, `C79_valid`, `C79_alias_refuted`, `C79_alias_shared_refuted`, `C79_self_cancel_refuted` |
| C80 Canonicalizing an operator sum before contracting it does not change the result | opexpr_canonicalize (OperatorModel), contract_expr (WickEvalModel), values of operators and results in an algebra with ladder relations (WickProductSpec) | op_value is a combination of words with the counts of the operator (legs counted through product_legs), so C33's graded commutation applies; the canonicalized products are rearrangements and keep operators and legs; then C48/C74's contraction of sums on both. `C80_exchanges`, `C80_value`, `C80_contract`, `C80_same_form`, `C80_returns`, `C80_general_exchanges`, `C80_general_value`, `C80_general_contract`, `C80_general_same_form` |
