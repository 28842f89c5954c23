ROWS = {
"C01":("RationalModel / RationalSpec","value in Q, gcd lemmas; denominator 0 characterised"),
"C02":("RationalModel / RationalSpec","exactness of each operation; induction over arithmetic expressions for =="),
"C03":("RationalModel","exactness of /=; induction over expressions"),
"C04":("RationalModel","the natural claim is false for negative divisors: exact boundary (`C04_div_eq_pos`) and refutations, one of them for every negative divisor"),
"C05":("Rational64Model","refinement: a checked operation returns Ok only with the unbounded result; overflow characterised"),
"C06":("TextModel, DecModel / TextSpec","regex matcher lemmas; grammar given as an inductive relation; accepted strings characterised both ways"),
"C07":("CombinatoricsModel","induction; Pascal rule; every intermediate division exact; 64-bit limits"),
"C08":("CombinatoricsModel","inversion counting; equal to mathcomp's `perm` parity (SignPermProps)"),
"C09":("PartitionsModel / PartitionsSpec","simulation of ZS2 by the lexicographic successor; completeness and no repetition"),
"C10":("RegistryModel","invariant over every history of calls"),
"C11":("RegistryModel","true for duplicate labels; refuted for the other rejections"),
"C12":("AlgebraModel / AlgebraSpec","coefficient function is a homomorphism; invariant over programs"),
"C13":("AlgebraModel","canonical representation of sorted maps"),
"C14":("AlgebraModel","exact for nonzero scalars; refuted for zero"),
"C15":("AlgebraModel","bilinearity over Q, positivity"),
"C16":("AlgebraModel","coefficient of a product as a sum over factorizations; associativity from it"),
"C17":("CoreModel, AlgebraModel","equality characterised; flags merged: refuted"),
"C18":("CoreModel / OrderProofs","lexicographic strict weak orders, by type"),
"C19":("SortModel / SortSpec","insertion sort with sign; parity by adjacent exchanges"),
"C20":("SortModel / SortSpec","alternating functions; every valuation"),
"C21":("NormalOrderModel","measure (length, inversions); throw condition; result terms characterised"),
"C22":("NormalOrderModel / LadderSpec","rewriting preserved in every CCR/CAR algebra"),
"C23":("NormalOrderModel / LadderSpec","same with injective assignments"),
"C24":("NormalOrderModel","fixed points of the recursion"),
"C25":("AdjointModel, OperatorModel","involutions; anti-automorphism in *-algebras; product law refuted for `Expression` (kept as tensors order)"),
"C26":("CanonModel / CanonSemSpec","bijective renaming of sums over indices, alternating tensors and operator words; every field and tensor values"),
"C27":("CanonModel / CanonSpec","characterisation of the renaming; collision witness"),
"C28":("CanonModel / CanonSpec","injectivity of the renaming"),
"C29":("CanonModel / CanonSpec","order of the result; determinism; refutations of idempotence and uniqueness"),
"C30":("AdjointModel / OperatorExprSpec","component by component; coefficient dropped: proved and refuted"),
"C31":("AdjointModel","reindex is the identity on expressions (refutation), correct on terms"),
"C32":("OperatorModel","counts by space, fixed array of 8; UB beyond"),
"C33":("OperatorModel / OperatorSemSpec","bubble-sort invariant; graded commutation in every algebra; boson sign refuted"),
"C34":("OperatorModel","proved when all commute; refuted in general"),
"C35":("OperatorModel / OperatorSemSpec","value in every algebra; iterated commutators; exact BCH for nilpotent action"),
"C36":("OperatorModel / OperatorSpec","counting components; throw condition"),
"C37":("NextPermModel","std::next_permutation is the lexicographic successor; enumeration without repetition"),
"C38":("WickSearchModel / WickSearchSpec","elementary contractions = inductive relation `allowed`, each once"),
"C39":("WickSearchModel / WickSearchSpec","backtracking search = all compatible multisets in the rank range, each once"),
"C40":("WickSearchModel","UB iff some compatible multiset exceeds the buffer; 201-leg bound and a 202-leg witness"),
"C41":("WickEvalModel / CountSpec, WickCombSpec","counting leg choices; exact iff multiplicities <= 2; general ratio; refutation"),
"C42":("WickEvalModel / WickGraphSpec","rearrangement, fermionic sign, optimality, invariance"),
"C43":("WickEvalModel / WickGraphSpec","independence of ties; refuted for repeated odd operators"),
"C44":("WickEvalModel / WickLegSpec","offset invariant; every leg used exactly once"),
"C45":("WickThreadModel / WickThreadSpec","small-step interleavings; commutation of map merges; termination measure"),
"C46":("WickThreadModel","read/write steps on the timers; bounds; lost update and data race witnesses"),
"C47":("WickEvalModel, WickThreadModel / WickLinearSpec","possible-results relation; linearity; histories of one object"),
"C48":("WickEvalModel / WickProductSpec, WickTheoremSpec","Wick's theorem in every algebra with the anticommutation relations: pair contractions, leg counting (C41), evaluation (C44), canonicalization (C26, C42) composed; Fock space as model of the hypotheses"),
"C49":("EquationModel / EquationSpec","distribution of terms over keys; refutations for operator order and the separator"),
"C50":("EquationModel / EquationSpec","letters are injective up to 52 indices; UB beyond"),
"C51":("TextModel / TextSpec","round trip and exact grammar"),
"C52":("TextModel / TextSpec","round trip"),
"C53":("RemapModel","fresh names; clash inside B refuted"),
"C54":("TextModel / TextSpec","injectivity of names; clash refuted"),
"C55":("OperatorModel","exact product of factorials"),
"C56":("WickEvalModel","totality of every step; leg bounds"),
"C57":("ExprTextModel / ExprTextSpec","four regular expressions scanned over the printed text; round trip, and misreading of every glued coefficient"),
"C58":("GenOpModel / GenOpSpec","sorted label tuples are a bijection with leg counts; exact coefficient of every operator product"),
"C59":("EquationModel / EinsumSpec (numpy.einsum: parsing, acceptance, value)","letters are an injective function of the indices (C50), so both sums run over the same assignments"),
"C60":("PyEinsumModel / PyEinsumSpec, EinsumSpec","invariant relating consumed names, the dictionary and the indices seen so far; exact success condition; value as in C59"),
"C61":("WickEvalModel / WickGeneralSpec, WickStateSpec","words of operators, cumulants and moments as a convolution algebra (signed shuffle coproduct); generalized normal ordering by inversion; expansion of a product into connected groups of legs, matched with the search (C40), the weights (C41) and the evaluation (C44); logarithm of a state for the existence of cumulants; Fock space with any density matrix in the active space"),
"C62":("LatexModel / LatexSpec (a grammar of the output)","the output parses to the expression; self-delimiting tokens (matching braces) make the grammar unambiguous; refuted: Greek numbers, underscores, bosons, bare signs, missing plus"),
"C63":("WickEvalModel, CanonModel, EquationModel, LatexModel, ExprTextModel / ContractShapeSpec, EinsumSpec","invariant over the loops of contraction_tensors_sqops (each leg's index is in exactly one tensor slot and one operator or density-matrix slot); renaming by canonicalize is injective (C28); then C50, C54, C57, C59, C62 are applied to the results"),
"C64":("EqTextModel / EqTextSpec, AmbitSpec","cutting the texts at '=', blanks and brackets; C57 for the terms; renaming of the summation variables as in C59"),
"C65":("DecimalModel (IEEE rounding to 53 bits, ties to even; `%.kf`) / DecimalSpec","rounding on a grid is monotone and nearest; error analysis over Q; digits of n mod 10^k; a nearest point of a larger number is not smaller, so both roundings keep the order; ties to even are symmetric"),
"C66":("OpTextModel / OpTextSpec","the text is cut at the braces; the component is read back by C36's tokens, so equal texts have equal operators"),
"C67":("RegTextModel, RegistryModel, PyEinsumModel / RegTextSpec","tables searched; text cut at the fixed words and the bracket; induction over histories for the replay"),
"C68":("NormModel (sum of rounded squares, correctly rounded square root by Z.sqrt, 53-bit significands as in DecimalModel), NormSpec (sum of squares, nearest_sqrt: compared with every other 53-bit number through the square of the midpoint)","relative error of each step by induction on the terms ((1+2^-51)^(n+3), Bernoulli); the root is bracketed by half-units through Z.sqrt_spec; exactness of integer sums below 2^53; order dependence refuted by a nine-term expression and its adjoint"),
"C69":("AliasModel (range-for over a std::map changed by its body: an iterator is the key of its node, advancing one whose node is gone is UB), wf/coef of AlgebraSpec","induction over the part of the map not yet visited; which coefficients are erased decides between the scaled map and UB"),
"C70":("WickMultSpec.v: repetition weight of a selection of contractions; otherwise the model and the semantics of C41 and C48.","The weight computed by the code is the number of ways times the repetition weight (C41), hence the sum over the classes of C48 is scaled; a triple contraction is computed in a three-orbital case (8 instead of 4). With general spaces the same factor appears in the block sum of C61."),
"C71":("TraceModel: every function of steps 1-3 with the list of (level, text) events it emits; TraceSpec: the transcript as a closed text built from the legs, picks and effects of the evaluation (WickLegSpec)","erasing the events gives the untraced model (TraceProofs, TraceProofs2); every text is computed without failure and equals its specification (TraceProofs3-7), using the exactness of the search (C38, C39), of the evaluation (C44) and the shape of the results (C63)"),
"C72":("PyModel: heap of expression objects (maps with node identities), term objects and iterators, variables as references, one function executing a statement; PySpec: value semantics of the same statements, which object a statement changes in place, stale names, entries delivered by an iterator","invariant over all histories (PyProofs, PyProofs2), frame lemma, simulation of the heap by the value semantics for careful histories (PyProofs3-5), induction over the history for iterators (PyProofs6-7); the failures are general theorems about the offending programs (PyProofs8)"),
"C73":("PipeSpec.v: statement syntax, memory and execution of statements (EinsumSpec.v for einsum itself), the operator an array stands for; the model functions contract, to_manybody, compile_einsum, einsum_factor","composition of C48/C61 (value of a result), C63 (shape), C49 (grouping), C50/C63 (einsum), C65 (decimals); a term's value as a sum over the elements of the array of its open indices; reading of statements shown unambiguous"),
"C74":("BchWickSpec.v: operators of an expression, leg bounds, excitations, cluster operators, iterated commutators, the series and the exponential in an arbitrary algebra; model functions commutator_args, bch_series, contract_expr, compile_einsum","bch_series/commutator denote the algebraic series (C35) for operators valued in the algebra; their products are made of the given operators with bounded rank, so C48/C61 apply; cluster operators: even words of excitations commute, a letter is killed by two commutators, a word of n letters by n+1 (Leibniz), hence termination and exactness; composition with C73 for programs"),
"C75":("AmbitPipeSpec.v: execution of ambit statements on memories of blocks (readings of the text: EqTextSpec.v, value of a statement: AmbitSpec.v), generated statements of an expression, dimensions, reading of 6-decimal numbers; model functions contract_expr, to_manybody, compile_ambit, ambit_factor","each statement of a contraction reads uniquely (C64), is executable (C63: shapes of the terms) and its value is the sum over the summed indices (C64_ambit_value), the values of the left indices being those of the position; then as C73: sums over keys, exact decimals (C65), Wick's theorem (C48, C61)"),
"C76":("RankSplitSpec.v: number of operators of a term, part of a sum with given numbers of operators; model functions contract, contract_expr (WickEvalModel), mplus (AlgebraModel)","lock-step induction on backtrack: the narrow search's list is a sublist of the wide one, hence (C39: membership, no repetition) the filter of it by the number of operators left over; the term of a composite contraction has exactly that many operators (C63 with equal bounds); filtering commutes with add_to_map on sorted maps because equal keys have equally many operators; merging outcome lists; a sorted map is the sum of two complementary parts"),
"C77":("AdjWickSpec.v: adjoint of an algebra of operators, Hermitian tensors, adjoint of a word; model functions op_adjoint, oprod_adjoint, opexpr_adjoint, expr_adjoint (OperatorModel, AdjointModel), contract, contract_expr (WickEvalModel)","the adjoint reverses the defining recursion of both normal orderings (the density cumulants of Hermitian densities are conjugated by exchanging creation and annihilation operators), hence maps the value of an operator to that of its adjoint (exchanging legs, antisymmetry) and a product to the product of the adjoints; with C48 and C61 for both products the values of the two results agree under every linear function"),
"C78":("RenumSpec.v: renumbering of a registry, same operator, product and sum in another numbering, representation and tensors read with the other numbers; model functions make_op_expr, component_op (OperatorModel), mplus, mminus, mscale, mprod, op_commutator, bch_series, contract, contract_expr (WickEvalModel)","the relations of the operators and the cumulants only use the types of the spaces, so both normal orderings transfer; the value of an operator is unchanged by the order of its legs (alternating normal product, antisymmetric tensor; the two leg lists are related by a permutation that acts with the same sign on both), hence product values agree; C48 and C61 for both registries give the results; op counts letters, which determines the operator; a sum of the other registry is, up to order, the image under an injective renaming of keys, and insertion, hence every algebra step, commutes with it"),
"C79":("PyOpModel.v: heap of OperatorExpression objects, names, statements (exec_op), histories; the operations are those of OperatorModel, AlgebraModel, AliasModel and OpTextModel","value semantics defined separately (PyOpSpec); simulation by induction on the history for the names that are not stale; add2 on itself equals the value sum by comparing coefficients of well-formed maps; invariant: identities in use, all maps well formed"),
"C80":("opexpr_canonicalize (OperatorModel), contract_expr (WickEvalModel), values of operators and results in an algebra with ladder relations (WickProductSpec)","op_value is a combination of words with the counts of the operator (legs counted through product_legs), so C33's graded commutation applies; the canonicalized products are rearrangements and keep operators and legs; then C48/C74's contraction of sums on both"),
}
MORE_MODELLED = ""
NOT_MODELLED = """"""
