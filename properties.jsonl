{"id": "C01", "title": "rational(n,d) is exact and in canonical form", "statement": "For every integer n and every nonzero integer d, rational(n,d) has value n/d, a positive denominator and a numerator coprime to the denominator; rational(n,0) does not fail but yields a number with denominator 0.", "quantifier": "all integers n, d (arbitrary precision)", "why_tests_cant": "The domain is infinite; tests only sample it.", "anchors": ["wicked/helpers/rational.cc: rational::rational, rational::reduce"]}
{"id": "C02", "title": "rational +, -, *, unary minus are exact and == is equality of values", "statement": "For all canonical rationals a, b: a+b, a-b, a*b, -a have exactly the mathematical value and are again canonical; hence for every arithmetic expression built from rational(n,d), +, -, *, unary minus, == returns true iff the two values are equal.", "quantifier": "all pairs of canonical rationals and all finite expression trees over them", "why_tests_cant": "The domain is infinite; tests only sample it.", "anchors": ["wicked/helpers/rational.cc: operator+=, operator-=, operator*=, operator-, operator=="]}
{"id": "C03", "title": "rational division is exact", "statement": "For every canonical a and every canonical b with nonzero value, a/b has the value a divided by b; if b is positive the result is canonical.", "quantifier": "all pairs of canonical rationals with nonzero divisor", "why_tests_cant": "The domain is infinite; tests only sample it.", "anchors": ["wicked/helpers/rational.cc: operator/="]}
{"id": "C04", "title": "quotients compare equal to the same number written differently", "statement": "For all rationals a, b with b nonzero, a/b == rational(num(a)*den(b), den(a)*num(b)). (Violated by the code for negative b: the denominator is left negative.)", "quantifier": "all pairs of rationals with nonzero divisor", "why_tests_cant": "A test suite that only divides by positive numbers (as the existing one does) never sees it.", "anchors": ["wicked/helpers/rational.cc: operator/=, operator=="]}
{"id": "C05", "title": "the long long build of rational never silently returns a wrong number without overflowing", "statement": "When rational is built on 64-bit integers, every +, -, *, / either computes the same result as with unbounded integers or has a signed overflow (undefined behaviour) in an intermediate value; operands with |num|,den < 2^31 - 1 never overflow.", "quantifier": "all pairs of 64-bit rationals", "why_tests_cant": "The domain is infinite; tests only sample it.", "anchors": ["wicked/helpers/rational.h: rational_t", "wicked/helpers/rational.cc: operator+=, operator-=, operator*=, operator/=, reduce"]}
{"id": "C06", "title": "printing a rational and parsing it back gives the same number", "statement": "For every canonical rational r with |num|, den <= 2^31-1, make_rational(str(r, sign)) == r for both values of sign; make_rational accepts exactly the strings ws* sign? digits* ('/' digits+)? ws* (with digits before a slash) that fit an int and throws on the others.", "quantifier": "all canonical rationals in int range; all strings", "why_tests_cant": "The domain is infinite; tests only sample it.", "anchors": ["wicked/helpers/rational.cc: rational::str, make_rational_from_str"]}
{"id": "C07", "title": "factorial and binomial are the mathematical functions", "statement": "For all n >= 0, factorial(n) = n!; for all 0 <= k and 0 <= n binomial(n,k) = n!/(k!(n-k)!) (0 if k>n) and every intermediate division is exact. In 64 bits factorial is correct exactly up to n = 20.", "quantifier": "all non-negative n, k", "why_tests_cant": "The domain is infinite; tests only sample it.", "anchors": ["wicked/helpers/combinatorics.cc: factorial, binomial"]}
{"id": "C08", "title": "permutation_sign is the sign of a permutation", "statement": "For every list of distinct integers the result is +1 if sorted and is negated by exchanging any two entries; so it is the sign of the sorting permutation, and it is multiplicative under composition.", "quantifier": "all lists of distinct integers, all pairs of positions", "why_tests_cant": "The domain is infinite; tests only sample it.", "anchors": ["wicked/helpers/combinatorics.cc: permutation_sign"]}
{"id": "C09", "title": "integer_partitions enumerates every partition exactly once", "statement": "For every n >= 0 and maxlen >= 1, integer_partitions(n,maxlen) terminates without out-of-range access and returns, without repetition, exactly the non-increasing lists of positive integers of sum n and length <= maxlen; for n < 0 it returns [].", "quantifier": "all n and maxlen", "why_tests_cant": "The domain is infinite; tests only sample it.", "anchors": ["wicked/helpers/combinatorics.cc: integer_partitions"]}
{"id": "C10", "title": "the orbital-space registry is consistent after any sequence of successful calls", "statement": "After any sequence of reset_space and accepted add_space calls, label_to_space(label(i)) = i for each registered space i, labels are distinct, no index name belongs to two spaces, and label_to_space throws for labels never added.", "quantifier": "all histories of reset/add_space calls that do not throw", "why_tests_cant": "Depends on the whole call history.", "anchors": ["wicked/helpers/orbital_space.cc: add_space, reset, label, label_to_space"]}
{"id": "C11", "title": "a rejected add_space leaves the registry usable", "statement": "If add_space throws, the registry is unchanged: every label known to label_to_space denotes an existing space and later calls behave as if the failed call had not been made. (True for a duplicate label; violated for a duplicate index name or an unknown elementary space: the new label stays registered with no space behind it.)", "quantifier": "all histories including failing calls", "why_tests_cant": "Needs a failure in the middle of a history followed by later calls.", "anchors": ["wicked/helpers/orbital_space.cc: add_space, label_to_space"]}
{"id": "C12", "title": "sums of terms: one entry per term, coefficient is the exact sum, no zero entries", "statement": "After any sequence of additions/subtractions of (term, coefficient) pairs, an Expression or OperatorExpression holds each term at most once, with coefficient equal to the sum of the coefficients added, and holds no term whose coefficient is zero.", "quantifier": "all sequences of add operations over any key type with a strict weak ordering", "why_tests_cant": "The domain is infinite; tests only sample it.", "anchors": ["wicked/helpers/helpers.h: add_to_map", "wicked/helpers/algebra.hpp: add, operator+=, operator-=, operator-"]}
{"id": "C13", "title": "equal sums compare equal whatever the order in which they were built", "statement": "Two expressions built by any two sequences of additions compare equal (==) iff every term has the same total coefficient in both.", "quantifier": "all pairs of addition sequences", "why_tests_cant": "The domain is infinite; tests only sample it.", "anchors": ["wicked/algebra/expression.cc: Expression::operator==", "wicked/helpers/algebra.hpp: is_equal"]}
{"id": "C14", "title": "multiplying by zero gives the empty expression", "statement": "For every expression e, e * rational(0) == Expression(). (Violated: zero coefficients are kept; also for nonzero scalars scaling is exact.)", "quantifier": "all expressions and scalars", "why_tests_cant": "The existing tests never scale by zero.", "anchors": ["wicked/helpers/algebra.hpp: operator*=(scalar_t), operator/=(scalar_t)"]}
{"id": "C15", "title": "dot is a symmetric bilinear form and dot(e,e)=0 only for the empty expression", "statement": "For all expressions, dot(a,b) is the sum over common terms of the products of coefficients, is symmetric and bilinear, and dot(a,a) > 0 unless a is empty.", "quantifier": "all expressions", "why_tests_cant": "The domain is infinite; tests only sample it.", "anchors": ["wicked/helpers/algebra.hpp: dot"]}
{"id": "C16", "title": "the product of sums is bilinear and associative", "statement": "For sums of non-normal-ordered products, (a@b) has coefficient of k equal to the sum over factorizations, @ distributes over + and is associative.", "quantifier": "all triples of expressions", "why_tests_cant": "The domain is infinite; tests only sample it.", "anchors": ["wicked/helpers/algebra.hpp: operator*=", "wicked/algebra/symbolic_term.cc: operator*=, operator_product", "wicked/diagrams/operator_product.cc: operator*"]}
{"id": "C17", "title": "terms with different meaning are different keys", "statement": "Two SymbolicTerms that differ in the normal-ordered flag or in the complex-conjugation flag of a tensor are never merged by an Expression. (Violated: both flags are ignored by < and ==.)", "quantifier": "all pairs of terms", "why_tests_cant": "Needs two terms equal up to a flag in the same sum.", "anchors": ["wicked/algebra/symbolic_term.cc: operator<, operator==", "wicked/algebra/tensor.cc: operator<, operator=="]}
{"id": "C18", "title": "the comparison operators used as map and sort keys are strict weak orderings compatible with ==", "statement": "operator< of Index, SQOperator, Tensor, SymbolicTerm, GraphMatrix, Operator, OperatorProduct is irreflexive, transitive, with transitive incomparability, and incomparability coincides with operator==.", "quantifier": "all objects of these classes", "why_tests_cant": "The domain is infinite; tests only sample it.", "anchors": ["wicked/algebra/index.cc", "wicked/algebra/sqoperator.cc: operator<", "wicked/algebra/tensor.cc: operator<", "wicked/algebra/symbolic_term.cc: operator<", "wicked/diagrams/operator.cc", "wicked/helpers/product.hpp"]}
{"id": "C19", "title": "canonicalize_indices sorts and returns the sign of the sorting permutation", "statement": "For every list of indices, the result is a sorted (resp. reverse-sorted) rearrangement and, if indices are distinct, the sign returned is the parity of the rearrangement.", "quantifier": "all index lists", "why_tests_cant": "The domain is infinite; tests only sample it.", "anchors": ["wicked/algebra/index.cc: canonicalize_indices", "wicked/algebra/sqoperator.cc: canonicalize_sqops"]}
{"id": "C20", "title": "Tensor canonicalization preserves the tensor element", "statement": "For every antisymmetric (symmetric) tensor valuation, element(t) = sign * element(canonicalize(t)); nonsymmetric tensors throw and are unchanged.", "quantifier": "all tensors, all (anti)symmetric valuations and index assignments", "why_tests_cant": "The domain is infinite; tests only sample it.", "anchors": ["wicked/algebra/tensor.cc: canonicalize"]}
{"id": "C21", "title": "vacuum_normal_ordered terminates and its result is normal ordered", "statement": "For every expression without normal-ordered labels, vacuum_normal_ordered returns, and is_vacuum_normal_ordered() of the result is true; it throws iff some term is labelled normal ordered.", "quantifier": "all expressions, any number of operators, fermions and bosons", "why_tests_cant": "The domain is infinite; tests only sample it.", "anchors": ["wicked/algebra/symbolic_term_normal_order.cc: recursive_vacuum_normal_order", "wicked/algebra/expression_normal_order.cc"]}
{"id": "C22", "title": "vacuum normal ordering does not change the operator", "statement": "In every algebra where the operators obey the canonical (anti)commutation relations and delta^{p}_{q} is the Kronecker delta, an expression and its vacuum_normal_ordered() form denote the same element.", "quantifier": "all expressions, all representations of the CAR/CCR, all assignments of orbitals to indices", "why_tests_cant": "The domain is infinite; tests only sample it.", "anchors": ["wicked/algebra/symbolic_term_normal_order.cc: recursive_vacuum_normal_order", "wicked/algebra/sqoperator.cc: commutator_factor, operator<"]}
{"id": "C23", "title": "only_same_index_contractions is exact when distinct indices mean distinct orbitals", "statement": "vacuum_normal_ordered(True) preserves the operator for every assignment that maps distinct indices of a space to distinct orbitals.", "quantifier": "all expressions, all representations, all injective assignments", "why_tests_cant": "The domain is infinite; tests only sample it.", "anchors": ["wicked/algebra/symbolic_term_normal_order.cc"]}
{"id": "C24", "title": "normal ordering a normal-ordered expression changes nothing", "statement": "vacuum_normal_ordered() is idempotent, and is the identity on expressions whose terms are normal ordered with no repeated adjacent fermionic operator.", "quantifier": "all expressions", "why_tests_cant": "The domain is infinite; tests only sample it.", "anchors": ["wicked/algebra/symbolic_term_normal_order.cc", "wicked/algebra/expression_normal_order.cc"]}
{"id": "C25", "title": "adjoint is an involution, reverses products, and is additive", "statement": "adjoint(adjoint(e)) = e for terms, tensors, operators, expressions; adjoint(a@b) = adjoint(b)@adjoint(a) for operator products and operator expressions; coefficients are preserved.", "quantifier": "all terms and expressions", "why_tests_cant": "The domain is infinite; tests only sample it.", "anchors": ["wicked/algebra/symbolic_term.cc: adjoint", "wicked/helpers/product.hpp: adjoint", "wicked/algebra/expression.cc: adjoint", "wicked/diagrams/operator_expression.h: adjoint", "wicked/diagrams/graph_matrix.cc: adjoint"]}
{"id": "C26", "title": "canonicalize does not change the value of an expression", "statement": "For every term whose operator indices all occur in its tensors, canonicalize returns a term and a sign such that sign*canonical term and the original term denote the same operator, summed over all index values, for all tensor values with the declared symmetry and normal-ordered (anticommuting) operators; hence Expression.canonicalize preserves the value of every expression of such terms.", "quantifier": "all such terms, all orbital sets, all tensor values, all anticommuting operator families", "why_tests_cant": "The domain is infinite; tests only sample it.", "anchors": ["wicked/algebra/symbolic_term.cc: canonicalize", "wicked/algebra/expression.cc: canonicalize"]}
{"id": "C27", "title": "canonicalize is safe for every term a user can write", "statement": "canonicalize renames the indices of every term over registered spaces: spaces are kept, different tensor indices stay different, operator indices that occur in no tensor keep their label. It therefore can merge two different indices only if an operator index occurs in no tensor - and then it does for some terms (T^{o1} a+(o0) a-(o1) becomes T^{o0} a+(o0) a-(o0)). It returns normally for every term with at most 64 index slots per space and throws exactly when a tensor is nonsymmetric.", "quantifier": "all terms", "why_tests_cant": "Requires an index occurring only in an operator together with a shared one.", "anchors": ["wicked/algebra/symbolic_term.cc: canonicalize"]}
{"id": "C28", "title": "canonicalize relabels injectively and space by space", "statement": "When all operator indices occur in tensors, the renaming applied by canonicalize is injective on the indices of the term and preserves the orbital space of every index, and the new labels of each space are 0..n-1 when operator indices are distinct.", "quantifier": "all terms", "why_tests_cant": "The domain is infinite; tests only sample it.", "anchors": ["wicked/algebra/symbolic_term.cc: canonicalize"]}
{"id": "C29", "title": "canonical form: order, determinism, idempotence", "statement": "The canonical form has ordered operators and ordered indices in every tensor; it is determined by the term unless two tensors differ only in their flags; canonicalizing again changes nothing if the tensors of the canonical form are in score order (always with at most one tensor). It is not idempotent in general, and terms that differ only by the names of their indices may get different canonical forms (t_{o1} t_{o2} a+(o2) and t_{o1} t_{o2} a+(o1)).", "quantifier": "all terms, all orders std::sort may choose", "why_tests_cant": "Needs particular tensor networks.", "anchors": ["wicked/algebra/symbolic_term.cc: canonicalize"]}
{"id": "C30", "title": "operator_expr builds the operator it is asked for", "statement": "operator_expr(label, components, normal_ordered, symmetry, coefficient) returns, for each component, a term with pairwise distinct indices, creation operators in the order given, the tensor carrying the same indices, and the requested coefficient. (Violated for the coefficient, which is dropped.)", "quantifier": "all component lists over registered spaces, all coefficients", "why_tests_cant": "Tests never pass a coefficient.", "anchors": ["wicked/algebra/expression.cc: make_operator_expr"]}
{"id": "C31", "title": "reindexing an expression renames its indices", "statement": "Expression::reindex(map) applies the map to each term. (Violated: the reindexed terms are discarded.)", "quantifier": "all expressions and maps", "why_tests_cant": "The function is not tested.", "anchors": ["wicked/algebra/expression.cc: Expression::reindex"]}
{"id": "C32", "title": "graph-matrix counts: addition, subtraction and adjoint", "statement": "(g + h) - h = g, adjoint is an involution that exchanges creation and annihilation counts and keeps the number of operators, num_ops is additive, for up to 8 spaces; with more than 8 spaces accesses are out of bounds.", "quantifier": "all graph matrices and numbers of spaces", "why_tests_cant": "The domain is infinite; tests only sample it.", "anchors": ["wicked/diagrams/graph_matrix.cc"]}
{"id": "C33", "title": "OperatorProduct canonicalization only exchanges commuting operators and gets the sign right", "statement": "canonicalize returns a permutation of the factors reachable by exchanging neighbours that commute, and in every algebra where such operators graded-commute the product equals sign times the canonical product.", "quantifier": "all operator products, all algebras", "why_tests_cant": "The domain is infinite; tests only sample it.", "anchors": ["wicked/diagrams/operator_product.cc: canonicalize", "wicked/diagrams/operator.cc: do_operators_commute, operator_noncommuting_less"]}
{"id": "C34", "title": "equal operator products have equal canonical forms", "statement": "Two products related by exchanging commuting neighbours have the same canonical form. (Violated.)", "quantifier": "all operator products", "why_tests_cant": "Needs three operators with a non-transitive commutation pattern.", "anchors": ["wicked/diagrams/operator_product.cc: canonicalize"]}
{"id": "C35", "title": "commutator and bch_series are the algebraic commutator and BCH expansion", "statement": "In every associative algebra, commutator(A,B) denotes AB-BA, and bch_series(A,B,n) denotes the sum over k<=n of (1/k!) times the k-fold commutator [[A,B],...,B].", "quantifier": "all operator expressions, all n, all algebras", "why_tests_cant": "The domain is infinite; tests only sample it.", "anchors": ["wicked/diagrams/operator_expression.cc: commutator, bch_series"]}
{"id": "C36", "title": "op(label, components, unique) builds the requested sum", "statement": "The coefficient of an operator in op(label, components) is the number of components with its creation/annihilation counts, and 1 if unique is true; unknown labels throw.", "quantifier": "all component lists", "why_tests_cant": "The domain is infinite; tests only sample it.", "anchors": ["wicked/diagrams/operator_expression.cc: make_diag_operator_expression"]}
{"id": "C37", "title": "next_permutation based enumerations visit every rearrangement once", "statement": "Iterating std::next_permutation from the sorted arrangement visits every distinct rearrangement exactly once in lexicographic order.", "quantifier": "all multisets of integers", "why_tests_cant": "The domain is infinite; tests only sample it.", "anchors": ["wicked/diagrams/wick_theorem_elementary_contractions.cc: elementary_contractions_general", "wicked/diagrams/wick_theorem_canonicalize_graph.cc: canonicalize_contraction_graph"]}
{"id": "C38", "title": "elementary contractions are exactly the allowed ones", "statement": "For occupied (unoccupied) spaces the elementary contractions are exactly the pairs (creation on operator l, annihilation on operator r) (resp. reversed) with l<r that the operators can supply; for general spaces exactly the distributions of k creation and k annihilation legs, 1<=k<=max cumulant, over at least two operators, each listed once.", "quantifier": "all operator products", "why_tests_cant": "The domain is infinite; tests only sample it.", "anchors": ["wicked/diagrams/wick_theorem_elementary_contractions.cc"]}
{"id": "C39", "title": "every compatible set of contractions is generated exactly once", "statement": "If no compatible multiset has more than 100 members (see C40), contract considers exactly the multisets of elementary contractions that do not use more creation/annihilation operators than available and leave between minrank and maxrank operators, each once, and the bookkeeping of free operators is restored on exit.", "quantifier": "all operator products, all minrank <= maxrank", "why_tests_cant": "The domain is infinite; tests only sample it.", "anchors": ["wicked/diagrams/wick_theorem_composite_contractions.cc"]}
{"id": "C40", "title": "the fixed-size search buffer", "statement": "The contraction search writes outside its 100-entry buffer (undefined behaviour) exactly when some compatible multiset of elementary contractions has more than 100 members; products of at most 201 second-quantized operators are always safe, and 202 are not always.", "quantifier": "all operator products", "why_tests_cant": "Requires a product of more than 200 second-quantized operators.", "anchors": ["wicked/diagrams/wick_theorem_composite_contractions.cc: generate_composite_contractions, make_move"]}
{"id": "C41", "title": "the combinatorial weight of a contraction counts the ways to realize it", "statement": "For a contraction pattern over allowed elementary contractions with enough legs, a way to realize it is a disjoint choice of legs per elementary contraction, up to exchanging equal ones. The weight given by the code equals the number of ways if and only if no elementary contraction occurs more than twice; in general it is too large by the product of (m-1)! over the multiplicities m (the code divides by m instead of m!).", "quantifier": "all operator products and contraction patterns", "why_tests_cant": "Needs an elementary contraction with multiplicity >= 3.", "anchors": ["wicked/diagrams/wick_theorem_process_contractions.cc: combinatorial_factor"]}
{"id": "C42", "title": "graph canonicalization is a symmetry of the contraction", "statement": "The canonical form of a contraction is obtained from the input by a rearrangement of the operators that never exchanges two operators joined by a pair contraction, together with a rearrangement of the contractions; its sign is the fermionic sign of the operator rearrangement; no other allowed rearrangement is preferred (smaller operator list, then larger contraction matrices); the comparison is a strict weak order; contractions that differ by an allowed rearrangement have the same canonical form.", "quantifier": "all operator products and composite contractions", "why_tests_cant": "The domain is infinite; tests only sample it.", "anchors": ["wicked/diagrams/wick_theorem_canonicalize_graph.cc"]}
{"id": "C43", "title": "graph canonicalization has a well-defined sign", "statement": "Whatever order std::sort gives to equivalent candidates, the canonical operators and contractions are the same, and the sign is the same if no operator with an odd number of legs occurs twice; for two equal odd operators both signs are possible.", "quantifier": "all operator products and contractions, all tie-breaking choices", "why_tests_cant": "std::sort's choice among equivalent elements is unspecified.", "anchors": ["wicked/diagrams/wick_theorem_canonicalize_graph.cc: canonicalize_contraction_graph, is_ops_permutation_valid"]}
{"id": "C44", "title": "evaluating a generated contraction never aborts and uses each operator leg once", "statement": "For every contraction pattern generated by the search, no leg lookup fails (the NOT FOUND exit is unreachable), each second-quantized operator is contracted at most once and the remaining operators are exactly the uncontracted ones.", "quantifier": "all operator products and generated contractions", "why_tests_cant": "The domain is infinite; tests only sample it.", "anchors": ["wicked/diagrams/wick_theorem_process_contractions.cc: evaluate_contraction, elements_vec_to_pos, contraction_tensors_sqops"]}
{"id": "C45", "title": "multi-threaded and single-threaded contraction give the same expression", "statement": "For every interleaving of the worker threads the multi-threaded result is the one of the single-threaded loop; the two modes have the same set of possible results; no schedule deadlocks or runs forever.", "quantifier": "all operator products, all thread schedules", "why_tests_cant": "Schedules cannot be enumerated by tests.", "anchors": ["wicked/diagrams/wick_theorem_process_contractions.cc: process_contractions, process_contractions_threads, process_single_contraction"]}
{"id": "C46", "title": "timers: exact when single-threaded, bounded under threads, updates can be lost", "statement": "Single-threaded, each timer grows by exactly the time spent in all contractions in the rank range. Multi-threaded, for every schedule, it grows by at most that and by at least one task's time, and by exactly that if no step falls between the read and the write of an update; but a schedule exists that loses an update, and a state is reachable in which two tasks write the same timer (a data race).", "quantifier": "all thread schedules", "why_tests_cant": "A data race shows up only in some schedules.", "anchors": ["wicked/diagrams/wick_theorem_process_contractions.cc: process_single_contraction (timers_)"]}
{"id": "C47", "title": "contract is linear and independent of earlier calls", "statement": "contract(c*f, e) = c * contract(f, e) and contract over a sum is the sum of contract over its terms; a WickTheorem object gives the same result whatever it computed before.", "quantifier": "all factors, operator expressions and call histories", "why_tests_cant": "The domain is infinite; tests only sample it.", "anchors": ["wicked/diagrams/wick_theorem.cc: contract"]}
{"id": "C48", "title": "Wick's theorem: contract returns the operator product", "statement": "For fermionic occupied/unoccupied spaces, the sum of the terms returned by contract(1, ops, 0, N) equals the product of the normal-ordered operators, for all tensor values, provided no elementary contraction is repeated more than twice.", "quantifier": "all operator products, all orbital sets, all antisymmetric tensors", "why_tests_cant": "The domain is infinite; tests only sample it.", "anchors": ["wicked/diagrams/wick_theorem.cc", "wicked/diagrams/wick_theorem_process_contractions.cc"]}
{"id": "C49", "title": "many-body equations lose nothing", "statement": "to_manybody_equation distributes the terms of an expression, each exactly once, over equations keyed by the number of upper/lower indices in each space, with the original coefficient and tensors.", "quantifier": "all expressions", "why_tests_cant": "The domain is infinite; tests only sample it.", "anchors": ["wicked/algebra/expression.cc: to_manybody_equation", "wicked/algebra/equation.cc: rhs_expression"]}
{"id": "C50", "title": "einsum letters identify indices", "statement": "In compile('einsum'), two index slots get the same letter iff they carry the same index, provided at most 52 distinct indices occur; with more the code reads an empty vector.", "quantifier": "all equations", "why_tests_cant": "The domain is infinite; tests only sample it.", "anchors": ["wicked/algebra/equation.cc: get_unique_index, get_unique_tensor_indices, compile"]}
{"id": "C51", "title": "index strings round-trip", "statement": "For each registered space with an alphabetic label and each 0 <= p <= 2^31-1, index(str(i)) == i; strings of any other shape are rejected.", "quantifier": "all indices, all strings", "why_tests_cant": "The domain is infinite; tests only sample it.", "anchors": ["wicked/algebra/index.cc: str, make_index_from_str"]}
{"id": "C52", "title": "tensor strings round-trip", "statement": "For every tensor with alphanumeric label over such spaces, tensor(str(t)) == t.", "quantifier": "all tensors", "why_tests_cant": "The domain is infinite; tests only sample it.", "anchors": ["wicked/algebra/tensor.cc: str, make_tensor_from_str", "wicked/helpers/helpers.cc: join, split_indices"]}
{"id": "C53", "title": "remap avoids index clashes", "statement": "The index map returned by remap(A,B) renames the indices of B that occur in A to new indices of the same space that occur neither in A nor twice among the new ones.", "quantifier": "all pairs of index lists", "why_tests_cant": "The domain is infinite; tests only sample it.", "anchors": ["wicked/algebra/index.cc: remap"]}
{"id": "C54", "title": "LaTeX index names identify indices", "statement": "Two indices have the same LaTeX name iff they are the same index, if no registered name has the form label_{number}.", "quantifier": "all registries and indices", "why_tests_cant": "The domain is infinite; tests only sample it.", "anchors": ["wicked/helpers/orbital_space.cc: index_label"]}
{"id": "C55", "title": "the numerical factor of an operator", "statement": "For every operator, factor() times the product over all spaces of (number of creation operators)! times (number of annihilation operators)! equals 1, exactly.", "quantifier": "every operator over every registry", "why_tests_cant": "must hold for all counts and numbers of spaces", "anchors": ["wicked/diagrams/operator.cc: Operator::factor"]}
{"id": "C56", "title": "contract returns an expression", "statement": "For every product of valid operators a call of contract terminates with an outcome; if there are at most 32 legs in each space and 201 in all, the outcome is an expression, never an exception, an abort or an out-of-range access, whatever std::sort does with ties.", "quantifier": "all operator products over all registries with at most 8 spaces, all options, factors and rank limits", "why_tests_cant": "The domain is infinite; the out-of-range accesses depend on sizes tests do not reach.", "anchors": ["wicked/diagrams/wick_theorem.cc: contract", "wicked/diagrams/wick_theorem_process_contractions.cc: process_single_contraction", "wicked/algebra/symbolic_term.cc: canonicalize, simplify"]}
{"id": "C57", "title": "str of an expression can be parsed back", "statement": "string_to_expr(str(e)) == e for every expression whose labels are alphanumeric and start with a letter, unless the first printed term has a tensor and a coefficient 2..9; in that case the parsed expression always differs (the digit is also read as part of the first label). Symmetry and conjugation marks are not in the text, and the normal-order flag survives only if all operators are fermionic; text without a recognisable piece is read as 1.", "quantifier": "all expressions over all registries whose space labels are letters, coefficients fitting an int", "why_tests_cant": "The domain is infinite: every combination of coefficients, labels, indices and operators goes through four regular expressions.", "anchors": ["wicked/algebra/expression.cc: Expression::str, make_expression", "wicked/algebra/term.cc: Term::str", "wicked/algebra/symbolic_term.cc: SymbolicTerm::str", "wicked/algebra/sqoperator.cc: SQOperator::str", "wicked/helpers/helpers.cc: findall", "wicked/utils.py: string_to_expr"]}
{"id": "C58", "title": "gen_op spans exactly the requested components", "statement": "gen_op(label, rank, cre, ann) is the sum, each with coefficient 1, of exactly the operators with that label that have rank creation legs in spaces listed in cre and rank annihilation legs in spaces listed in ann; with diagonal=False those with all legs in one space are left out, but other components with equal creation and annihilation counts stay. From rank 2 on an unregistered label in a list is an exception.", "quantifier": "all ranks, all duplicate-free lists of registered spaces, all registries with at most 8 spaces", "why_tests_cant": "The number of components grows without bound with rank and the number of spaces; that none is missed or doubled depends on sorting by registration order.", "anchors": ["wicked/utils.py: gen_op", "wicked/diagrams/operator_expression.cc: make_diag_operator_expression"]}
{"id": "C59", "title": "the compiled einsum statement computes the equation", "statement": "If compile('einsum') returns a statement, then for arrays whose axes have the sizes of the spaces numpy accepts its einsum call exactly if the right-hand side has a tensor and the left-hand tensor has no repeated index and only indices of the right-hand side; each element of the result is then the product of the right-hand tensors summed over all other indices. (The printed factor is rounded to nine decimals.) An equation without right-hand tensors compiles to a call numpy rejects.", "quantifier": "all equations, all registries whose index names are unambiguous, all numbers of orbitals, all array values over any commutative ring", "why_tests_cant": "It must hold for all index patterns and all array values; examples only sample both.", "anchors": ["wicked/algebra/equation.cc: compile, get_unique_tensor_indices, get_unique_index"]}
{"id": "C60", "title": "compile_einsum (Python)", "statement": "For an equation whose left-hand tensor has no indices, wicked.compile_einsum returns a statement with one registered index name per index, different names for different indices, if each space has at least as many names as different indices, and raises otherwise; if all names are single letters numpy accepts the call and it computes the sum over all indices of the product of the tensors. It raises for every equation whose left-hand tensor has indices, and names longer than a letter give calls numpy rejects.", "quantifier": "all equations, all registries without empty names, all array values over any commutative ring", "why_tests_cant": "Names are consumed from per-space lists while the equation is traversed; which equations succeed depends on all index patterns and registries.", "anchors": ["wicked/utils.py: compile_einsum", "wicked/helpers/orbital_space.cc: to_dict"]}
{"id": "C61", "title": "contract with general spaces is the generalized (multireference) Wick theorem", "statement": "For operators over occupied, unoccupied and general fermionic spaces, contract(factor, ops, minrank, maxrank) with the cumulant limit n returns an expression whose value is factor times the product of the operators (all ranks) or its part of those ranks, where the tensors gamma1, eta1, lambda2, ..., lambda_n stand for the density cumulants of the reference state and operator strings for the generalized normal-ordered (Kutzelnigg-Mukherjee) product; contract(factor, ops, 0, 0) is the expectation value in every state with these cumulants. Every number-conserving state of one active space over a determinant has such cumulants if n is at least the number of active orbitals. (Assumes no contraction can be carried out three times, see C41.)", "quantifier": "all registries of these kinds, all operator products without triple contractions, all rank ranges, all cumulant limits >= 1, all tensors, densities and sets of orbitals, all representations of the operators over fields of characteristic 0, all reference states with the stated properties", "why_tests_cant": "The sums run over all contractions with cumulants of any order and all tensor values and states; numerical tests check a few operators and one state.", "anchors": ["wicked/diagrams/wick_theorem.cc: contract", "wicked/diagrams/wick_theorem_elementary_contractions.cc: elementary_contractions_general", "wicked/diagrams/wick_theorem_composite_contractions.cc: generate_composite_contractions", "wicked/diagrams/wick_theorem_process_contractions.cc: evaluate_contraction, combinatorial_factor"]}
{"id": "C62", "title": "LaTeX output means the expression and shows all but the listed details", "statement": "Read with the usual conventions (a^{pq}_{rs} is p+ q+ s r, a bare sign is a coefficient of 1 or -1, braces mark normal order), Expression::latex of an expression is that expression: the same terms in the same order with the same coefficients, indices and operators. If index names have no blanks and matching braces the output can be read in only one way, so expressions with equal LaTeX agree in everything shown; what is not shown: the number of a Greek label, the underscore of a label, symmetry and conjugation, the normal-order mark of a term without operators, and a for b in compact bosonic strings. Labels that are not letters, optional underscore, optional digits throw.", "quantifier": "all expressions, all registries, all line separators, both integer builds", "why_tests_cant": "Unambiguity is a statement about all pairs of expressions; tests compare a few printed strings.", "anchors": ["wicked/algebra/tensor.cc: Tensor::latex", "wicked/algebra/symbolic_term.cc: SymbolicTerm::latex, is_creation_then_annihilation", "wicked/algebra/sqoperator.cc: SQOperator::latex", "wicked/algebra/expression.cc: Expression::latex", "wicked/helpers/rational.cc: rational::latex"]}
{"id": "C63", "title": "The terms returned by contract are contractions of the product, and everything downstream accepts them", "statement": "In every term returned by WickTheorem::contract each index occurs exactly twice, once in an upper and once in a lower slot (creation operators upper, annihilation operators lower); the indices of each space are numbered 0, 1, ... without gaps, those of the operators first; there is one antisymmetric tensor per operator of the product with its label and as many lower (upper) indices in each space as it has creation (annihilation) legs, and otherwise only gamma1, eta1 and lambda<k> (2 <= k <= maxcumulant) of general spaces; between minrank and maxrank operators are left over, creation before annihilation, in each space no more than in the product and with the same difference. Hence to_manybody_equation gives one equation per term, each compiles to an einsum statement that numpy accepts and that adds the term's value (at most 52 legs), equal LaTeX means equal results, and str followed by string_to_expr gives the result back (coefficients in int, first coefficient not 2..9).", "quantifier": "all operator expressions, rank windows, factors, cumulant limits, registries and both settings of graph canonicalization", "why_tests_cant": "Tests compare single results with literal expected expressions; the shape has to hold for every product and every rank window.", "anchors": ["wicked/diagrams/wick_theorem.cc: WickTheorem::contract", "wicked/diagrams/wick_theorem_process_contractions.cc: process_contraction, evaluate_contraction, contraction_tensors_sqops", "wicked/algebra/expression.cc: Expression::to_manybody_equation", "wicked/algebra/equation.cc: Equation::compile"]}
{"id": "C64", "title": "Equation::str identifies the equation, and compile(\"ambit\") writes the statement with the equation's value", "statement": "Two equations with the same str() (= latex()) compare equal. compile(\"ambit\") throws exactly when a side contains operators; otherwise it writes lhs[...] += factor * T[...] * V[...]; with each tensor's label and its index names, upper before lower. Such a statement can be read in only one way, its names give back the indices, and its value (sum over the indices that are not on the left) is that of the equation and of the einsum statement. Every equation obtained from a result of contract has one. Other formats: a term compiles to the empty text, an equation throws, an operator always throws.", "quantifier": "all equations, registries, formats, numerical arrays over any commutative ring", "why_tests_cant": "There is no test of the ambit format; unambiguity concerns all pairs of equations.", "anchors": ["wicked/algebra/equation.cc: Equation::operator==, str, latex, compile", "wicked/algebra/symbolic_term.cc: SymbolicTerm::compile", "wicked/algebra/tensor.cc: Tensor::compile", "wicked/algebra/index.cc: Index::compile", "wicked/algebra/sqoperator.cc: SQOperator::compile"]}
{"id": "C65", "title": "The decimal coefficient of a compiled statement is the rounded coefficient", "statement": "rational::to_double returns the double closest to the number when numerator and denominator are at most 2^53, and is within a relative error of 2^-51 for all rationals. The coefficient in an einsum statement is a decimal number with 9 places, in an ambit statement with 6; it differs from the exact coefficient by at most half a unit in the last place plus the error of to_double, is exact when the coefficient has a decimal expansion of that length (below 2^50 units), and is 0 when the coefficient is below 0.49 units. Written coefficients are in the order of the coefficients (numerators and denominators at most 2^53) and change sign with them.", "quantifier": "all rationals (in the range of double exponents), both formats, all results of contract", "why_tests_cant": "Tests compare a few printed statements; rounding errors concern every numerator and denominator, and two of the claims one would expect (non-zero coefficients stay non-zero, different ones stay different) are false.", "anchors": ["wicked/helpers/rational.cc: rational::to_double, rational::compile", "wicked/algebra/equation.cc: Equation::compile"]}
{"id": "C66", "title": "The printed form of operators and operator sums identifies them, and op() reads it back", "statement": "Two operators (label and numbers of legs per space) with the same str() are equal, and two OperatorExpressions with the same str() are equal, coefficients included. The text of an operator is its factor (unless it is 1), its label and, in braces, a component string from which op(label, [component]) makes the same operator with coefficient 1. repr of a rational determines the rational.", "quantifier": "all operators with non-negative counts and labels without brace or line break, all sums, all registries of at most 8 spaces labelled by letters", "why_tests_cant": "Unambiguity is about all pairs of expressions; tests print a few.", "anchors": ["wicked/diagrams/operator.cc: Operator::str", "wicked/diagrams/operator_expression.cc: OperatorExpression::str, make_diag_operator_expression", "wicked/helpers/rational.cc: rational::str, rational::repr"]}
{"id": "C67", "title": "Registry: names of types, printed form, dictionary and replay", "statement": "add_space accepts exactly the field types fermion, boson and the space types occupied, unoccupied, general, acting as the call with those types; any other text throws and leaves the registry as it was. Registries with the same str() have the same labels, types and index names in the same order. to_dict maps exactly the registered labels, each to its index names. Whatever accepted calls and resets led to a registry, registering its spaces one after the other on an empty registry is accepted and gives the same registry, so registries with the same spaces are the same.", "quantifier": "all texts, all histories of accepted calls, index names without comma and bracket for the text", "why_tests_cant": "Tests use the documented names and one or two registries; the claims are about all other texts, all pairs of registries and all histories.", "anchors": ["wicked/helpers/orbital_space.cc: string_to_space_type, string_to_field_type, OrbitalSpaceInfo::add_space, str, to_dict, reset", "wicked/api/orbital_space_api.cc: add_space"]}
{"id": "C68", "title": "norm is the square root of dot with itself up to rounding", "statement": "Expression::norm is computed in double: its square differs from the exact dot product of the expression with itself by a relative error of at most (n + 3) 2^-50 for n terms; it is never negative and is 0 exactly for the empty expression; for integer coefficients whose squares sum to at most 2^53 it is the double closest to the exact square root (and the root itself when that is an integer); negating the expression leaves it unchanged, bit for bit. The norm of the adjoint may differ in the last bit because the terms are summed in another order.", "quantifier": "all well-formed expressions (up to 2^50 terms for the error bound), all coefficients in the range of double exponents", "why_tests_cant": "Rounding of a sum depends on the number, size and order of all terms; tests evaluate a few norms to some digits.", "anchors": ["wicked/helpers/algebra.hpp: Algebra::norm, Algebra::dot", "wicked/helpers/rational.cc: rational::to_double", "wicked/api/expression_api.cc: norm"]}
{"id": "C69", "title": "In-place operations whose argument is the object itself", "statement": "OperatorExpression::add2 called with the same object (in Python o.add2(o, f)) gives (1 + f) o for every f other than -1; with f = -1 and a non-empty o it erases the map node its loop stands on, which is undefined behaviour. e += e doubles an expression or operator expression; e -= e on a non-empty one is undefined. r += r, r -= r, r *= r on rationals are exact.", "quantifier": "all well-formed expressions and operator expressions, all factors, all canonical rationals", "why_tests_cant": "Tests pass different objects; the outcome with one object depends on which map nodes survive the loop, for every map and factor, and undefined behaviour may look right in a test.", "anchors": ["wicked/helpers/algebra.hpp: Algebra::operator+=, operator-=", "wicked/diagrams/operator_expression.cc: OperatorExpression::add2", "wicked/api/operator_api.cc: add2", "wicked/helpers/helpers.h: add_to_map", "wicked/helpers/rational.cc: rational::operator+=, -=, *="]}
{"id": "C70", "title": "Results of contract when an elementary contraction is repeated three times or more", "statement": "For every product of operators over occupied and unoccupied fermionic spaces (with no bound on the numbers of legs) whose selections of contractions in the requested rank window all have the same repetition weight w (the product of (m-1)! over the numbers m of equal contractions), contract(factor, ops, minrank, maxrank) returns w times factor times the product, and w times the expectation value for ranks 0..0. Hence the result is right if no contraction is repeated more than twice and wrong otherwise: for A (three creation operators) times B (three annihilation operators) in an occupied space contract returns twice the expectation value. The same holds with general spaces and density cumulants.", "quantifier": "all fields of characteristic 0, all representations of the ladder operators, antisymmetric tensors, finite orbital sets, products of operators, factors, rank windows, options", "why_tests_cant": "Expectation values of products with three equal contractions need operators of rank three on each side and an independent evaluation; the equality must hold for every tensor and every number of orbitals.", "anchors": ["wicked/diagrams/wick_theorem_process_contractions.cc: WickTheorem::combinatorial_factor, evaluate_contraction", "wicked/diagrams/wick_theorem.cc: WickTheorem::contract"]}
{"id": "C71", "title": "What contract prints", "statement": "With WickTheorem.set_print(level) contract prints its work on the standard output. For every product of operators and every level: the result (or failure) is the one of the call without printing; the level 0 prints nothing; a higher level prints the text of a lower one with parts inserted; the level Basic prints, for each composite contraction in range numbered 1, 2, ..., its rank and a drawing in which each elementary contraction is a bracket over exactly the columns of the legs it joins, each tensor a row marking the columns of its upper and lower indices, and the final position of each operator is its place among contracted legs followed by the remaining operators; the level Summary adds the table of the operators, the list of all elementary contractions numbered from 1, the composite contractions with the operators left over and their number, and for each contraction its sign, factors and term. The coefficient printed with the term is not the one in the result (it is multiplied by the coefficient before canonicalization once more), and step 2 numbers the contractions from 2 and the elementary ones from 0.", "quantifier": "all registries with at most 8 spaces, operator products, factors, rank windows, options and print levels", "why_tests_cant": "Output formats are only ever compared on a few cases by eye; that no level makes a call fail and that the drawing shows the contraction evaluated must hold for every product of operators.", "anchors": ["wicked/diagrams/wick_theorem.cc: PRINT, WickTheorem::contract", "wicked/diagrams/wick_theorem_helpers.cc: print_key, print_contraction, print_contraction_graph", "wicked/diagrams/wick_theorem_elementary_contractions.cc", "wicked/diagrams/wick_theorem_composite_contractions.cc: process_contraction", "wicked/diagrams/wick_theorem_process_contractions.cc", "wicked/diagrams/graph_matrix.cc: GraphMatrix::str, to_string"]}
{"id": "C72", "title": "Python object semantics of expressions: copies, aliases and iterators", "statement": "For every history of Python statements over Expression, SymbolicTerm, Term and rational objects (binding, +, -, @, *, unary -, adjoint, vacuum_normal_ordered, +=, canonicalize, iteration, changing a term, catching exceptions): every expression keeps its terms in strictly increasing order; a statement changes the value of a variable only if it binds it or changes in place the object the variable refers to or into; the operators bind a new object no other variable refers to, and so does x += y for an expression y; as long as no name is read whose object was changed in place by another name, the program behaves as if variables held values, and nothing dangles; iterating delivers the entries, each once, in order, then the end, if the expression is not changed meanwhile, and is still defined, ordered and complete if terms are only added. Not so otherwise: y = x; y += (t, c) changes x; x.canonicalize() changes x and returns x itself; the coefficient an iterator delivers is a view of the entry and dangles once the entry is cancelled; canonicalizing or cancelling the current entry inside a loop makes the next round undefined; adding ever larger terms inside a loop makes it endless.", "quantifier": "all registries, all finite histories of statements over any number of variables and objects, all terms, coefficients and exceptions caught in between", "why_tests_cant": "Aliasing and dangling references show only in particular interleavings of statements, and undefined behaviour often passes unnoticed in a test; that no history of a given kind has them needs an invariant.", "anchors": ["wicked/api/expression_api.cc: export_Expression", "wicked/api/term_api.cc: export_SymbolicTerm", "wicked/api/rational_api.cc: export_rational", "wicked/helpers/algebra.hpp: Algebra::operator+=, operator+, operator-, operator*", "wicked/helpers/helpers.h: add_to_map", "wicked/algebra/expression.cc: Expression::canonicalize"]}
{"id": "C73", "title": "Running the generated numpy program gives the product of the operators", "statement": "Take any expression of operator products (non-empty, at most 52 legs each), contract it, turn the result into many-body equations with to_manybody_equation(label) and compile each of them with compile(\"einsum\"). Every one of these statements can be read in exactly one way, numpy accepts it on arrays of the declared shapes, and running the statements of each key on a zero array gives arrays which, multiplied element by element by the operators that belong to their axes (those left of the bar of the key annihilated, those right of it created) and summed, are factor times the operator product: exactly if the coefficients have at most 9 decimals, otherwise up to the rounding of the coefficients (bounded). With rank 0 the only key is \"|\" and the scalar left in the variable is the expectation value of the product. The same holds with general spaces and a correlated reference. Keys of particle-number-conserving expressions name different arrays; other keys of one expression can share an array name.", "quantifier": "all registries with alphabetic space labels, operator expressions, tensors, numbers of orbitals, fields of characteristic 0, contraction results and memories", "why_tests_cant": "it composes the Wick engine, canonicalisation, the grouping into equations, the choice of einsum letters and the formatting of coefficients; a test checks one expression on one set of random arrays", "anchors": ["wicked/diagrams/wick_theorem.cc: WickTheorem::contract", "wicked/algebra/expression.cc: Expression::to_manybody_equation", "wicked/algebra/equation.cc: Equation::compile, get_unique_index", "wicked/utils.py: compile_einsum"]}
{"id": "C74", "title": "Contracting commutators and BCH series gives the similarity-transformed operator (coupled cluster)", "statement": "For sums of operator products A, B1, B2, ... contract(factor, commutator(A,B1,B2,...)) is factor times [...[[A,B1],B2],...] as operators, and contract(factor, bch_series(A,B,n)) is factor times A + [A,B] + [[A,B],B]/2! + ... + [...[A,B]...,B]/n!; with general spaces and a correlated reference as well. If B is a cluster operator (sums of products of excitations with an even number of legs) then B is nilpotent and for every n not smaller than the number of legs of A the series equals exp(-B) A exp(B) exactly. So for a two-body Hamiltonian H and any cluster operator T, contract(bch_series(H,T,4)) gives the coupled-cluster effective Hamiltonian (and, seen through projections on the ranks asked for, the amplitude equations), at rank 0 the energy <exp(-T) H exp(T)>, and the numpy program generated from it computes this number. The calls return without an exception up to 32 legs in each product.", "quantifier": "all operator expressions with antisymmetric tensors and at most two legs of a kind per space (any excitations in B), registries, ranks, orders n, fields of characteristic 0, orbital sets and representations of the operators", "why_tests_cant": "test_cc.py compares generated equations for CCSD with a reference; that the series is complete and that commutator, scaling by 1/k!, merging of products and contraction compose to the transformed operator for every H, T and order is a statement about all of them", "anchors": ["wicked/diagrams/operator_expression.cc: commutator, bch_series", "wicked/diagrams/wick_theorem.cc: WickTheorem::contract(scalar_t, const OperatorExpression &, int, int)", "wicked/algebra/equation.cc: Equation::compile"]}
{"id": "C75", "title": "The generated ambit statements compute the operator product", "statement": "For every result of WickTheorem.contract, the statements that Equation.compile(\"ambit\") produces for the many-body equations can be executed with the usual meaning of ambit's labeled tensors (block of a tensor from the first letters of its index names, repeated indices summed, += adds to the block on the left): distinct indices on the left, all of them on the right, matching dimensions. Starting from zero blocks the blocks computed, each element times the normal-ordered operators of its position, add up to factor times the input product (at rank 0 the expectation value), exactly if the coefficients have at most 6 decimals, otherwise up to half a unit of the 6th decimal and double rounding per term; also for general spaces and correlated references. The numpy program for the same expression computes the same arrays. Unlike einsum there is no limit on the number of indices.", "quantifier": "all operator expressions, ranks, registries with alphabetic labels, plain operator labels, numbers of orbitals, tensor elements, fields of characteristic 0", "why_tests_cant": "tests compare generated text; that executing the text yields the operator product for all inputs, and agrees with the numpy backend, relates text, tensor semantics and Wick's theorem for every input", "anchors": ["wicked/algebra/equation.cc: Equation::compile", "wicked/algebra/symbolic_term.cc: SymbolicTerm::compile", "wicked/algebra/tensor.cc: Tensor::compile", "wicked/algebra/index.cc: Index::compile", "wicked/algebra/expression.cc: Expression::to_manybody_equation", "wicked/diagrams/wick_theorem.cc: WickTheorem::contract"]}
{"id": "C76", "title": "Contracting rank by rank is contracting at once", "statement": "WickTheorem.contract(minrank, maxrank) on a smaller range of ranks returns exactly the terms of the result on a larger range whose number of operators is in the smaller range, with the same coefficients; conversely every result on the smaller range is that part of a result on the larger one, if the larger call can return. The results on [a, c] are exactly the sums (Expression +) of a result on [a, b] and one on [b+1, c]. All ranges from at most 0 to at least the number of operators of the product give the same outcomes, exceptions and undefined behaviour included. The same holds for sums of operator products.", "quantifier": "all registries, operator products and sums with non-negative legs, factors, ranges of ranks, maxcumulant, canonicalize_graph on or off, and all choices std::sort can make", "why_tests_cant": "tests call contract for particular ranges; that the range only selects, and never changes a term, a sign, a coefficient or a cancellation, is about every product and every pair of ranges", "anchors": ["wicked/diagrams/wick_theorem.cc: WickTheorem::contract", "wicked/diagrams/wick_theorem_composite_contractions.cc: generate_composite_contractions, process_contraction", "wicked/diagrams/wick_theorem_process_contractions.cc: process_contractions", "wicked/algebra/expression.cc: Expression::operator+="]}
{"id": "C77", "title": "Contracting the adjoint gives the adjoint", "statement": "For Hermitian tensors (exchanging lower and upper indices conjugates the elements), WickTheorem.contract of the adjoint of an operator product (OperatorProduct.adjoint) has as its value the adjoint of the value of contract of the product; with the complex-conjugate flag read as conjugation it has the value of Expression.adjoint of the first result. In every state, contract(factor, adjoint, 0, 0) is the complex conjugate of contract(factor, product, 0, 0), and the vacuum expectation value of a product that is its own adjoint is real. The same for ranges of ranks and for sums of products, with occupied, unoccupied and general spaces.", "quantifier": "all registries of fermionic spaces, operator products and sums, Hermitian antisymmetric tensors over every field of characteristic 0 with a conjugation, all representations of the creation and annihilation operators with an adjoint, finite orbital sets, factors, ranges of ranks and options", "why_tests_cant": "adjoint and contract share no code: adjoint reverses the operators and exchanges their creation and annihilation numbers, contract then runs on other graphs, signs and permutations; that the two agree is about every product and every tensor", "anchors": ["wicked/diagrams/operator.cc: Operator::adjoint", "wicked/diagrams/operator_expression.h: OperatorExpression::adjoint", "wicked/helpers/product.hpp: Product::adjoint", "wicked/algebra/expression.cc: Expression::adjoint", "wicked/algebra/symbolic_term.cc: SymbolicTerm::adjoint", "wicked/algebra/tensor.cc: Tensor::adjoint", "wicked/diagrams/wick_theorem.cc: WickTheorem::contract"]}
{"id": "C78", "title": "The numbering and the naming of the orbital spaces do not matter", "statement": "If the same orbital spaces are added in another order (or with other names or elementary spaces), then op with the same component strings makes the same operators and sums, counting each space by its new number; sums, differences, multiples, products, commutators and BCH series of the same sums are the same; and WickTheorem.contract of the same operator products has the same value: as operators, as the part of each rank, and as an expectation value. The same for sums of products and with occupied, unoccupied and general spaces.", "quantifier": "all pairs of registries of fermionic spaces with the same types up to a renumbering, component strings, operator products and sums, antisymmetric tensors over every field of characteristic 0, representations of the creation and annihilation operators, densities, finite orbital sets, factors, ranges of ranks, options and search orders", "why_tests_cant": "the order of the spaces changes the order of the graph matrices, of the elementary contractions, of the operators inside a vertex and with it every sign and permutation; a test compares two orders of a few spaces on a few products", "anchors": ["wicked/helpers/orbital_space.cc: OrbitalSpaceInfo::add_space", "wicked/diagrams/operator_expression.cc: make_diag_operator_expression", "wicked/diagrams/operator.cc: Operator::Operator", "wicked/diagrams/wick_theorem.cc: WickTheorem::contract"]}
{"id": "C79", "title": "Python objects of the OperatorExpression API: what changes in place and what does not", "statement": "The constructors, op, +, -, @ (and +=, -=, @=), adjoint, commutator and bch_series give an object that no other name shares and change no other name; only add, add2 and canonicalize change an object, and then under all its names; an exception changes nothing. A program that never reads a name whose object was changed by another name runs as if variables held values, but for x.add2(y, -1) with two names of one non-zero object, which is undefined. Whatever the program does, every operator expression keeps its products in order, each once, with non-zero coefficients in lowest terms, and nothing else is undefined but op, adjoint and printing where they are undefined themselves.", "quantifier": "all histories of statements, of any length and with any sharing of objects between names, with caught exceptions; all registries", "why_tests_cant": "it depends on which names share an object after an arbitrary history; a test runs a few statements on fresh objects, and an undefined step may look right", "anchors": ["wicked/api/operator_api.cc: export_OperatorExpression", "wicked/diagrams/operator_expression.cc: OperatorExpression::add2, canonicalize, operator+, operator-, operator*, commutator, bch_series", "wicked/helpers/algebra.hpp: Algebra"]}
{"id": "C80", "title": "Canonicalizing an operator sum before contracting it does not change the result", "statement": "For registries of fermionic spaces (occupied, unoccupied, and, with generalized normal ordering, general), the operators that OperatorExpression.canonicalize exchanges commute up to the sign it records, so canonicalize keeps the value of the sum; WickTheorem.contract applied to a sum and to its canonicalized form, with any options (the same largest cumulant), gives expressions of the same value in the range of ranks asked for, and so do any two sums with the same canonical form. With at most 32 legs in each product the contraction of the canonicalized sum does return.", "quantifier": "all such registries; all sums of products of valid operators with antisymmetric tensors in which no contraction can be repeated three times; all options, factors and ranges of ranks; all orbital sets, tensor elements and density cumulants", "why_tests_cant": "the two results have different terms with different index names; equality of their values must hold for every orbital set, tensor and product", "anchors": ["wicked/diagrams/operator_expression.cc: OperatorExpression::canonicalize", "wicked/diagrams/operator_product.cc: OperatorProduct::canonicalize", "wicked/diagrams/wick_theorem.cc: WickTheorem::contract"]}
