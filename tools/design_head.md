# A Rocq (Coq 8.16.1) model of fevangelista/wicked

## 1. Approach
* `rocq/theories/*Model.v`: executable (Gallina) transcription of the C++ and Python code, function by function; every
  definition cites the `/repo` file and lines it models and says where it simplifies.  No proofs in these files.
* `*Spec.v`: the independent vocabulary of the theorem statements (what a partition is, what the value of a term is, ...),
  written without the functions of the model that the theorem is about.
* `*Proofs*.v`: lemmas.  `*Props.v`: the property theorems `Cnn_name` only, each closed by `exact`, followed by
  `Print Assumptions` and by `Example Cnn_nonvacuous` (a concrete non-trivial case that meets the hypotheses).
* Where the English claim is false of the code the exact boundary is proved for all inputs, and the failure is a theorem
  `Cnn_..._refuted` with an explicit witness (or, where possible, for every input on the wrong side of the boundary).
* Outcomes: the `res` monad has `Ok`, `Throw` (C++ exception or `exit`), `UB` (out-of-range access, division by zero, signed
  overflow in the 64-bit model) and `NoFuel` (a loop of the model cut short; the theorems show a bound for which it does not occur).
* Nondeterminism is modelled by relations and quantified over: the order `std::sort` gives to ties, thread schedules,
  histories of calls on a `WickTheorem` object and on the orbital-space registry.
* Meaning of expressions: elements of an arbitrary associative algebra over an arbitrary field of characteristic 0
  (mathcomp `algType`), arbitrary tensor values with the declared symmetry, arbitrary finite lists of orbitals: all of them
  are universally quantified in the theorems (C22, C23, C26, C33, C35, C48, C61) and shown satisfiable (`C48_fock_space`, `C61_fock_space`).

## 2. Trusted base
* The Coq 8.16.1 kernel (and `vm_compute`/`native` conversion as used by `vm_compute` in examples).
* `Print Assumptions` says **"Closed under the global context"** for every property theorem: no axiom of the standard library
  is used, none is added, and no `Admitted`, `admit`, `Parameter` or section-less `Variable` occurs.  A checker that lists
  opaque module fields will show mathcomp's sealed definitions (`BigOp.bigop`, `Finite.EnumDef.enum`, `CardDef.card`,
  `FinfunDef.finfun`, `perm`, quotient and ssr `under` tags).  These are definitions sealed by module types inside
  mathcomp/Coq's ssreflect library, not axioms.
* Libraries: the Coq standard library and mathcomp (ssreflect, algebra).  No functor, module type, plugin or unsafe flag of our
  own.
* The faithfulness of the transcription, which is by hand.  It was checked by reading, by evaluating the models on examples
  from the repository's tests, and by the mutation log (`seeded/LOG.jsonl`).

## 3. What is modelled
| /repo file | modelled | model file |
|---|---|---|
| helpers/rational.{h,cc} | all arithmetic, comparison, reduce, str, make_rational_from_str, to_double, compile, repr; once over unbounded integers and once with checked 64-bit arithmetic | RationalModel, Rational64Model, TextModel, DecimalModel |
| helpers/combinatorics.cc | factorial, binomial, permutation_sign, integer_partitions | CombinatoricsModel, PartitionsModel |
| helpers/orbital_space.{h,cc} | all: add_space (C++ and Python), reset, lookups, label_to_space, op_symbol, index_label, str, to_dict | RegistryModel, TextModel, ExprTextModel, RegTextModel, PyEinsumModel |
| helpers/algebra.hpp, helpers.h (add_to_map), product.hpp | the vector space and product operations, dot, equality, norm (with rounding) | AlgebraModel, NormModel |
| helpers/helpers.cc | join, split, split_indices, findall, stoi | TextModel, ExprTextModel |
| algebra/index, sqoperator, tensor, term, symbolic_term | comparison, canonicalize, adjoint, reindex, products, remap, strings, LaTeX | CoreModel, SortModel, CanonModel, AdjointModel, RemapModel, TextModel, ExprTextModel, LatexModel |
| algebra/expression.cc | sums, products, adjoint, canonicalize, reindex, make_operator_expr, str, make_expression, to_manybody_equation | AlgebraModel, AdjointModel, CanonModel, EquationModel, ExprTextModel |
| algebra/{expression,symbolic_term}_normal_order.cc | all | NormalOrderModel |
| algebra/equation.cc | comparison, rhs_expression, str, latex, compile("einsum"), compile("ambit") | EquationModel, EqTextModel |
| diagrams/graph_matrix, operator, operator_product, operator_expression, contraction | all but the unused signature functions | OperatorModel, CoreModel, WickSearchModel, OpTextModel |
| diagrams/wick_theorem*.cc | contract on products and expressions, elementary and composite contractions, graph canonicalization, evaluation, combinatorial factor, threads, timers, object state, printed output (single-threaded) | NextPermModel, WickSearchModel, WickEvalModel, WickThreadModel, TraceModel |
| utils.py | string_to_expr | ExprTextModel |
| utils.py | gen_op | GenOpModel |
| utils.py | compile_einsum (and OrbitalSpaceInfo::to_dict) | PyEinsumModel |
@@MORE_MODELLED@@

### Simplifications (also stated at each definition)
* C++ `int` and `size_t` are `Z`/`nat` without overflow, except in Rational64Model and the 64-bit factorial/binomial of C07 and in
  the parsers, where `stoi` overflow is an exception.  `boost::multiprecision::int1024_t` is `Z` (numbers below 2^1024).
* `std::map` is a strictly sorted association list under the key's `operator<`; `std::set`/`std::sort` on a total order are
  the unique sorted list; with ties, every sorted rearrangement is a possible result.
* The global `orbital_subspaces` is an explicit argument; a space number outside the registry is UB.
* Loops without a structural bound take fuel; the theorems show a bound that suffices, or quantify over every outcome.
* `std::regex` is a backtracking matcher with the priorities of ECMAScript for the fragment used (classes, `*`, `+`, `?`,
  groups, sequences); characters are 8-bit ASCII in the "C" locale.
* Threads: one step is a read or a write of a shared location, sequentially consistent; the data race on the timers (undefined
  behaviour in C++) is shown reachable, so C45's equality is about the result under this semantics.

## 4. What is not modelled
@@NOT_MODELLED@@
* Floating point: the limits of the exponent of `double` (C65 and C68 model 53-bit significands with any exponent).
* pybind11 glue (argument conversion, docstrings), iostream buffering and the interleaving of `PRINT` output in multi-threaded mode, wall-clock content of timers (durations are
  arbitrary numbers in C46), memory exhaustion, numbers beyond 1024 bits.

## 5. Properties
For each: what is modelled and how it is proved.  Exact statements are in the files named; status and theorem lists are in `MANIFEST.json`.

| id | model / spec | theorems and method |
|---|---|---|
