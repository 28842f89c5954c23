{
 "C04": {
  "note": "The natural claim (always ==) is false of the code; the exact boundary is proved (C04_div_eq_pos) with refutations."
 },
 "C11": {
  "note": "Holds for a duplicate label; refuted by witness for the other rejected calls."
 },
 "C14": {
  "note": "Exact for nonzero scalars; the claim for zero is false of the code (C14_scale_zero_refuted)."
 },
 "C17": {
  "note": "Equality characterised; the claim is false of the code (flags ignored): C17_flags_merged_refuted."
 },
 "C25": {
  "note": "All involution, product and sum laws; the product law fails for Expression (tensors keep their order): C25_expression_product_refuted."
 },
 "C27": {
  "note": "Characterises every outcome; the natural safety claim is refuted by C27_no_collision_refuted."
 },
 "C29": {
  "note": "Proved under the stated condition; idempotence and uniqueness in general are refuted."
 },
 "C30": {
  "note": "Terms as requested; the coefficient is dropped by the code: C30_coefficient_ignored, C30_coefficient_refuted."
 },
 "C31": {
  "note": "Expression::reindex returns its argument for every map (C31_reindex_identity), so the claim is refuted; the term-level function is correct."
 },
 "C33": {
  "note": "Fermionic operators in full; the sign for bosonic operators is refuted."
 },
 "C34": {
  "note": "True for products of mutually commuting operators, refuted in general."
 },
 "C41": {
  "note": "Exact iff no contraction occurs more than twice; general ratio proved; refuted otherwise."
 },
 "C43": {
  "note": "Sign unique unless an odd operator is repeated, then refuted."
 },
 "C46": {
  "note": "Bounds for every schedule; lost update and data race shown reachable."
 },
 "C48": {
  "note": "Fermionic occupied/unoccupied spaces, multiplicities at most two (beyond that the weight of C41 is wrong)."
 },
 "C49": {
  "note": "Nothing lost up to the operator order and the key separator, both refuted in general."
 },
 "C53": {
  "note": "Holds for different positions; the clash inside B is refuted by witness."
 },
 "C54": {
  "note": "Holds if no registered name has the generic form; refuted otherwise."
 },
 "C57": {
  "note": "Round trip with the boundary characterised: every glued first coefficient is misread."
 },
 "C60": {
  "note": "The natural claim (every equation compiles) is false of the code: C60_nonscalar_refuted; exact success condition for scalars."
 },
 "C59": {
  "note": "The natural claim (numpy accepts every statement) is false (C59_accepted_refuted); exact condition proved. The decimal text of the factor is a parameter."
 },
 "C58": {
  "note": "diagonal=False drops only components with all legs in one space (C58_diagonal_refuted)."
 },
 "C61": {
  "note": "Fermionic spaces, multiplicities at most two (beyond that the weight of C41 is wrong); the cumulants have no limit on their order."
 },
 "C62": {
  "note": "Faithful up to the listed losses, each shown by a refutation."
 },
 "C63": {
  "note": "Operators with Greek names are excluded from the LaTeX claim only (C62 shows they clash with the density matrices)."
 },
 "C64": {
  "note": "The statement does not show which indices are upper and which lower (C64_ambit_positions_refuted); without right-hand tensors it is not a statement (C64_ambit_empty_refuted). The decimal text of the factor is C65."
 },
 "C65": {
  "note": "Refuted expectations: C65_zero_refuted (1/13! is compiled to 0.000000000 by einsum and -1/10! to -0.000000 by ambit), C65_distinct_refuted, C65_to_double_refuted (numerators above 2^53)."
 },
 "C66": {
  "note": "Negative counts (accepted by the constructor) are not shown (C66_negative_refuted); a label with braces can imitate a product (C66_label_refuted)."
 },
 "C67": {
  "note": "The text does not show the elementary spaces (C67_elementary_refuted) and a name with a comma looks like two (C67_names_refuted). After a rejected call the label is left behind: C11."
 },
 "C68": {
  "note": "The range of the exponent of double is not modelled (no overflow, no subnormal numbers). std::sqrt is taken to be correctly rounded (IEEE 754)."
 },
 "C69": {
  "note": "Undefined cases are theorems with the suffix _refuted (they hold for every non-empty object, not only one witness). In Python `e -= e` is safe because __sub__ copies its left operand; add2 is the call that passes one object twice."
 },
 "C70": {
  "note": "C70_triple_refuted shows the claim 'contract(f, ops, 0, 0) is the expectation value' to be false without the bound of C48."
 },
 "C71": {
  "note": "Output of the multi-threaded mode (interleaving) and the content of the levels Detailed and All beyond 'computed without failure, inserted into the lower level' are not specified. C71_term_refuted and C71_numbering_refuted record two defects of the printed text."
 },
 "C72": {
  "note": "Assumed of pybind11 and the C++ library, which are not part of /repo: an argument taken by value is a copy; returning a reference to an object Python already holds returns that Python object; py::make_iterator hands out references to map nodes and keeps the expression alive; changing the key of a std::map is undefined; the end iterator of a map survives assignment. Reading a dangling operand is taken to be undefined also where the bindings would raise a type error first. C72_alias_refuted, C72_canonicalize_refuted, C72_canonicalize_in_loop_refuted, C72_coefficient_refuted and C72_endless_refuted record what fails."
 },
 "C73": {
  "note": "C73 composes the models end to end. Modelled: the text of the statements, numpy's einsum on arrays over an arbitrary field (EinsumSpec.v), += on named arrays. Not modelled: floating-point arithmetic of numpy and the optimize argument. program_data (the arrays hold the tensors' elements) and reads_numbers (decimals are read as they are) are the assumptions about the environment; C73_reader and C73_nonvacuous meet them. C73_names_refuted: array names of different keys can coincide, so the keys' programs have to be run separately."
 },
 "C74": {
  "note": "wf is what every operator expression built through the API satisfies (sorted, canonical non-zero coefficients, C12). twice_at_most / never_thrice exclude operators that can be contracted three times in the same way (see the C48 findings); C74_pairs: two-body operators and arbitrary excitations satisfy it. The multireference statement needs at most two legs of a kind in each space also for B. C74_exact is about the series itself; C74_similarity_transform about its contraction."
 },
 "C75": {
  "note": "The text has no quotes around index names; it is read as the labeled-tensor notation it stands for (EqTextSpec.v), not as C++. As in C73 the statements of each key run on their own block; keys of one expression can share a block name (C73_names_refuted). The contraction theorem's conditions on the input are those of C48/C61."
 },
 "C76": {
  "note": "Results are compared as outcomes of a relation, because std::sort may leave a choice between equivalent graphs or tensors: the converse direction gives some outcome on the larger range with the given part."
 },
 "C77": {
  "note": "Values are compared, not terms: the terms of the two results correspond only up to the antisymmetry of the tensors and the names of the indices. General spaces: no contraction can be carried out three times (as in C61), for the product and for its adjoint."
 },
 "C78": {
  "note": "Values are compared, not terms. Names enter only through op. General spaces: no contraction can be carried out three times in either registry (as in C61)."
 },
 "C79": {
  "note": "Facts about pybind11 used: by-value arguments are copies, results by value are new objects, x += y falls back on __add__. Scalars and operator products are constants (C72 has rationals as objects). Names bound to other Python types count as unbound."
 },
 "C80": {
  "note": "Fermionic spaces only; for bosons the recorded sign is wrong (C33_boson_sign_refuted). Contractions that can be repeated three or more times are excluded as in C74 (see C70)."
 }
}