{
 "claims": [
  {
   "property": "C01",
   "status": "proved",
   "theorems": [
    "C01_gradient",
    "C01_gradient_general"
   ],
   "note": "exact real arithmetic; dom is the differentiability domain and excludes the node uses refuted under C16, C26, C32, C33, C35; the placeholders' own adjoints are C11"
  },
  {
   "property": "C02",
   "status": "proved",
   "theorems": [
    "C02_value"
   ],
   "note": "exact real arithmetic, dom: operands in the functions' domains"
  },
  {
   "property": "C03",
   "status": "proved",
   "theorems": [
    "C03_bind_memory_safe"
   ],
   "note": "for every arithmetic; guards wfs/ctor_ok exclude the uses refuted under C04 and C16"
  },
  {
   "property": "C04",
   "status": "partial",
   "theorems": [
    "C04_prod_refuted",
    "C04_opeq_refuted",
    "C04_overlap_refuted"
   ],
   "note": "refuted: the claim is false of the code; the theorems give the failing runs for every arithmetic"
  },
  {
   "property": "C05",
   "status": "proved",
   "theorems": [
    "C05_frame",
    "C05_evaluate_frame"
   ],
   "note": "for every arithmetic"
  },
  {
   "property": "C06",
   "status": "proved",
   "theorems": [
    "C06_repeatable",
    "C06_history_independent",
    "C06_autodiff_repeatable"
   ],
   "note": "for every arithmetic; guard disc: a placeholder is not assigned after it was used; history independence and repeated autodiff also with op="
  },
  {
   "property": "C07",
   "status": "proved",
   "theorems": [
    "C07_accumulate",
    "C07_no_placeholders"
   ],
   "note": "expressions may use = and op=; conclusions about variables the expression does not assign"
  },
  {
   "property": "C08",
   "status": "partial",
   "theorems": [
    "C08_refuted",
    "C08_law",
    "C08_settled",
    "C08_benchmark"
   ],
   "note": "Refuted: (w = x*y, w) differentiated twice without reset gives 3x, not 2x, because the adjoint left in the placeholder is passed on again. C08_law gives the exact effect of any number of calls with any seeds for every disciplined expression without op=; C08_benchmark solves it for the loop of benchmark/ad_benchmark.cpp (factor k(k+1)(k+2)/6 after k calls). Without placeholders adjoints do double (C07_no_placeholders)."
  },
  {
   "property": "C09",
   "status": "partial",
   "theorems": [
    "C09_seed_linear",
    "C32_seed_refuted"
   ],
   "note": "vector Cauchy nodes excluded: refuted for them (C32_seed_refuted: seed s adds s^2)"
  },
  {
   "property": "C10",
   "status": "proved",
   "theorems": [
    "C10_zero_seed",
    "C10_pow_exception"
   ],
   "note": "every variable, placeholders included; the exception is characterised: pow with a negative exponent at 0 passes -infinity whatever the seed"
  },
  {
   "property": "C11",
   "status": "proved",
   "theorems": [
    "C11_placeholder",
    "C11_value",
    "C11_adjoint",
    "C11_adjoint_general",
    "C11_adjoint_input"
   ],
   "note": ""
  },
  {
   "property": "C12",
   "status": "proved",
   "theorems": [
    "C12_opeq",
    "C12_restored",
    "C12_restored_exactly"
   ],
   "note": "C12_restored_exactly holds in every arithmetic"
  },
  {
   "property": "C13",
   "status": "proved",
   "theorems": [
    "C13_sequence",
    "C13_associative"
   ],
   "note": "Bound sequence indistinguishable from its statements bound separately and driven by the client in order (values, variables, adjoints), for every arithmetic, any interleaving of evaluate/autodiff/client steps, any length and nesting. Guards: wfs, ctor_ok."
  },
  {
   "property": "C14",
   "status": "partial",
   "theorems": [
    "C14_for_each_partial",
    "C14_sizes_refuted"
   ],
   "note": "for_each over a non-empty range and the left-nested comma chain give the same values and leave the same variables and adjoints, for every arithmetic and any interleaving of operations. Both must be well formed (an if_else in the middle is legal only in for_each). Refuted when the last statement's size differs from the first's: the node takes the first's size."
  },
  {
   "property": "C15",
   "status": "partial",
   "theorems": [
    "C15_branch_partial",
    "C15_refuted"
   ],
   "note": "Refuted in general: the backward pass re-reads the condition, so when the condition is a variable assigned by the selected branch, the branch that was never evaluated is differentiated (C15_refuted). Proved when the condition is a computed node or a constant: if_else is indistinguishable from the client evaluating the condition and then only one of the separately bound branches."
  },
  {
   "property": "C16",
   "status": "partial",
   "theorems": [
    "C16_operand_refuted",
    "C16_last_statement_refuted",
    "C16_densities_refuted",
    "C16_first_operand",
    "C16_sum"
   ],
   "note": "refuted: null dereference for every arithmetic and either branch. The log-densities fail already in evaluate for the operands they read through get(); sum over if_else works (C16_sum)."
  },
  {
   "property": "C17",
   "status": "proved",
   "theorems": [
    "C17_unary"
   ],
   "note": "all 15 functions; erf with the exact factor 2/sqrt(pi)"
  },
  {
   "property": "C18",
   "status": "proved",
   "theorems": [
    "C18_arith"
   ],
   "note": ""
  },
  {
   "property": "C19",
   "status": "partial",
   "theorems": [
    "C19_comparison",
    "C19_zero_one",
    "C19_array_logic_refuted"
   ],
   "note": "Values and absence of any gradient proved for every arithmetic (so for NaN and infinities), all operands whose right side contains no assignment. && and || of arrays are entrywise min and max, so not 0/1 unless the operands are (C19_array_logic_refuted; the header documents this restriction); proved 0/1 in all other cases."
  },
  {
   "property": "C20",
   "status": "proved",
   "theorems": [
    "C20_sum_elements",
    "C20_sum_range"
   ],
   "note": ""
  },
  {
   "property": "C21",
   "status": "proved",
   "theorems": [
    "C21_prod_elements",
    "C21_prod_range"
   ],
   "note": ""
  },
  {
   "property": "C22",
   "status": "partial",
   "theorems": [
    "C22_nonempty",
    "C22_vectors",
    "C22_empty_node",
    "C22_refuted",
    "C22_empty_vectors"
   ],
   "note": "Refuted: an empty product of constants is folded to 0 (prod.hpp uses var_t(0)), while the node's empty product is 1. Non-empty products of constants and empty products of expressions are right (proved). Scalar and vector elements; folded products of matrices do not compile."
  },
  {
   "property": "C23",
   "status": "proved",
   "theorems": [
    "C23_pow",
    "C23_pow_value"
   ],
   "note": ""
  },
  {
   "property": "C24",
   "status": "proved",
   "theorems": [
    "C24_dot",
    "C24_transpose",
    "C24_norm"
   ],
   "note": ""
  },
  {
   "property": "C25",
   "status": "proved",
   "theorems": [
    "C25_det",
    "C25_log_det"
   ],
   "note": "Eigen decompositions through the contract la_ok"
  },
  {
   "property": "C26",
   "status": "partial",
   "theorems": [
    "C26_refuted",
    "C26_det_singular",
    "C26_log_det_singular",
    "C26_ldlt_singular",
    "C26_log_ldlt_singular",
    "C26_llt_rejected"
   ],
   "note": "refuted: det passes no gradient at singular matrices LDLT (when its computed D is exact) and Cholesky behave likewise at matrices they reject: no gradient."
  },
  {
   "property": "C27",
   "status": "partial",
   "theorems": [
    "C27_meaning_partial",
    "C27_constant_partial",
    "C27_no_gradient",
    "C27_value_partial",
    "C27_gradient_partial",
    "C27_domain_partial",
    "C27_int_division_refuted",
    "C27_bool_sum_refuted",
    "C27_int_division_by_zero"
   ],
   "note": "Holds for every expression whose constant sub-expressions do no int division, no sum of bools and no type conversion in if_else (fexact). Refuted beyond that: comparisons of constants are bools, so folded divisions and sums of them are computed in int or bool. Not covered: transpose of a constant (does not compile), arithmetic on Eigen bool arrays."
  },
  {
   "property": "C28",
   "status": "partial",
   "theorems": [
    "C28_value_partial",
    "C28_gradient_partial",
    "C28_folded_refuted",
    "C28_cached_refuted"
   ],
   "note": "Holds for views that are operands of unfolded nodes other than log-densities. Refuted in general: a view below a folded constant node is frozen at construction, and log-density constructors cache functions of constant operands."
  },
  {
   "property": "C29",
   "status": "partial",
   "theorems": [
    "C29_forward_partial",
    "C29_forward_reverse"
   ],
   "note": "every function except erf, which is refuted (C30_refuted); programs with assignments, +=, fixed loops and branches on values"
  },
  {
   "property": "C30",
   "status": "partial",
   "theorems": [
    "C30_refuted",
    "C30_erf_law"
   ],
   "note": "refuted: the argument's adjoint is dropped"
  },
  {
   "property": "C31",
   "status": "proved",
   "theorems": [
    "C31_normal",
    "C31_multivariate",
    "C31_normal_ninf",
    "C31_multivariate_ninf"
   ],
   "note": ""
  },
  {
   "property": "C32",
   "status": "partial",
   "theorems": [
    "C32_cauchy_partial",
    "C32_cauchy_ninf",
    "C32_cauchy_seed",
    "C32_seed_refuted"
   ],
   "note": "refuted for seeds other than 1: vector nodes square the seed for location and part of scale; C32_cauchy_seed is the exact law for every seed"
  },
  {
   "property": "C33",
   "status": "partial",
   "theorems": [
    "C33_uniform_partial",
    "C33_uniform_ninf",
    "C33_stale_refuted"
   ],
   "note": "refuted for a constant x with a non-constant vector bound (bounds check frozen at construction)"
  },
  {
   "property": "C34",
   "status": "proved",
   "theorems": [
    "C34_bernoulli",
    "C34_bernoulli_ninf",
    "C34_bernoulli_clip"
   ],
   "note": "the gradient is componentwise: a component with 0<p<1 contributes even if another makes the value -infinity"
  },
  {
   "property": "C35",
   "status": "partial",
   "theorems": [
    "C35_wishart_partial",
    "C35_wishart_ninf",
    "C35_const_x",
    "C35_const_x_refuted"
   ],
   "note": "refuted for constant x with non-constant v (always -infinity); n constant, as wishart.hpp:25 asserts"
  },
  {
   "property": "C36",
   "status": "proved",
   "theorems": [
    "C36_no_interference"
   ],
   "note": "placeholders are not shared with other expressions; expressions with op= are differentiated but not evaluated (evaluate updates their variables)"
  },
  {
   "property": "C37",
   "status": "proved",
   "theorems": [
    "C37_copies",
    "C37_views"
   ],
   "note": "Storage model of Var (scalar, vector, matrix) refines plain value semantics for every legal history of constructions, copies, moves, assignments, writes and destructions; views held by expressions stay valid while the variable is neither moved nor destroyed."
  },
  {
   "property": "C38",
   "status": "partial",
   "theorems": [
    "C38_refuted",
    "C38_move_construct",
    "C37_views"
   ],
   "note": "Refuted for move assignment of vectors and matrices: an expression over the target keeps the old buffer and dangles once the source dies. Move construction and scalars are fine."
  },
  {
   "property": "C39",
   "status": "partial",
   "theorems": [
    "C39_refuted",
    "C39_move"
   ],
   "note": "Refuted: the copy's nodes point into the original's caches, so evaluating it after the original is destroyed is undefined (every compute-node root with non-empty value). While both live, any interleaving is memory safe; moving is fine."
  },
  {
   "property": "C40",
   "status": "proved",
   "theorems": [
    "C40_at",
    "C40_head",
    "C40_tail",
    "C40_assert",
    "C40_entry",
    "C40_entry_injective",
    "C40_gradient"
   ],
   "note": "Cells of sub-views are the parent's cells; reading and seeding touch exactly these. x(i,j) exists only as get(i,j) of matrix views."
  },
  {
   "property": "C41",
   "status": "partial",
   "theorems": [
    "C41_condition_refuted",
    "C41_zero_seed_refuted",
    "C01_gradient"
   ],
   "note": "Refuted: comparisons (hence conditions) and log-densities with seed 0 do not visit their operands, so a placeholder assigned there passes nothing on. Where every node on the path visits its operands (disc) C01_gradient holds."
  },
  {
   "property": "C42",
   "status": "partial",
   "theorems": [
    "C42_refuted",
    "C01_gradient"
   ],
   "note": "Refuted: the backward pass re-reads overwritten placeholders. C01_gradient holds when a placeholder is not assigned after it was used (disc)."
  },
  {
   "property": "C43",
   "status": "partial",
   "theorems": [
    "C43_refuted",
    "C01_gradient"
   ],
   "note": "Refuted for arrays: op= in the right operand restores the variable before the left operand's lazily evaluated seed is read. Scalars and first operands are within C01_gradient."
  },
  {
   "property": "C44",
   "status": "partial",
   "theorems": [
    "C44_sizes_checked_partial",
    "C44_densities_refuted",
    "C44_ranges_refuted",
    "C44_empty_refuted"
   ],
   "note": "Proved for nodes whose constructors check sizes (element-wise, dot, det, multivariate normal, assignments, if_else, scalar ranges, densities with one array operand). Refuted for log-densities with several array operands, Wishart, sum/prod over ranges of arrays, and a scalar with an empty vector."
  },
  {
   "property": "C45",
   "status": "proved",
   "theorems": [
    "C45_epoch",
    "C45_regression",
    "C45_network"
   ],
   "note": "constant views used inside log-density nodes must keep their contents (captured by constructors, C28)"
  },
  {
   "property": "C46",
   "status": "proved",
   "theorems": [
    "C46_black_scholes"
   ],
   "note": "exact real arithmetic"
  },
  {
   "property": "C47",
   "status": "partial",
   "theorems": [
    "C47_reset",
    "C47_weights",
    "C47_refuted"
   ],
   "note": "refuted: the example does not reset the placeholders' adjoints; row j of n gets weight (j+1)(n-j) in the gradient of b3. Holds with resets (C47_reset)."
  },
  {
   "property": "C48",
   "status": "proved",
   "theorems": [
    "C48_no_hidden_state",
    "C48_constructor_refuted"
   ],
   "note": "exact, in every arithmetic; under the assignment discipline disc; C48_constructor_refuted shows that the condition on what constructors read is needed (uniform density with constant x and variable vector bound)"
  },
  {
   "property": "C49",
   "status": "proved",
   "theorems": [
    "C49_wellformed",
    "C49_value",
    "C49_gradient"
   ],
   "note": "Substitution at the level of expressions; equality of values, variable values and adjoints of two bound expressions with independent histories. y is neither a constant nor an if_else (C16); adjoints of placeholders are zero before autodiff, as in C01."
  },
  {
   "property": "C50",
   "status": "proved",
   "theorems": [
    "C50_quadratic"
   ],
   "note": "Every size, matrix, point, seed and history."
  },
  {
   "property": "C51",
   "status": "proved",
   "theorems": [
    "C51_f",
    "C51_g",
    "C51_h"
   ],
   "note": "G for any number of variables."
  },
  {
   "property": "C52",
   "status": "proved",
   "theorems": [
    "C52_split",
    "C52_stages"
   ],
   "note": "The placeholders' own adjoints agree too (proved for one stage)."
  },
  {
   "property": "C53",
   "status": "proved",
   "theorems": [
    "C53_jacobian"
   ],
   "note": ""
  },
  {
   "property": "C54",
   "status": "proved",
   "theorems": [
    "C54_evaluate",
    "C54_autodiff"
   ],
   "note": "Fragment: + - * /, unary functions, pow with nonnegative exponent, sum, prod of elements, dot, transpose, norm, =, op=, for_each, glue. After autodiff, placeholders in programs that also use op= are not claimed."
  },
  {
   "property": "C55",
   "status": "proved",
   "theorems": [
    "C55_evaluate",
    "C55_autodiff",
    "C55_gradient",
    "C55_boxes"
   ],
   "note": "binary64 from Flocq, any rounding mode, any libm; C55_boxes: one run on boxes covers all doubles inside. Eigen sums and products may be taken in any order (redok)."
  },
  {
   "property": "C56",
   "status": "proved",
   "theorems": [
    "C56_enclosure",
    "C56_error"
   ],
   "note": "Same fragment; true function differentiable at the real point (dom). Enclosures of libm functions are a parameter assumed sound (soundB, soundR). Eigen sums and products may be taken in any order (redok)."
  },
  {
   "property": "C57",
   "status": "proved",
   "theorems": [
    "C57_forward",
    "C57_exact",
    "C57_enclosure"
   ],
   "note": "Comparisons must be decided by the run in the first arithmetic (`sure`); C57_exact and C57_enclosure are on the domain of C29, which excludes erf."
  },
  {
   "property": "C58",
   "status": "proved",
   "theorems": [
    "C58_second",
    "C58_hessian"
   ],
   "note": "pow, prod, erf, tanh/sinh/cosh, linear algebra, log-densities and if_else are outside the fragment `secx`. C58_hessian resets placeholders too (the example C58_unreset shows what happens otherwise) and assumes that = and op= do not both occur."
  },
  {
   "property": "C59",
   "status": "proved",
   "theorems": [
    "C59_main",
    "C59_forward",
    "C59_seeded",
    "C59_matrix",
    "C59_repeated",
    "C59_placeholder"
   ],
   "note": "The vector of C59_seeded, C59_repeated and C59_placeholder is not empty (scalar op empty vector is rejected by the shape rules). Placeholder adjoints are 0 before the call, as the README asks."
  },
  {
   "property": "C60",
   "status": "partial",
   "theorems": [
    "C60_scalar",
    "C60_kept",
    "C60_opeq_refuted",
    "C60_again",
    "C60_temporary_refuted"
   ],
   "note": "True for scalar expressions, and after the backward pass for array expressions whose root storage no op= touches (C60_kept). False as stated for arrays: op= at the root shows the restored old variable after autodiff (C60_opeq_refuted, with a witness), every call returns the same view so an earlier result shows the latest value (C60_again), and the result of differentiating a temporary bound expression dangles (C60_temporary_refuted). if_else roots are not covered by C60_kept and C60_again."
  },
  {
   "property": "C61",
   "status": "proved",
   "theorems": [
    "C61_chain",
    "C61_total",
    "C61_descent"
   ],
   "note": "Exact real arithmetic, on the domain of the nodes; curves and displacements leave the placeholders assigned with = alone; adjoints of assigned variables are zero before the call (as in C01)."
  },
  {
   "property": "C62",
   "status": "partial",
   "theorems": [
    "C62_refuted",
    "C62_range",
    "C62_order"
   ],
   "note": "refuted for binary nodes: operand references are read after both operands are evaluated; sums over ranges and op= read in turn"
  },
  {
   "property": "C63",
   "status": "partial",
   "theorems": [
    "C63_in_place",
    "C63_disciplined",
    "C63_refuted",
    "C63_refuted_any"
   ],
   "note": "proved when no target of = occurs in its own right side; refuted for w = sum{w, x}, w = prod{w, x} and w = transpose(w)"
  },
  {
   "property": "C64",
   "status": "partial",
   "theorems": [
    "C64_resolution",
    "C64_rejected",
    "C64_copy_refuted",
    "C64_copy_witness",
    "C64_alias_refuted",
    "C64_any"
   ],
   "note": "refuted: Var = Var and view = view compile to plain assignments, outside the expression; exactly when is C64_resolution/C64_rejected"
  },
  {
   "property": "C65",
   "status": "proved",
   "theorems": [
    "C65_opeq_nested",
    "C65_head_tail",
    "C65_for_each",
    "C65_matrix",
    "C65_range_sum"
   ],
   "note": "Any sizes; the sizes and numbers of the tests are instances."
  },
  {
   "property": "C66",
   "status": "partial",
   "theorems": [
    "C66_value",
    "C66_gradient_partial",
    "C66_uniform_refuted",
    "C66_normal_refuted"
   ],
   "note": "Refuted for three uniform forms and for the normal with a constant sample (undefined reductions). Holds for the rest; adjoints: normal and uniform (Cauchy ignores the seed, C32; Bernoulli has no derivative in the sample)."
  },
  {
   "property": "C67",
   "status": "partial",
   "theorems": [
    "C67_convert",
    "C67_converted",
    "C67_overload",
    "C67_uniform",
    "C67_double",
    "C67_density_refuted",
    "C67_symmetric",
    "C67_left",
    "C67_symmetric_refuted",
    "C67_wellformed",
    "C67_fold",
    "C67_fold_refuted"
   ],
   "note": "Conversion, one value type per expression, double with variables, agreement with the run-time shapes and with folding are proved. Refuted: operand order matters (BinaryNode inherits from the view over the left operand's type but names the one over the common type, so x * 2 compiles and 2 * x does not, nor does a folded comparison on the left); a log-density of int constants has value type int. Rejections inside Eigen are not modelled."
  },
  {
   "property": "C68",
   "status": "proved",
   "theorems": [
    "C68_sum",
    "C68_prod",
    "C68_sum_loop",
    "C68_prod_loop",
    "C68_regression",
    "C68_regression_loop",
    "C68_constant_sigma",
    "C68_constant_sigma_loop"
   ],
   "note": "loops: multiples of the gradient for the programs without placeholders; k(k+1)(k+2)/6 times it for the two with placeholders, whose adjoints the benchmark never resets (C08)"
  },
  {
   "property": "C69",
   "status": "proved",
   "theorems": [
    "C69_normal",
    "C69_normal_loop",
    "C69_make_cov",
    "C69_benchmark"
   ],
   "note": "finding: the benchmark's x and mu are zero (Random() is a static function whose result is dropped)"
  },
  {
   "property": "C70",
   "status": "proved",
   "theorems": [
    "C70_multi",
    "C70_one",
    "C70_one_loop",
    "C70_two",
    "C70_two_test"
   ],
   "note": "Real arithmetic, as for C58. The numeric expectations of multi_dimensional (five digits) are not re-derived; the closed forms are."
  },
  {
   "property": "C71",
   "status": "proved",
   "theorems": [
    "C71_law",
    "C71_adds_up",
    "C71_op_eq_refuted",
    "C71_safe",
    "C71_first_refuted",
    "C71_session"
   ],
   "note": "C71_law and C71_adds_up: real arithmetic, iterated products included (a pass overwrites a cached product with a zero factor, prod.hpp:89-96, and is shown to restore it). C71_safe: any arithmetic, every well-formed expression. C71_op_eq_refuted is the failure with += that the statement reports."
  },
  {
   "property": "C72",
   "status": "proved",
   "theorems": [
    "C72_jacobian_once"
   ],
   "note": "Real arithmetic; += and the like are excluded because the first pass undoes them (C71_op_eq_refuted)."
  }
 ]
}
