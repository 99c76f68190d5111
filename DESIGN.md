# FastAD in Rocq: design

Source: `/repo/include/fastad_bits` (headers), read as text.  Every model
definition cites the lines it transcribes; simplifications are stated at the
head of the model file they concern.

## Reading order

| layer | files | contents |
|---|---|---|
| model | `Base Num Expr Node Stat Machine` | the reverse-mode engine over any arithmetic, with memory and undefined behaviour |
| model | `Ieee Ival` | binary64 (Flocq) as an instance of the arithmetic, checked dyadic numbers, boxes, intervals |
| model | `Fold` | the builder functions on constants (constant folding, C++ value types) |
| model | `Forward` | forward mode: `ForwardVar`, programs over it |
| model | `Own OwnBind Sub Views` | storage of `Var`, copies and moves of `ExprBind`, sub-views, what calls return |
| model | `InPlace Assign Empty Types` | evaluation into the target's own cells, overload resolution of `=`, empty samples, C++ value types of operands |
| model | `Hess FwdNum` | the loop of hessian.hpp; forward variables as an arithmetic of the reverse engine |
| client code | `Session Flow Train Calls Elim Progs ProgsB Bench BenchB BenchC Readme HessT Adj Split Jac` | any sequence of calls on a bound expression; programs the control-flow nodes are compared with |
| guards | `Wf Usage` | static conditions used in statements (`wfs`, `disc`, `refs`, `writes`, ...) |
| specification | `XR Spec Nudge Again RSess Grad Rules FSpec OwnSpec FoldSpec IeeeSpec IvalSpec HessSpec Frechet` | real numbers with infinities and NaN; denotation `den`/`val`, domain `dom`; partial derivatives; per-node laws; value semantics of variables |
| theorems | `Props*.v` | property theorems only, each `exact lemma`, with `Print Assumptions` and an `Example` meeting its hypotheses |
| proofs | `L*.v Pure Tape` | everything else |

## The model

* **Arithmetic** (`Num.v`).  The engine is written over a record `num` of
  operations (+, /, sin, comparisons, sums and products of lists, Eigen
  decompositions, ...).  Structural
  theorems (memory, layout, frame, repeatability, control flow) hold for *every*
  `num`, so also for IEEE doubles.  Value and gradient theorems are about the
  instance `XR`: exact reals extended with +inf, -inf, NaN.  Rounding, overflow
  and signed zeros are not modelled there.  `B64` is IEEE binary64 in any
  rounding mode with an arbitrary mathematical library; C55 says when a run in
  it agrees exactly with the reals (no extended precision, no FMA contraction).
  `Ival F` (Ival.v) is outward-rounded interval arithmetic, `F` enclosures of the
  mathematical functions; C56 bounds errors by it.
* **Eigen decompositions** (`linalg`, inside `num`): LU, LDLT, LLT, inverse and
  determinant are parameters; `la_ok` (Spec.v/LKM.v) is the contract the
  theorems assume (a determinant is the determinant, an inverse is an inverse,
  LLT succeeds exactly on positive definite matrices).  `exact_la_ok` shows the
  contract is satisfiable.
* **Memory** (`Base.v`).  `mem = block -> offset -> option value`; `None` is
  outside every allocation.  Block 0 holds variable values, 1 adjoints, 4 the
  buffers behind constant views, and every bound expression has its own value
  and adjoint block.  Null or out-of-range access, shape mismatch and failed
  asserts are the outcome `Err`.
* **Expressions** (`Expr.v`).  `EVar ECst ECvw EEq EOpEq EGlue EFor EIf` and
  `EComp k` for every node that computes a value from operands (`kd`: unary,
  binary, pow, sum, prod, dot, transpose, norm, det, log_det, 22 log-density
  nodes).  Annotations carry the view pointers (null until bound) and the
  caches of log-density nodes.
* **Engine** (`Machine.v`).  `mk` = constructors, `csize`/`single` =
  `bind_cache_size`, `bindc` = `bind_cache`, `feval`, `beval`, `evaluate`,
  `autodiff`.  Operands that are variables are re-read where the C++ re-reads
  them through its views.
* **Client** (`Session.v`, `RSess.v`).  `session u D e1 m1`: expression `u` was
  constructed and bound, then evaluated, differentiated and its variables,
  adjoints, buffers, even caches overwritten, any number of times, in any order.
  Theorems quantify over all sessions.
* **Forward mode**: dual numbers and straight-line/branching/looping client
  programs with assignment and `+=`.
* **Ownership**: a heap of allocations with the implicit and user-defined
  special members of `Var` (scalar, vector, matrix) and `ExprBind`.

## Not modelled

* `reverse/core/hessian.hpp` is commented out of `core.hpp` and uses an earlier
  interface; only its loop is modelled (`Hess.v`), as client code of the present one.
* C++ template dispatch: that the overloads chosen by the compiler are the ones
  modelled.  Exceptions: assignment between variables (`Assign.v`, C64), where the
  candidates and their ranking are modelled, and conversion and value types of
  operands (`Types.v`, C67), up to rejections inside Eigen.
* A `VarView` has two pointers, to values and to adjoints.  In the model they
  are one offset into blocks 0 and 1: two views share adjoint cells exactly when
  they share value cells, as views of `Var`s do.  Views built by hand over one
  value buffer and different adjoint buffers are not expressible.
* Eigen itself: seed expressions are lazy only in that they re-read the values
  of operands (`klazy`, Machine.v); decompositions are contracts.  `sum()` and `prod()` are operations of the
  arithmetic, i.e. any function of the list of numbers (in C++ the order may also
  depend on the alignment of the data and on compile-time types); C55 and C56
  assume only that they add or multiply in some order (`redok`).
* In-place accumulation: `SumIterNode` and `ProdIterNode` add into their own view
  and `TransposeNode` copies into it entry by entry; Machine.v stores the finished
  value.  InPlace.v models the former, and C63 shows that the two agree unless a
  target of = occurs in its own right side (`w = sum{w, x}`).  For such self
  references the element-wise nodes are taken to read before they write, which
  is exact when operand and target are the same view, not when views overlap
  partially.
* `long`/`int` overflow of `pow` exponents and of folded int constants.
* `ad::Expr` printing, unit tests; of the examples only `main.cpp`, `black_scholes.cpp` and
  the loss function of `ceres_3layer_neural_net`, of the tests the functions F,
  G, H of `ad_inttest.cpp`, those of `hessian_unittest.cpp` (HessT.v) and the
  five programs of `node_inttest.cpp` in ProgsB.v.
* min/max operand order of array `&&`/`||` with a scalar left operand (differs
  only for NaN and signed zero).

## Proof structure

1. *Binding* (`LBind`): `bindc` consumes `csize` and lays out views disjointly.
2. *Refinement* (`LSimF`, `LSimB`): the machine refines the pointer-free
   evaluators `pf`/`pb` (`Pure.v`), never reaches `Err`, and writes only inside
   its footprint.
3. *Capture* (`LTape`, `LTop`): under `disc` (no placeholder is assigned after it
   was used) `pf`/`pb` agree with a textbook tape `tf`/`tb` (`Tape.v`).
4. *State* (`LState`, `LNrm`, `LRest`): op= is undone exactly by the backward pass;
   what constructors cached never changes, all other
   node state is recomputed before use (`LHid`, `LCalls`: two copies that see the
   same data behave the same).
5. *Values* (`LVal`): over `XR` the tape's forward sweep computes `den`.
6. *Gradients* (`LScal`, `LKA`, `LKB`, `LKS`, `LMx`, `LMat`, `LKM`, `LGrad`): each
   kind's backward step is the transpose of the derivative of its denotation;
   by induction so is the whole backward sweep.  The induction is done for
   denotations whose assigned values may be nudged (`Nudge.v`), which gives the
   adjoint of every variable, placeholders included (`LNudge`, `LNGrad`).
7. *Client level* (`LDiff`, `LGrd`, `LPh`, `LNode`, `LInf`, `LFlow`-`LCmp`,
   `LFold*`).

Properties that are false of the code are kept as `..._refuted` theorems giving
a concrete failing run (often for every arithmetic), next to the strongest true
version.

## Properties

| property | modelled by | how / outcome |
|---|---|---|
| C01 gradient | Machine, Spec | induction on the expression (steps 1-6) |
| C02 value | Machine, Spec | steps 1-5 |
| C03 memory safety of binding | Machine, any `num` | steps 1-2 |
| C04 prod/op= under `=` | Machine, any `num` | **refuted**: runs reaching `Err`/overlapping views |
| C05 frame | Machine, any `num` | step 2 |
| C06 repeatability | Machine, any `num` | steps 2-4 |
| C07 accumulation | Session | from C01, induction on the number of calls |
| C08 forgotten reset doubles | Session, Again, Bench | **refuted**: factor 3, not 2; the law of k calls without reset (`C08_law`: LNGrad, induction on the calls) and its solution for the repository's benchmark loop |
| C09 linear in the seed | Session | from C01; **refuted** for vector Cauchy (C32) |
| C10 zero seed | Session | from C01; `C10_pow_exception` shows the one node that passes something with seed 0 outside the domain |
| C11 placeholders | Machine, Spec, Nudge | LPh, LNGrad |
| C12 op= | Machine, Spec; restoration in any `num` | LPh, LRest |
| C13 sequencing | Flow, any `num` | comparison with separately bound statements |
| C14 for_each | Flow, any `num` | normal form of statement lists; **refuted** when the last statement's size differs from the first's |
| C15 if_else | Flow, any `num` | comparison with the client's own branch; **refuted** when the branch assigns the condition |
| C16 if_else as operand | Machine, any `num` | **refuted**: null view in autodiff, for log-densities already in evaluate; works below sum and in the operands normal and Cauchy only read through feval's result |
| C17, C18, C20, C21, C23-C25 node laws | Node, Rules | per-kind calculus |
| C19 comparisons | Flow, any `num` | comparison with client; arrays `&&`/`||` **refuted** |
| C22 empty product | Fold | **refuted** for constants (0) |
| C26 det at singular matrices | Node | **refuted**: no gradient passed; the same for LDLT (when its D is exact) and Cholesky at matrices they reject (LSing) |
| C27 folding | Fold, FoldSpec | induction; int/bool arithmetic **refuted** |
| C28 constant views | Fold, Machine | induction; folded and cached views **refuted** |
| C29 forward mode | Forward, FSpec | induction on programs, also equality with reverse mode |
| C30 forward erf | Forward | **refuted** (chain-rule factor dropped) |
| C31-C35 log-densities | Stat, Rules | per-node calculus incl. constructor caches and -inf; Cauchy seeds, stale uniform bounds, Wishart constant X **refuted** |
| C36 several expressions | Grad (`sched`) | C01 plus frame |
| C37 Var copies | Own, OwnSpec | refinement of value semantics for all histories |
| C38 Var moves | Own | **refuted** for move assignment |
| C39 copies of ExprBind | OwnBind | **refuted** (copy's nodes point into the original) |
| C40 sub-views | Sub | direct, and C01 for the gradient |
| C41 assignment inside any sub-expression | Machine | **refuted** (conditions, comparison operands, log-densities with seed 0 are not visited backwards); discipline `disc` in C01 |
| C42 reassigned placeholders | Machine | **refuted** (the backward pass re-reads the overwritten value); discipline `disc` in C01 |
| C43 op= as any operand | Machine | **refuted** for arrays (seeds are lazy Eigen expressions); discipline in C01 |
| C44 size checks | Machine (`kassert` vs `kshape_ok`), Usage | successful construction implies C03's guard, for nodes that check; **refuted** for vector log-densities, Wishart, ranges, scalar with empty vector |
| C45 loop over data | Train | from C01, induction on the rows; README regression and network as instances |
| C46 Black-Scholes example | Train | C01 and calculus of the normal distribution |
| C47 Ceres example | Train, Nudge | **refuted**: placeholders' adjoints are not reset; right with resets |
| C48 no hidden state | Machine, Calls | seeds and values of two runs agree (`LHid`): the tapes differ only in node state the backward pass does not look at; **refuted** without the condition on the uniform density's constructor |
| C49 placeholder elimination | Elim, Spec | substitution lemma for the denotation and its region (`LElim`), then C01/C02 for both expressions |
| C50 quadratic form (README) | Progs | C01 and the derivative of the double sum |
| C51 integration-test functions | Progs | C01; G for any number of variables |
| C52 splitting at placeholders | Split | induction over the stages; C01/C02 for each part, C11 and uniqueness of derivatives to combine them |
| C53 Jacobian by unit seeds | Jac | induction over the rows, C01 for each |
| C54 numbers are abstract | Ieee (`arithx`, `prel`, `mrel`) | the two tapes of the runs are related (LParam, induction over the expression; fragment below), LTop takes the machines to the tapes |
| C55 exact results in double | Ieee (`B64`, `Dyad`, `Boxes`), IeeeSpec | C54 between boxes, checked dyadic numbers, binary64 (Flocq) and the reals; sums and products exact in every order (LDyad); C01 for the true gradient |
| C56 error bounds | Ival (`Ival`), IvalSpec (`within`, `soundB`, `soundR`) | C54 between intervals and binary64, and between intervals and the reals (LIval: outward rounding against Flocq's rounding; LRed: error of a sum or product taken in any order); C01 for the true gradient |
| C57 forward mode in double | FwdNum (`sure`: every comparison made is decided, `brel`) | LFwdNum: induction over the program; the arithmetics of C55 and C56; C29 for the true derivative |
| C58 second derivatives | Hess (`Duo`: ForwardVar as arithmetic, `hess`: the loop of hessian.hpp), HessSpec | LCurve: an arithmetic of differentiable curves, related to `Duo` (value and derivative at 0) and to the reals at every small time; LSome: within the domain every number of the run is a curve; C01 at every point of the curve |
| C59 README and main.cpp programs | Readme | C01 and the derivatives of the closed forms (LReadme) |
| C60 returned views | Views (evaluate/autodiff returning the Eigen::Map, temporaries) | scalars and kept roots proved; **refuted** for op= roots, earlier results, temporaries (LViews, LViewR) |
| C61 total derivative | Frechet (l1 norm, `total_derivative`) | chain rule along curves from the gradient induction (LChain), Frechet by Bolzano-Weierstrass (LFrechet) |
| C62 operand order | Machine | **refuted** for binary nodes whose operands assign the same placeholder, in every arithmetic (LDisc, LDiscR); ranges and op= proved |
| C63 in-place evaluation | InPlace | two evaluators agree in every session when no target occurs in its own right side (LInPlace: frame and layout); **refuted** for `w = sum{w, x}`, `w = prod{w, x}`, `w = transpose(w)` (LInPlaceR) |
| C64 assigning a variable | Assign (overload resolution) | resolution by case analysis (LAssign); **refuted**: EqNode's static_assert against `w = x` is not reached for Var = Var or views; the assignment copies once or aliases, so x gets no gradient (frame theorem) or w += changes it |
| C65 op=/for_each/matrix programs of node_inttest.cpp | ProgsB | C01 for each program, with the value computed for any size by induction over the statements (LProgsB, LProgsC) |
| C66 empty samples | Empty | value and gradient from C01/C02 (LEmpty); **refuted** for the uniform forms with a scalar end and for a constant normal sample, by running the model over any arithmetic |
| C67 types of operands | Types | static typing of expressions; induction on sub-expressions and case analysis on node kinds (LTypes), compared with `shape_of` and `build`; **refuted**: `2 * x` does not compile although `x * 2` does; a density of ints is an int |
| C68 benchmark programs | BenchB | C01 for each program, sums and products over ranges by induction (LBenchB); loops from C07, with placeholders from C08's law (LBenchD) |
| C69 normal benchmark | BenchC | C01 and C07 at the multivariate node with single-cell curves (LBenchC); L L' positive definite by back substitution, its determinant by Laplace expansion and multiplicativity |
| C70 Hessian test | HessT | C58 and derivatives of the closed forms (LHessT) |
| C71 evaluate_adj repeated | Adj | a backward pass changes adjoints only, an iterated product with a zero factor being overwritten and restored (LAdjK: KR_all; LAdj: beval_kp without products), so the cached values stay those of the one evaluation; each pass is the pure backward pass of an autodiff from the current adjoints (LAdjR); safety also with iterated products, whose rewritten caches still satisfy the cache invariant for some tape (LAdjP: KS_all) |
| C72 Jacobian from one evaluate | Jac (jac_once) | induction over the outputs with the one-pass lemma of C71 (LAdjK: adj_stepK) and its law from zero adjoints (LAdjR: rows_loop) |

C54-C56 are about a fragment (`arithx`): not in it are the product over a range
(its adjoints recompute with other tests against zero), pow with negative
exponent, comparisons and if_else, det, log_det and the log-densities.

MANIFEST.json lists the theorems of each property and what is missing.

## Wrong-program tests

`seeded/LOG.jsonl`: edits of the model in a scratch copy, the lemmas that stopped
proving and the property theorems that rest on them (`theorems_failed`; found by
following the uses of the failed lemma for the entries F.. and from M37 on).

## Trusted base

* Coq 8.16.1's kernel.
* Axioms, all from Coq's standard library, as printed by `Print Assumptions`
  under each theorem: `ClassicalDedekindReals.sig_forall_dec` (A),
  `ClassicalDedekindReals.sig_not_dec` (B),
  `FunctionalExtensionality.functional_extensionality_dep` (F),
  `Classical_Prop.classic` (C) and
  `ClassicalEpsilon.constructive_indefinite_description` (D).  A, B and F come
  with the real numbers, C and D with Coquelicot's derivatives and the matrix
  proofs (LMx, LKM).  Theorem by theorem:
  * **none** (74): C03_bind_memory_safe, C04_opeq_refuted,
    C04_overlap_refuted, C04_prod_refuted, C05_evaluate_frame, C05_frame,
    C06_autodiff_repeatable, C06_history_independent, C06_repeatable,
    C12_restored_exactly, C13_associative, C13_sequence, C14_for_each_partial,
    C14_sizes_refuted, C15_branch_partial, C15_refuted, C16_densities_refuted,
    C16_first_operand, C16_last_statement_refuted, C16_operand_refuted,
    C16_sum, C19_array_logic_refuted, C19_comparison, C19_zero_one,
    C22_empty_vectors, C22_refuted, C27_no_gradient, C37_copies, C37_views,
    C38_move_construct, C38_refuted, C39_move, C39_refuted, C40_assert,
    C40_at, C40_entry, C40_entry_injective, C40_gradient, C40_head, C40_tail,
    C44_densities_refuted, C44_empty_refuted, C44_ranges_refuted,
    C44_sizes_checked_partial, C48_constructor_refuted, C48_no_hidden_state,
    C54_autodiff, C54_evaluate, C57_forward, C60_again, C60_temporary_refuted,
    C62_order, C63_disciplined, C63_refuted_any, C64_any, C64_copy_refuted,
    C64_rejected, C64_resolution, C66_normal_refuted, C66_uniform_refuted,
    C67_convert, C67_converted, C67_density_refuted, C67_double, C67_fold,
    C67_fold_refuted, C67_left, C67_overload, C67_symmetric,
    C67_symmetric_refuted, C67_uniform, C67_wellformed, C71_first_refuted,
    C71_safe.
  * **F** (1): C63_in_place.
  * **A, F** (1): C56_error.
  * **A, B, F, C** (28): C08_refuted, C08_settled, C10_pow_exception,
    C11_adjoint_input, C22_nonempty, C22_vectors, C27_bool_sum_refuted,
    C27_int_division_by_zero, C27_int_division_refuted, C28_cached_refuted,
    C29_forward_partial, C30_erf_law, C30_refuted, C41_condition_refuted,
    C41_zero_seed_refuted, C42_refuted, C43_refuted, C49_wellformed,
    C55_autodiff, C55_evaluate, C59_forward, C62_range, C62_refuted,
    C63_refuted, C64_alias_refuted, C64_copy_witness, C71_op_eq_refuted,
    C71_session.
  * **A, B, F, C, D** (124): C01_gradient, C01_gradient_general, C02_value,
    C07_accumulate, C07_no_placeholders, C08_benchmark, C08_law,
    C09_seed_linear, C10_zero_seed, C11_adjoint, C11_adjoint_general,
    C11_placeholder, C11_value, C12_opeq, C12_restored, C17_unary, C18_arith,
    C20_sum_elements, C20_sum_range, C21_prod_elements, C21_prod_range,
    C22_empty_node, C23_pow, C23_pow_value, C24_dot, C24_norm, C24_transpose,
    C25_det, C25_log_det, C26_det_singular, C26_ldlt_singular,
    C26_llt_rejected, C26_log_det_singular, C26_log_ldlt_singular,
    C26_refuted, C27_constant_partial, C27_domain_partial,
    C27_gradient_partial, C27_meaning_partial, C27_value_partial,
    C28_folded_refuted, C28_gradient_partial, C28_value_partial,
    C29_forward_reverse, C31_multivariate, C31_multivariate_ninf, C31_normal,
    C31_normal_ninf, C32_cauchy_ninf, C32_cauchy_partial, C32_cauchy_seed,
    C32_seed_refuted, C33_stale_refuted, C33_uniform_ninf,
    C33_uniform_partial, C34_bernoulli, C34_bernoulli_clip,
    C34_bernoulli_ninf, C35_const_x, C35_const_x_refuted, C35_wishart_ninf,
    C35_wishart_partial, C36_no_interference, C45_epoch, C45_network,
    C45_regression, C46_black_scholes, C47_refuted, C47_reset, C47_weights,
    C49_gradient, C49_value, C50_quadratic, C51_f, C51_g, C51_h, C52_split,
    C52_stages, C53_jacobian, C55_boxes, C55_gradient, C56_enclosure,
    C57_enclosure, C57_exact, C58_hessian, C58_second, C59_main, C59_matrix,
    C59_placeholder, C59_repeated, C59_seeded, C60_kept, C60_opeq_refuted,
    C60_scalar, C61_chain, C61_descent, C61_total, C65_for_each,
    C65_head_tail, C65_matrix, C65_opeq_nested, C65_range_sum,
    C66_gradient_partial, C66_value, C68_constant_sigma,
    C68_constant_sigma_loop, C68_prod, C68_prod_loop, C68_regression,
    C68_regression_loop, C68_sum, C68_sum_loop, C69_benchmark, C69_make_cov,
    C69_normal, C69_normal_loop, C70_multi, C70_one, C70_one_loop, C70_two,
    C70_two_test, C71_adds_up, C71_law, C72_jacobian_once.
* The reading of the C++ source recorded in the model files, and the list "Not
  modelled" above.
