{"id": "C01", "title": "autodiff adds the exact gradient", "statement": "For every bound expression built from the public expression builders whose placeholders are assigned before they are read, autodiff(expr, seed) adds to the adjoint of every variable cell exactly the sum over result components k of seed_k times the partial derivative of component k with respect to that cell, provided every intermediate value lies in the differentiability domain of the function applied to it and the adjoints of assigned placeholders start at zero.", "quantifier": "all expression trees (any depth, any mix of nodes, scalar/vector/matrix of any size, shared variables), all variable values in the domain, all seeds, all initial adjoints and all initial cache contents", "why_tests_cant": "Unit tests check one node type at a few points; the chain rule over arbitrary nesting, sharing and broadcasting ranges over infinitely many trees and values.", "anchors": ["include/fastad_bits/reverse/core/eval.hpp: autodiff, evaluate_adj", "include/fastad_bits/reverse/core/unary.hpp: UnaryNode::beval", "include/fastad_bits/reverse/core/binary.hpp: BinaryNode::beval", "include/fastad_bits/reverse/core/var_view.hpp: VarView::beval", "include/fastad_bits/reverse/core/glue.hpp", "include/fastad_bits/reverse/core/eq.hpp", "include/fastad_bits/reverse/core/bind.hpp"]}
{"id": "C02", "title": "evaluate returns the value of the mathematical expression", "statement": "For every bound expression, evaluate(expr) (and the value returned by autodiff) is the value of the mathematical function the expression denotes at the current variable values, whatever the cache contained before.", "quantifier": "all expression trees, all variable values in the domain, all previous cache contents", "why_tests_cant": "Correctness for arbitrary nesting, broadcasting and stale caches cannot be enumerated.", "anchors": ["include/fastad_bits/reverse/core/eval.hpp: evaluate", "include/fastad_bits/reverse/core/unary.hpp: feval", "include/fastad_bits/reverse/core/binary.hpp: feval", "include/fastad_bits/reverse/core/sum.hpp", "include/fastad_bits/reverse/core/prod.hpp", "include/fastad_bits/reverse/core/dot.hpp"]}
{"id": "C03", "title": "Cache binding is memory safe", "statement": "For every expression, bind_cache_size() is exactly the amount of storage bind_cache() hands out, every location read or written by evaluate/autodiff lies inside that storage or inside the variables' own storage, and no two nodes' cached results overlap.", "quantifier": "all expression trees of every node type, all sizes, all values (including non-finite ones), all arithmetic", "why_tests_cant": "An out-of-bounds write or an overlap shows only for particular nestings (and often silently); tests bind a few fixed shapes.", "anchors": ["include/fastad_bits/reverse/core/bind.hpp: ExprBind", "include/fastad_bits/reverse/core/unary.hpp: bind_cache", "include/fastad_bits/reverse/core/binary.hpp: bind_cache", "include/fastad_bits/reverse/core/eq.hpp: bind_cache, bind_cache_size", "include/fastad_bits/reverse/core/prod.hpp: ProdElemNode::bind_cache", "include/fastad_bits/reverse/core/value_adj_view.hpp: bind"]}
{"id": "C04", "title": "Placeholder over prod(vector) or over op= stays inside the cache", "statement": "Binding `w = prod(v)` or `w = (v += x)` reserves all the storage the right-hand side needs, so autodiff writes only inside the bound cache.", "quantifier": "all such assignments, all vector sizes", "why_tests_cant": "The out-of-bounds write lands in allocator slack for small sizes, so a passing test proves nothing.", "anchors": ["include/fastad_bits/reverse/core/eq.hpp: EqNode::bind_cache (lines 119-154)", "include/fastad_bits/reverse/core/prod.hpp: ProdElemNode::bind_cache, single_bind_cache_size", "include/fastad_bits/reverse/core/eq.hpp: OpEqNode::bind_cache"]}
{"id": "C05", "title": "Only the expression's own storage, its variables' adjoints and its placeholders change", "statement": "Evaluating or differentiating a bound expression changes no memory other than its own cache, the values of variables it assigns (=, op=) and the adjoints of variables occurring in it; in particular unrelated variables, other bound expressions' caches and the values of variables that are only read are untouched.", "quantifier": "all expression trees, all memories, all arithmetic", "why_tests_cant": "Absence of side effects on every other object can only be sampled by tests.", "anchors": ["include/fastad_bits/reverse/core/eval.hpp", "include/fastad_bits/reverse/core/var_view.hpp: beval", "include/fastad_bits/reverse/core/eq.hpp", "include/fastad_bits/reverse/core/bind.hpp"]}
{"id": "C06", "title": "Evaluation is repeatable", "statement": "Evaluating a bound expression without op= repeatedly, with unchanged variables, returns the same value every time and leaves all adjoints unchanged; for expressions whose placeholders are assigned before use the result does not depend on the placeholders' or the cache's previous contents.", "quantifier": "all expression trees without op=, all histories of previous evaluations", "why_tests_cant": "History-independence quantifies over all previous cache contents.", "anchors": ["include/fastad_bits/reverse/core/eval.hpp: evaluate", "include/fastad_bits/reverse/core/unary.hpp: feval", "include/fastad_bits/reverse/core/sum.hpp: SumIterNode::feval", "include/fastad_bits/reverse/core/prod.hpp: ProdIterNode::feval"]}
{"id": "C07", "title": "Adjoints accumulate additively over repeated differentiation", "statement": "For an expression without placeholders, n successive calls of autodiff with seeds s1..sn leave every adjoint increased by (s1+...+sn) times the gradient; with placeholders the same holds if the placeholders' adjoints are reset between calls.", "quantifier": "all expressions, all numbers of calls, all seeds", "why_tests_cant": "Unbounded number of calls and seeds.", "anchors": ["include/fastad_bits/reverse/core/eval.hpp: autodiff", "include/fastad_bits/reverse/core/var_view.hpp: beval, reset_adj", "README.md: note on resetting adjoints"]}
{"id": "C08", "title": "Forgetting to reset placeholder adjoints double-counts", "statement": "Claim to be decided: differentiating twice an expression with placeholders, without resetting anything in between, doubles all adjoints.", "quantifier": "all expressions with placeholders", "why_tests_cant": "Tests never differentiate twice without reset; the library documents a reset requirement, the exact effect is what users must know.", "anchors": ["include/fastad_bits/reverse/core/eq.hpp: EqNode::beval", "README.md: note on resetting adjoints"]}
{"id": "C09", "title": "The gradient is linear in the seed", "statement": "The adjoint increment produced by evaluate_adj / autodiff for seed a*s+b*t is a times the increment for s plus b times the increment for t, for every node including all log-density nodes.", "quantifier": "all expressions, all seeds", "why_tests_cant": "Tests use the seed 1 almost everywhere.", "anchors": ["include/fastad_bits/reverse/core/eval.hpp: evaluate_adj", "include/fastad_bits/reverse/core/binary.hpp: beval", "include/fastad_bits/reverse/stat/cauchy.hpp: beval", "include/fastad_bits/reverse/stat/normal.hpp: beval"]}
{"id": "C10", "title": "A zero seed changes no adjoint of a variable", "statement": "Backward evaluation with seed 0 leaves all adjoints unchanged wherever all values are in the domain (placeholders' adjoints being zero); pow with a negative exponent at 0 is an exception to be characterised.", "quantifier": "all expressions and values", "why_tests_cant": "Requires all values and expressions; the singular branches are rarely hit by tests.", "anchors": ["include/fastad_bits/reverse/core/glue.hpp: beval", "include/fastad_bits/reverse/core/for_each.hpp: beval", "include/fastad_bits/reverse/core/pow.hpp: PowNode::beval"]}
{"id": "C11", "title": "A placeholder's right-hand side is evaluated once and its adjoint is the full derivative", "statement": "In (w = e, f(w, ...)) the value of w after evaluation is the value of e, e is evaluated exactly once, and after autodiff w's adjoint is the derivative of the final value with respect to w, and the variables of e receive exactly the chain-rule contribution through w however often w is used.", "quantifier": "all e, all f, any number of uses of w", "why_tests_cant": "All programs and all numbers of uses.", "anchors": ["include/fastad_bits/reverse/core/eq.hpp: EqNode::feval, beval", "include/fastad_bits/reverse/core/glue.hpp: feval, beval", "README.md: Placeholder"]}
{"id": "C12", "title": "op= expressions update the variable, differentiate correctly and restore it", "statement": "(v op= e) sets v to v op e when evaluated; backward evaluation restores v to its value before the forward pass, adds the correct gradient with respect to v's old value and e's variables (also when v occurs in e), for +=, -=, *=, /= and vector v with scalar or vector e; after a full autodiff all op=-variables have their original values.", "quantifier": "all expressions with op=, all values (nonzero divisor for /=)", "why_tests_cant": "In-place updates interact with every later and earlier use of the variable; tests cover one or two statements.", "anchors": ["include/fastad_bits/reverse/core/eq.hpp: OpEqNode::feval, beval, AddEq, SubEq, MulEq, DivEq", "include/fastad_bits/reverse/core/var_view.hpp: operator+= ..."]}
{"id": "C13", "title": "Sequencing evaluates left to right and differentiates right to left", "statement": "(a, b) evaluates a then b, has the value of b, propagates the seed to b first and then 0 to a, so that assignments made in a are visible in b and gradients flowing into placeholders in b reach a.", "quantifier": "all sequences of expressions of any length", "why_tests_cant": "All programs.", "anchors": ["include/fastad_bits/reverse/core/glue.hpp: GlueNode::feval, beval"]}
{"id": "C14", "title": "for_each is the same as a chain of glued statements", "statement": "for_each over a non-empty range behaves exactly like gluing the generated expressions in order: same value, same gradient, same final variable values.", "quantifier": "all ranges of any length >= 1, all generated expressions", "why_tests_cant": "Unbounded length.", "anchors": ["include/fastad_bits/reverse/core/for_each.hpp: ForEachIterNode"]}
{"id": "C15", "title": "if_else evaluates and differentiates exactly the selected branch", "statement": "if_else(c, a, b) has the value of the selected branch only, never evaluates the other one, and backward evaluation propagates the seed only to the branch selected by the last forward evaluation.", "quantifier": "all conditions, branches and values", "why_tests_cant": "All condition outcomes in nested conditionals.", "anchors": ["include/fastad_bits/reverse/core/if_else.hpp: IfElseNode::feval, beval"]}
{"id": "C16", "title": "if_else can be used as an operand like any other expression", "statement": "Any expression containing if_else as an operand (e.g. sin(if_else(c,x,y)), or as the last statement of a sequence) evaluates and differentiates without undefined behaviour.", "quantifier": "all expressions with if_else in operand position", "why_tests_cant": "Whether a null view is dereferenced depends on the parent node; the tests only use if_else at the root.", "anchors": ["include/fastad_bits/reverse/core/if_else.hpp: bind_cache", "include/fastad_bits/reverse/core/unary.hpp: beval", "include/fastad_bits/reverse/core/glue.hpp: feval", "include/fastad_bits/reverse/core/value_view.hpp: get"]}
{"id": "C17", "title": "Element-wise functions have the right derivative", "statement": "For each of the unary functions (neg, sin, cos, tan, asin, acos, atan, exp, log, sqrt, erf, sigmoid, sinh, cosh, tanh) the backward rule multiplies the seed by the function's derivative at the operand at every interior point of its domain.", "quantifier": "all real operands in the open domain, all seeds", "why_tests_cant": "Tests check a handful of points.", "anchors": ["include/fastad_bits/reverse/core/unary.hpp: functor structs lines 191-296"]}
{"id": "C18", "title": "Arithmetic with broadcasting differentiates correctly", "statement": "+, -, *, / between scalar/vector/matrix operands compute the element-wise result with the scalar broadcast, and the scalar operand receives the sum of the element-wise contributions.", "quantifier": "all sizes, all values (nonzero divisors), all seeds, both operand orders", "why_tests_cant": "All sizes and values.", "anchors": ["include/fastad_bits/reverse/core/binary.hpp: Add, Sub, Mul, Div"]}
{"id": "C19", "title": "Comparisons and logical operators give 0/1 and carry no gradient", "statement": "<, <=, >, >=, ==, !=, &&, || evaluate to exactly 0 or 1 according to the operands and differentiating them changes no adjoint.", "quantifier": "all operands including non-finite ones, any seed", "why_tests_cant": "All values.", "anchors": ["include/fastad_bits/reverse/core/binary.hpp: LessThan ... LogicalOr, beval is_comparison branch"]}
{"id": "C20", "title": "Iterated sums", "statement": "sum over a range of expressions and sum over the elements of an expression have the value and gradient of the mathematical sum, the empty range giving 0.", "quantifier": "all lengths, all expressions", "why_tests_cant": "Unbounded length.", "anchors": ["include/fastad_bits/reverse/core/sum.hpp: SumIterNode, SumElemNode"]}
{"id": "C21", "title": "Products have correct gradients in the presence of zeros", "statement": "prod over a range of expressions and prod over the elements of an expression have the value of the product and the gradient with respect to each factor is the seed times the product of the other factors, whatever number of factors is zero.", "quantifier": "all lengths, all factor values including any number and position of zeros", "why_tests_cant": "The division shortcut must be right for every zero pattern.", "anchors": ["include/fastad_bits/reverse/core/prod.hpp: ProdIterNode::beval, ProdElemNode::beval"]}
{"id": "C22", "title": "An empty product is 1", "statement": "prod over an empty range is 1 whether the generated expressions are constants or not.", "quantifier": "both overloads, all element types", "why_tests_cant": "Boundary of a compile-time dispatch.", "anchors": ["include/fastad_bits/reverse/core/prod.hpp: prod (line 269), ProdIterNode::feval"]}
{"id": "C23", "title": "Integer powers", "statement": "pow<n>(x) is x^n for every integer n (1/x^|n| for negative n and x != 0, infinity at 0), and its gradient is n*x^(n-1) for all x (x != 0 when n < 0), including x = 0 for n >= 0.", "quantifier": "all integer exponents, all x", "why_tests_cant": "Template recursion over all exponents.", "anchors": ["include/fastad_bits/reverse/core/pow.hpp: PowFunc, PowNode::beval"]}
{"id": "C24", "title": "Matrix product, transpose, squared norm", "statement": "dot(A,B), transpose(A), norm(x) have the values of the matrix product, the transpose and the squared Euclidean/Frobenius norm and their backward rules are the exact adjoints for all sizes.", "quantifier": "all dimensions, all values", "why_tests_cant": "All dimensions.", "anchors": ["include/fastad_bits/reverse/core/dot.hpp: DotNode", "include/fastad_bits/reverse/core/transpose.hpp: TransposeNode", "include/fastad_bits/reverse/core/norm.hpp: NormNode"]}
{"id": "C25", "title": "Determinant and log-determinant at invertible matrices", "statement": "For an invertible square matrix, det and log_det return the determinant and log of its absolute value and add seed times the partial derivatives with respect to every entry.", "quantifier": "all dimensions, all invertible matrices", "why_tests_cant": "All dimensions.", "anchors": ["include/fastad_bits/reverse/core/det.hpp: DetNode, DetFullPivLU", "include/fastad_bits/reverse/core/log_det.hpp: LogDetNode, LogDetFullPivLU"]}
{"id": "C26", "title": "Determinant gradient at singular matrices", "statement": "The adjoint of det at a singular matrix is the seed times the derivative (the cofactor matrix), as det is differentiable everywhere.", "quantifier": "all singular matrices", "why_tests_cant": "Singular inputs are a measure-zero set never sampled.", "anchors": ["include/fastad_bits/reverse/core/det.hpp: DetNode::beval (valid() test)"]}
{"id": "C27", "title": "Constant folding preserves meaning", "statement": "Building an expression from constants only yields a constant with the value the unfolded expression would have, for every node type that folds, and constants never contribute a gradient.", "quantifier": "all constant expressions", "why_tests_cant": "All constant sub-expressions in all contexts.", "anchors": ["include/fastad_bits/reverse/core/unary.hpp: lines 173-188", "include/fastad_bits/reverse/core/binary.hpp: folding in operators", "include/fastad_bits/reverse/core/sum.hpp", "include/fastad_bits/reverse/core/prod.hpp", "include/fastad_bits/reverse/core/pow.hpp", "include/fastad_bits/reverse/core/norm.hpp", "include/fastad_bits/reverse/core/dot.hpp", "include/fastad_bits/reverse/core/if_else.hpp", "include/fastad_bits/reverse/core/constant.hpp"]}
{"id": "C28", "title": "Constant views are re-read at every evaluation", "statement": "After the buffer behind a constant_view changes, the next evaluate/autodiff of any expression built over the view uses the new contents (as the README's data loop relies on).", "quantifier": "all expressions over constant views, all buffer updates", "why_tests_cant": "Folding freezes some expressions at construction; tests never update the buffer.", "anchors": ["include/fastad_bits/reverse/core/constant.hpp: ConstantView", "include/fastad_bits/reverse/core/unary.hpp: constant folding", "README.md: Simple Linear Regression Model"]}
{"id": "C29", "title": "Forward mode computes directional derivatives", "statement": "For every program of arithmetic and elementary functions on ForwardVar (including +=), the result's value is the function value and its adjoint is the derivative in the direction given by the inputs' adjoints.", "quantifier": "all straight-line programs, all values in the domain, all directions", "why_tests_cant": "All programs.", "anchors": ["include/fastad_bits/forward/core/forward.hpp", "include/fastad_bits/forward/core/dualnum.hpp"]}
{"id": "C30", "title": "Forward-mode erf follows the chain rule", "statement": "erf of a ForwardVar has adjoint (2/sqrt(pi))*exp(-x^2) times the argument's adjoint.", "quantifier": "all values and tangents", "why_tests_cant": "The existing test uses tangent 1.", "anchors": ["include/fastad_bits/forward/core/forward.hpp: erf (lines 136-140)"]}
{"id": "C31", "title": "Normal log-density", "statement": "normal_adj_log_pdf returns the normal log-density up to an additive constant for every combination of scalar/vector/matrix arguments, -infinity when the scale is not positive (not positive definite), and adds seed times the exact gradient with respect to x, mean and sigma, whichever of them are constants.", "quantifier": "all sizes, values, constness combinations, seeds", "why_tests_cant": "Seven specialisations times constness caching times all values.", "anchors": ["include/fastad_bits/reverse/stat/normal.hpp"]}
{"id": "C32", "title": "Cauchy log-density", "statement": "cauchy_adj_log_pdf returns the Cauchy log-density up to an additive constant, -infinity for a non-positive scale, and adds seed times the exact gradient for every shape combination.", "quantifier": "all sizes, values and seeds", "why_tests_cant": "Tests use seed 1 only.", "anchors": ["include/fastad_bits/reverse/stat/cauchy.hpp"]}
{"id": "C33", "title": "Uniform log-density", "statement": "uniform_adj_log_pdf returns -sum log(max-min) when min < x < max in every component and -infinity otherwise, re-evaluated with the current bounds at every call, with the exact gradient with respect to the bounds.", "quantifier": "all sizes, values, constness combinations, histories of bound updates", "why_tests_cant": "The cached bounds flag is only wrong after an update.", "anchors": ["include/fastad_bits/reverse/stat/uniform.hpp"]}
{"id": "C34", "title": "Bernoulli log-pmf", "statement": "bernoulli_adj_log_pdf returns the log-pmf for x in {0,1} with p clipped to [0,1], -infinity otherwise, and adds seed times the gradient with respect to p for 0<p<1 and nothing otherwise.", "quantifier": "all sizes, values, seeds", "why_tests_cant": "All values.", "anchors": ["include/fastad_bits/reverse/stat/bernoulli.hpp"]}
{"id": "C35", "title": "Wishart log-density", "statement": "wishart_adj_log_pdf returns the Wishart log-density up to a constant for positive definite X, V and n > p-1, -infinity otherwise, and adds seed times the gradient, whichever of X, V are constants.", "quantifier": "all dimensions, constness combinations", "why_tests_cant": "Only the all-variable case is tested.", "anchors": ["include/fastad_bits/reverse/stat/wishart.hpp"]}
{"id": "C36", "title": "Bound expressions over shared variables do not interfere", "statement": "Any interleaving of evaluations and differentiations of several separately bound expressions over the same variables gives each expression its own value and accumulates the sum of the gradients.", "quantifier": "all sets of expressions, all interleavings of their autodiff calls", "why_tests_cant": "All histories.", "anchors": ["include/fastad_bits/reverse/core/bind.hpp: ExprBind", "include/fastad_bits/reverse/core/var_view.hpp"]}
{"id": "C37", "title": "Copies of a Var own their storage", "statement": "Copy construction and copy assignment of Var duplicate value and adjoint into storage disjoint from the source, existing expressions over the target keep seeing the target, and the source is unchanged.", "quantifier": "all histories of creations, copies, writes", "why_tests_cant": "All histories of operations.", "anchors": ["include/fastad_bits/reverse/core/var.hpp: Var copy/move constructors and assignments, rebind"]}
{"id": "C38", "title": "Moving a Var keeps expressions valid", "statement": "After move-assigning a vector/matrix Var, expressions previously built over the target still refer to the target's current storage.", "quantifier": "all histories", "why_tests_cant": "Dangling views do not fail deterministically.", "anchors": ["include/fastad_bits/reverse/core/var.hpp: move assignment"]}
{"id": "C39", "title": "A bound expression can be copied", "statement": "Copying the object returned by ad::bind yields an independent bound expression that stays usable after the original is destroyed.", "quantifier": "all expressions, all orders of use and destruction", "why_tests_cant": "Aliasing into the original's heap block is invisible while the original lives.", "anchors": ["include/fastad_bits/reverse/core/bind.hpp: ExprBind implicit copy"]}
{"id": "C40", "title": "Sub-views address exactly their slice", "statement": "x[i], x(i,j), head(n), tail(n) of a vector variable view exactly the corresponding cells of value and adjoint, so gradients through a sub-view land in the same cells of the parent, in bounds whenever the indices are.", "quantifier": "all sizes and indices", "why_tests_cant": "All indices.", "anchors": ["include/fastad_bits/reverse/core/var_view.hpp: operator(), operator[], head, tail"]}
{"id": "C41", "title": "A placeholder may be assigned inside any sub-expression", "statement": "When a placeholder is assigned inside a sub-expression, for instance in the condition of an if_else, in an operand of a comparison or in a parameter of a log-density, and used later, autodiff still adds the full derivative through the placeholder to the variables of its right-hand side.", "quantifier": "all expressions with nested assignments, all values and seeds", "why_tests_cant": "Tests assign placeholders only as top-level statements; the loss shows only when a node on the path skips its operands in the backward pass (comparison, seed 0, invalid log-density).", "anchors": ["include/fastad_bits/reverse/core/binary.hpp: BinaryNode::beval", "include/fastad_bits/reverse/core/if_else.hpp: IfElseNode::beval", "include/fastad_bits/reverse/stat/normal.hpp: beval", "include/fastad_bits/reverse/core/eq.hpp: EqNode::beval"]}
{"id": "C42", "title": "A placeholder may be assigned again after it was used", "statement": "In a sequence of statements a placeholder may be assigned several times, each use referring to the latest assignment; autodiff computes the gradient of the final value.", "quantifier": "all sequences of assignments and uses, all values and seeds", "why_tests_cant": "Tests assign every placeholder once; with reassignment the backward pass re-reads overwritten values.", "anchors": ["include/fastad_bits/reverse/core/eq.hpp: EqNode::beval", "include/fastad_bits/reverse/core/glue.hpp: GlueNode::beval", "include/fastad_bits/reverse/core/var_view.hpp"]}
{"id": "C43", "title": "op= may be used as any operand", "statement": "An expression v op= e used as an operand of another node (any position, any shape) yields the right gradient for all variables of the enclosing expression.", "quantifier": "all enclosing nodes, operand positions, shapes, values and seeds", "why_tests_cant": "Tests use op= as a statement; the failure depends on the evaluation time of an Eigen expression template and on the operand position.", "anchors": ["include/fastad_bits/reverse/core/binary.hpp: BinaryNode::beval", "include/fastad_bits/reverse/core/eq.hpp: OpEqNode::beval"]}
{"id": "C44", "title": "Sizes that do not fit are rejected when the expression is built", "statement": "If building and binding an expression succeeds (with asserts enabled), then no operation of any later evaluation or differentiation combines operands of incompatible sizes.", "quantifier": "all expressions, all operand sizes, all later operations", "why_tests_cant": "Tests use operands of matching sizes; whether a mismatch is noticed at construction depends on each node's constructor.", "anchors": ["include/fastad_bits/reverse/core/binary.hpp: BinaryNode constructor", "include/fastad_bits/reverse/core/sum.hpp: SumIterNode constructor", "include/fastad_bits/reverse/core/for_each.hpp: ForEachIterNode constructor", "include/fastad_bits/reverse/stat/normal.hpp", "include/fastad_bits/reverse/stat/cauchy.hpp", "include/fastad_bits/reverse/stat/uniform.hpp", "include/fastad_bits/reverse/stat/wishart.hpp"]}
{"id": "C45", "title": "Looping over data accumulates the gradient of the summed loss", "statement": "If an expression over constant views is bound once and, for every row of data, the client overwrites the viewed buffers, resets the adjoints of the placeholders and calls autodiff, then every call returns that row's loss and at the end each parameter's adjoint has grown by the derivative of the sum of the losses; in particular the README's linear regression computes the least-squares loss and gradient and the README's network the gradient of its squared error.", "quantifier": "all expressions, all numbers of rows, all data and parameter values, all seeds", "why_tests_cant": "A test fixes one data set and one model; the claim is about any number of re-evaluations of one bound expression with changing buffers.", "anchors": ["README.md:613-756", "include/fastad_bits/reverse/core/constant.hpp: ConstantView", "include/fastad_bits/reverse/core/eval.hpp: autodiff", "include/fastad_bits/reverse/core/dot.hpp", "include/fastad_bits/reverse/core/pow.hpp"]}
{"id": "C46", "title": "The Black-Scholes example computes prices and deltas", "statement": "The program of example/black_scholes.cpp returns the Black-Scholes prices of the call and the put, and the adjoint of S is Phi(d1) after the call and, after the resets, Phi(d1) - 1 after the put.", "quantifier": "all positive strikes, volatilities, maturities and prices, all rates", "why_tests_cant": "The example prints four numbers for one parameter set; that the density terms cancel is an identity over all parameters.", "anchors": ["example/black_scholes.cpp", "README.md:481-564", "include/fastad_bits/reverse/core/unary.hpp: erf, log", "include/fastad_bits/reverse/core/eq.hpp", "include/fastad_bits/reverse/core/glue.hpp"]}
{"id": "C47", "title": "The Ceres example passes the gradient of the loss to the solver", "statement": "NN::loss of example/ceres_3layer_neural_net/src.cpp returns the sum of the squared errors over all rows and stores its gradient with respect to the 25 parameters in grad.", "quantifier": "all parameters, all data sets with any number of rows", "why_tests_cant": "The example is not run by the tests; the solver still makes progress with a wrong gradient.", "anchors": ["example/ceres_3layer_neural_net/src.cpp:17-57", "include/fastad_bits/reverse/core/eq.hpp: EqNode::beval"]}
{"id": "C48", "title": "A bound expression has no hidden state", "statement": "Two bound copies of one expression, with different cache buffers and different histories, whose constructors read the same data: if the variables that are read before they are assigned hold the same values, the variables have the same adjoints and the constant buffers the same contents, then every further series of evaluate and autodiff calls and of writes to variables, adjoints and constant buffers returns the same values on both and leaves the same values and adjoints.", "quantifier": "all expressions, arithmetics, cache contents, histories, and series of calls and writes", "why_tests_cant": "A leak of cached state shows only for particular pairs of histories; tests use each expression once or twice on freshly zeroed memory.", "anchors": ["include/fastad_bits/reverse/core/bind.hpp", "include/fastad_bits/reverse/core/eval.hpp", "include/fastad_bits/reverse/stat/*.hpp: constructors and feval", "include/fastad_bits/reverse/core/eq.hpp: OpEqNode"]}
{"id": "C49", "title": "Placeholders only save repeated evaluation", "statement": "Replacing, in (w = y, f), every use of the placeholder w by the expression y gives a well-formed expression without w that evaluates to the same value, leaves the same variable values, and whose autodiff gives every variable the same adjoint, wherever the original is defined and differentiable.", "quantifier": "all expressions y without assignments and all f that read w as a whole and do not update y's variables; all shapes, points, seeds, adjoints, histories and cache contents of the two bound expressions", "why_tests_cant": "Tests compare a few fixed programs with hand-computed derivatives; they never compare a program with its placeholder-free form, let alone all of them.", "anchors": ["README.md:408-434", "include/fastad_bits/reverse/core/eq.hpp: EqNode", "include/fastad_bits/reverse/core/glue.hpp", "include/fastad_bits/reverse/core/var_view.hpp: beval"]}
{"id": "C50", "title": "The quadratic form of the README", "statement": "dot(dot(transpose(x), Sigma), x) has value x^T Sigma x, and autodiff with seed s adds s (Sigma + Sigma^T) x to the adjoint of x.", "quantifier": "all sizes n, all matrices Sigma (symmetric or not), all x, seeds, adjoints and histories", "why_tests_cant": "The README checks one symmetric 2x2 matrix by printing the numbers; a transposed contribution is invisible for symmetric Sigma.", "anchors": ["README.md:567-610", "include/fastad_bits/reverse/core/dot.hpp: feval, beval", "include/fastad_bits/reverse/core/transpose.hpp"]}
{"id": "C51", "title": "The integration-test functions have the expected gradients everywhere", "statement": "The functions F, G and H of the integration test return the stated value and autodiff adds the seed times the stated partial derivatives to every variable; variables that do not occur are not touched.", "quantifier": "all points, seeds, adjoints and histories; for G any number of variables", "why_tests_cant": "The test looks at one point with five variables and seed one.", "anchors": ["test/integration/ad_inttest.cpp:10-26", "test/integration/ad_inttest.cpp:66-95", "include/fastad_bits/reverse/core/sum.hpp: SumIterNode"]}
{"id": "C52", "title": "A program may be split at its placeholders", "statement": "A client that binds the parts of (w1 = y1, (w2 = y2, ... f)) separately, stores each result in the placeholder itself, runs autodiff on f, and then runs autodiff on each y with the adjoint of its placeholder as seed, gets the value, the variable values and the adjoints that autodiff of the glued expression gives.", "quantifier": "all expressions f and assignment-free y, any number of stages, all shapes, points, seeds, adjoints, histories and cache blocks of the bound parts; wherever the glued expression is differentiable", "why_tests_cant": "Tests never compose separately bound expressions through the adjoint of a variable; the equality is between two programs over all expressions.", "anchors": ["README.md:408-434", "include/fastad_bits/reverse/core/eval.hpp: evaluate, autodiff", "include/fastad_bits/reverse/core/value_adj_view.hpp:42-45", "include/fastad_bits/reverse/core/eq.hpp: EqNode::beval"]}
{"id": "C53", "title": "Unit seeds give the Jacobian", "statement": "Calling reset_adj on all variables and autodiff with the k-th unit vector, for every output k, reads off the Jacobian: entry (k, o) is the partial derivative of output k with respect to variable cell o; the variables are left unchanged.", "quantifier": "all vector- and matrix-valued expressions, all lists of outputs and cells, all points where the expression is differentiable, all earlier adjoints and histories", "why_tests_cant": "Tests seed with constants; no test extracts single rows, and leftovers of one row in the next would go unnoticed with a single call.", "anchors": ["include/fastad_bits/reverse/core/eval.hpp:115-133", "include/fastad_bits/reverse/core/value_adj_view.hpp:58", "include/fastad_bits/reverse/core/var_view.hpp: beval"]}
{"id": "C54", "title": "The engine treats numbers abstractly", "statement": "Run the same program in two arithmetics on related data. If a relation between the two kinds of numbers is preserved by the operations the program uses (+, -, *, /, negation, the mathematical functions, powers) and tests against zero agree where they matter, then values, adjoints and variables left by evaluate and autodiff are related too.", "quantifier": "all programs over + - * /, the unary functions, pow with nonnegative exponent, sum, prod of elements, dot, transpose, norm, =, op=, for_each and glue; all pairs of arithmetics (reals, doubles in any rounding mode, intervals, ...), all relations, shapes, seeds and histories", "why_tests_cant": "Quantifies over arithmetics and relations; tests run in double only.", "anchors": ["include/fastad_bits/reverse/core/unary.hpp", "include/fastad_bits/reverse/core/binary.hpp", "include/fastad_bits/reverse/core/dot.hpp", "include/fastad_bits/reverse/core/norm.hpp", "include/fastad_bits/reverse/core/sum.hpp", "include/fastad_bits/reverse/core/eq.hpp", "include/fastad_bits/reverse/core/for_each.hpp", "include/fastad_bits/reverse/core/glue.hpp"]}
{"id": "C55", "title": "When results in double are exact", "statement": "In binary64 under any rounding mode, with any mathematical library and any order of summation and multiplication in sum() and prod(), a value or adjoint computed by evaluate or autodiff is exactly the true value or gradient wherever a run of the program in checked dyadic arithmetic has a result; for division-free programs one run on boxes (integers up to a bound times a power of two) decides this for all inputs in the boxes at once.", "quantifier": "all programs of C54 over doubles, all rounding modes and mathematical libraries, all inputs, seeds, adjoints and histories; boxes: all doubles inside them", "why_tests_cant": "Tests compare with tolerances at sample points; exactness for every input of a box is a statement about 2^53 values per variable.", "anchors": ["include/fastad_bits/reverse/core/eval.hpp: evaluate, autodiff", "include/fastad_bits/reverse/core/binary.hpp", "include/fastad_bits/reverse/core/dot.hpp", "include/fastad_bits/reverse/core/norm.hpp"]}
{"id": "C56", "title": "Rounding errors are bounded by one run on intervals", "statement": "Run a program once in interval arithmetic. Wherever that run ends with an interval, for every run in binary64 (any rounding mode, any order of summation and multiplication, any mathematical library within the given enclosures) on doubles in the input intervals the value or adjoint computed is finite and lies in the result interval, and so does the true value or gradient at any real inputs in the intervals; the error of the result in double is at most the width.", "quantifier": "all programs of C54, all rounding modes, all libraries and enclosures of them, all input intervals, doubles and reals in them (the reals need not be the doubles), seeds, adjoints and histories", "why_tests_cant": "Tests compare with a tolerance at sample points; this bounds the error for a continuum of inputs under every rounding mode.", "anchors": ["include/fastad_bits/reverse/core/eval.hpp: evaluate, autodiff", "include/fastad_bits/reverse/core/unary.hpp", "include/fastad_bits/reverse/core/binary.hpp", "include/fastad_bits/reverse/core/pow.hpp", "include/fastad_bits/reverse/core/prod.hpp"]}
{"id": "C57", "title": "Forward mode in double: exact where a checked run says so, enclosed by one interval run", "statement": "Run a forward-mode client program (assignments, +=, loops, branches on values) in double. If the same program run in checked dyadic arithmetic decides its comparisons and has a result, the double value is the true value and the double adjoint the true directional derivative, with no rounding error. If the program run on intervals decides its comparisons, every interval it ends with contains the double result and the true value or derivative at any real inputs in the input intervals; in particular double takes the same branches as exact arithmetic.", "quantifier": "all forward-mode programs (erf, whose adjoint is wrong by C30, excluded for the true derivative), all rounding modes, libraries, starting values and adjoints", "why_tests_cant": "Tests sample points and compare with a tolerance; this covers every program and a continuum of inputs under every rounding mode.", "anchors": ["include/fastad_bits/forward/core/forward.hpp: ForwardVar, operators, unary functions"]}
{"id": "C58", "title": "Second derivatives: reverse mode over ForwardVar computes Hessians", "statement": "Bind an expression whose scalar type is ForwardVar and differentiate it once: the value carries the directional derivative, and the adjoint of every variable that is not a placeholder gains the seed-weighted partial derivative together with the derivative of that along the direction of the tangents. Hence the loop of hessian.hpp (reset adjoints, tangent of one variable 1, autodiff, record) over a scalar expression records the gradient and the matrix of second partial derivatives, whatever the adjoints held before, and leaves the values unchanged.", "quantifier": "all programs built from the unary functions of forward.hpp except erf, + - * /, sum, transpose, norm, dot, glue, for_each, = and op=; all points with a neighbourhood in the domain, all tangents, seeds, adjoints and histories of use", "why_tests_cant": "hessian_unittest.cpp compares a few functions at one point; the header is no longer compiled. The claim is about every program and composes two differentiation modes.", "anchors": ["include/fastad_bits/reverse/core/hessian.hpp: hessian_gen, compute_hess", "include/fastad_bits/forward/core/forward.hpp: ForwardVar", "include/fastad_bits/reverse/core/eval.hpp: autodiff"]}
{"id": "C59", "title": "The programs of README.md and example/main.cpp", "statement": "The example program and the reverse-mode programs of the README compute the values and adjoints they are written for: f(x,y) = exp((x sin y + x y) x sin y) by placeholders in reverse mode and by the same statements in forward mode; sin(x) + cos(v) with any vector seed; (w = dot(M, v1) + v2, r = sum(w) * sum(w * v2)) with the closed-form adjoints of M, v1 and v2; and sin(x) + cos(v) + sum(cos(v)) with and without the placeholder w = cos(v), which give the same value and the same adjoints of x and v.", "quantifier": "all points, seeds, vector lengths, matrix sizes, adjoints already accumulated in the variables, and earlier uses of the bound expression", "why_tests_cant": "The README programs are not compiled by the test suite, main.cpp prints numbers without checking them; sizes, points and seeds are unbounded.", "anchors": ["example/main.cpp:14-67", "README.md:235-237, 339-432", "include/fastad_bits/reverse/core/eval.hpp: autodiff"]}
{"id": "C60", "title": "The result of evaluate and autodiff keeps showing the expression's value", "statement": "What ad::evaluate and ad::autodiff return equals the value of the expression, when they return and from then on: for scalar expressions the result is a number and stays what it is; for vector and matrix expressions it is an Eigen::Map of the root's storage, which should still show the value after the backward pass, after later calls, and after the temporary of autodiff(bind(expr), seed) is gone.", "quantifier": "all expressions, points, seeds and histories; the parts on repeated calls and temporaries for every arithmetic", "why_tests_cant": "The tests read a result right after the call, from a bound expression that is still alive; dangling reads usually return the old numbers.", "anchors": ["include/fastad_bits/reverse/core/eval.hpp:18-34, 82-153", "include/fastad_bits/reverse/core/value_view.hpp:112, 146", "include/fastad_bits/reverse/core/bind.hpp:18-41"]}
{"id": "C61", "title": "Adjoints are total derivatives: chain rule, first-order approximation, descent", "statement": "What autodiff adds to the adjoints is the total derivative of the seed-weighted value, not only the list of its partial derivatives: along every differentiable curve of the variables the value changes at the rate given by the inner product of adjoints and velocity (so adjoints may be multiplied by the Jacobian of the code that produced the variables); the linear approximation they define is good to first order in all directions at once; and for a scalar expression every small enough step against nonzero adjoints decreases the value.", "quantifier": "all expressions (assignments, branches, loops, log-densities included), points of the domain, curves, directions, seeds and earlier uses of the bound expression", "why_tests_cant": "Directions and curves form an infinite family; existence of all partial derivatives does not imply any of this.", "anchors": ["include/fastad_bits/reverse/core/eval.hpp: autodiff", "include/fastad_bits/reverse/core/var_view.hpp: beval"]}
{"id": "C62", "title": "Operands count with the value they have at their turn", "statement": "In an expression whose operands assign a placeholder, every operand of a node contributes the value it has when it is evaluated, operands being evaluated from left to right.", "quantifier": "all nodes with several operands, all values, every arithmetic", "why_tests_cant": "Tests never assign inside an operand; the result depends on whether a node copies operand values or keeps references to them.", "anchors": ["include/fastad_bits/reverse/core/binary.hpp: BinaryNode::feval", "include/fastad_bits/reverse/core/sum.hpp: SumIterNode::feval", "include/fastad_bits/reverse/core/eq.hpp: OpEqNode::feval"]}
{"id": "C63", "title": "Accumulating in the node's own storage is unobservable", "statement": "Sums and products over ranges, which accumulate in the node's own value view, and transposition, which writes its view while reading its operand, give the value of the operands before the node is evaluated; also when that view is the placeholder of an assignment.", "quantifier": "all expressions, all sessions of evaluate/autodiff/client writes, every arithmetic", "why_tests_cant": "Whether an operand can see a partially accumulated value depends on where cache binding places every node; tests cover a few expressions only, none with a self reference.", "anchors": ["include/fastad_bits/reverse/core/sum.hpp: SumIterNode::feval", "include/fastad_bits/reverse/core/prod.hpp: ProdIterNode::feval", "include/fastad_bits/reverse/core/transpose.hpp: TransposeNode::feval", "include/fastad_bits/reverse/core/eq.hpp: EqNode::bind_cache"]}
{"id": "C64", "title": "Assigning a variable to a placeholder is rejected or means the assignment", "statement": "An assignment w = x of a variable x inside an expression, which EqNode does not support, is rejected at compile time or assigns the current value of x to w at every evaluation.", "quantifier": "all types of targets (Var, view; const or not) and of right sides (Var, view; const, lvalue, rvalue), all shapes, all expressions using w, all sessions, every arithmetic", "why_tests_cant": "No test assigns a variable; which assignment operator is chosen depends on overload resolution between seven candidates.", "anchors": ["include/fastad_bits/reverse/core/eq.hpp: EqNode static_assert", "include/fastad_bits/reverse/core/var_view.hpp: VarViewBase::operator=", "include/fastad_bits/reverse/core/var.hpp: Var::operator=, using base_t::operator="]}
{"id": "C65", "title": "The op=, for_each, matrix and range-sum programs of the integration tests", "statement": "For the programs leaf_opeq_many_nested, leaf_opeq_head_tail, foreach, mat_scl_reduction and sumnode of the integration tests, autodiff returns the closed form and adds to the adjoints the seed times its partial derivatives, and leaves the variables at their old values.", "quantifier": "all sizes (number of entries, variables, rows and columns), every point (the nested program: scalar neither 0 nor 2), every seed, every cache placement, all sessions", "why_tests_cant": "Each test runs one size at one point, the matrix and product ones with small integers; chains of overlapping op= and for_each over placeholders reuse storage differently for every size.", "anchors": ["test/integration/node_inttest.cpp: leaf_opeq_many_nested, leaf_opeq_head_tail, sumnode, foreach, mat_scl_reduction", "include/fastad_bits/reverse/core/eq.hpp: OpEqNode", "include/fastad_bits/reverse/core/for_each.hpp: ForEachIterNode"]}
{"id": "C66", "title": "The log-density of an empty sample is 0", "statement": "A vector log-density whose vectors all have size 0 evaluates to the empty sum 0 and autodiff leaves every adjoint as it is.", "quantifier": "all vector forms of normal, Cauchy, uniform and Bernoulli, all scalar parameters in their range, every seed, every cache placement, all sessions; the failures for every arithmetic", "why_tests_cant": "No test uses an empty vector; the reductions involved (minCoeff, maxCoeff, mean) are undefined for it, but only some of the fourteen nodes use them, one of them only in its constructor and only for constant samples.", "anchors": ["include/fastad_bits/reverse/stat/uniform.hpp: update_x_cache", "include/fastad_bits/reverse/stat/normal.hpp: NormalAdjLogPDFNode (vec, scl, scl) constructor", "include/fastad_bits/reverse/stat/cauchy.hpp", "include/fastad_bits/reverse/stat/bernoulli.hpp"]}
{"id": "C67", "title": "Operands convert unambiguously and accepted expressions compute in double", "statement": "Every operand type matches at most one specialisation of convert_to_ad; column vectors and fully dynamic matrices are accepted, other Eigen types are not. All nodes of an expression that compiles have one value type, and it is double as soon as a node uses or assigns a variable. Operand order does not decide whether a binary operator compiles. Programs of doubles that satisfy the usage rules compile, with the static shape of the run-time shape, and a folded constant has the static type.", "quantifier": "all operand types, all expressions over variables of double with bool, int and double constants, all operators and shapes; all arithmetics for the folding part", "why_tests_cant": "A test that does not compile is not a test: the suite only contains accepted combinations, and only a handful of the pairs of value types; no test has an int or bool constant on the left of a variable.", "anchors": ["include/fastad_bits/util/type_traits.hpp: convert_to_ad, any_ad, common_value", "include/fastad_bits/util/shape_traits.hpp: max_shape_t", "include/fastad_bits/reverse/core/binary.hpp: BinaryNode base class", "include/fastad_bits/reverse/core/constant.hpp: bind_cache", "include/fastad_bits/reverse/stat/bernoulli.hpp: BernoulliBase", "include/fastad_bits/reverse/core/eq.hpp: static_asserts"]}
{"id": "C68", "title": "The benchmark programs compute the functions they are compared with", "statement": "Each FastAD program of the sum, product and constant-folding benchmarks returns the value of the function its finite-difference counterpart evaluates, and adds seed times that function's gradient to the adjoints; repeated calls of the programs without placeholders add up to multiples of the gradient; of the two with placeholders, to k(k+1)(k+2)/6 times it after k calls.", "quantifier": "any number of variables, any values (zeros included), any samples, any seed, any number of calls, every cache placement, all sessions", "why_tests_cant": "Benchmarks discard their results, so nothing checks them; they run at one size and one point, for the product a point where the product vanishes.", "anchors": ["benchmark/sum_benchmark.cpp: f_test, BM_sumnode_fastad, BM_sumnode_fastad_large_vectorized", "benchmark/prod_benchmark.cpp: f_test, BM_prod_fastad", "benchmark/constant_eager_benchmark.cpp: BM_normal_repeated_stddev"]}
{"id": "C69", "title": "The normal-density benchmark: general law, covariance generator, and what it really measures", "statement": "Each autodiff call of the benchmark program returns -d'B d/2 - log(det S)/2 and adds seed times (-w, w, -(B - ww')/2) to the adjoints of x, mu and sigma (d = x - mu, B the inverse of sigma = S, w = B d), and the k calls of the loop add up. The matrix make_cov builds is positive definite with determinant 10^(2n) whatever the random numbers, so its loop makes one turn. Because x.get().Random() drops its result, x = mu = 0: the value is always -n log 10 and the adjoints of x and mu never change.", "quantifier": "any size n, any x, mu, any positive definite sigma, any seed, any number of calls, any random matrix, every cache placement, all sessions", "why_tests_cant": "The benchmark discards its results and runs at random matrices of eight sizes; nothing would show that x and mu stay zero.", "anchors": ["benchmark/normal_benchmark.cpp: make_cov, BM_normal_adj_log_pdf, BM_normal_adj_log_pdf_flat", "include/fastad_bits/reverse/stat/normal.hpp: NormalAdjLogPDFNode (vec, vec, mat)"]}
{"id": "C70", "title": "The functions of the Hessian unit test, in closed form", "statement": "For F = sin x exp x - x + tan x the value, its tangent, the adjoint and its tangent after one autodiff over ForwardVar are F, F', F', F'' (the test's formulas); the Hessian loop over F, G = sin x cos y and H = sin x + x^2 + y^2 + cos(zw) returns their gradients and Hessians in closed form, at (pi/3, pi/6) exactly the -3/4 and -1/4 the test expects.", "quantifier": "every point (cos x <> 0 for F), every starting content of the adjoints in the loop, every cache placement, all sessions", "why_tests_cant": "The test compares at one point per function, within rounding.", "anchors": ["test/reverse/core/hessian_unittest.cpp: F_lmda, G_lmda, H_lmda, one_dimensional, two_dimensional, multi_dimensional", "include/fastad_bits/reverse/core/hessian.hpp", "include/fastad_bits/forward/core/forward.hpp: ForwardVar"]}
{"id": "C71", "title": "Backward passes on their own: evaluate_adj repeated after one evaluate", "statement": "After one evaluate, calling evaluate_adj once per seed, any number of times, returns no error, leaves the variables as that evaluation left them, and takes the adjoints once per pass through al -> d(s . value) + d(al . final variables), all derivatives at the point the evaluation started from; without assignments each pass adds its seed times the partial derivatives. With += and the like (excluded from the first two claims) this fails: the first pass restores the old value, and (x += y, x * x) gets 2s(x+y) from the first pass and 2sx from the second. Memory safety holds with += and iterated products too: after an evaluate any sequence of backward passes and client writes to variables and adjoints runs without error, frees nothing, leaves the cached values alone unless there is an iterated product (which overwrites and restores its cache; exactly so in real arithmetic), and leaves the expression usable. The evaluate is needed: a pass over a freshly bound exp(x) runs and multiplies the seed with uninitialised cache content.", "quantifier": "every disciplined expression without compound assignments, in its domain, every number and choice of seeds, every content of adjoints and placeholders, every cache placement, all sessions", "why_tests_cant": "The unit test calls evaluate_adj twice on one mock node; the law is about all expressions and seeds, and about what a pass leaves in the caches.", "anchors": ["include/fastad_bits/reverse/core/eval.hpp: evaluate_adj", "include/fastad_bits/reverse/core/eq.hpp: OpEqNode::beval", "test/reverse/core/eval_unittest.cpp: evaluate_adj"]}
{"id": "C72", "title": "The Jacobian from one evaluate", "statement": "After one evaluate, resetting all adjoints and calling evaluate_adj with the k-th unit vector, for every output k, reads off the Jacobian: entry (k, o) is the partial derivative of output k with respect to variable cell o, and the variables hold what the one evaluation put there. The passes may be in any order and may repeat; iterated products with zero factors, whose cached value every pass overwrites, are included.", "quantifier": "every disciplined expression without compound assignments, in its domain, every list of outputs and of variable cells, every initial content of adjoints and placeholders, every cache placement, all sessions", "why_tests_cant": "The unit tests never run more than one backward pass over a real expression after one evaluate; that passes leave all cached values intact, through prod.hpp's rewriting, is a statement about all expressions.", "anchors": ["include/fastad_bits/reverse/core/eval.hpp: evaluate_adj", "include/fastad_bits/reverse/core/value_adj_view.hpp: reset_adj", "include/fastad_bits/reverse/core/prod.hpp: beval"]}
