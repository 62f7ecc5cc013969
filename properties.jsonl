{"id": "C01", "title": "Eval returns the value of the expression", "statement": "TensorR1::Eval(e) returns exactly the value obtained by executing the assignments recorded in e (and in every expression it refers to) with the current values of the variables and parameters, performing the same arithmetic operations the user wrote; an expression reassigned in terms of itself (e = e*x) evaluates its assignments in order. This holds whenever e's graph has not been left half-evaluated by a call on another root (see C07/C08).", "quantifier": "all expression graphs (any size, depth, sharing, self-recursion), all variable/parameter values, all arithmetic implementations (no algebraic law is used, so IEEE doubles and complex numbers are included)", "why_tests_cant": "tests evaluate a handful of fixed expressions at fixed points; sharing and visited flags make the result depend on graph shape", "anchors": ["src/Scalar/Variable.cpp:Variable::eval,resetImpl,reset", "src/Scalar/CommonFunctions.cpp:EvalExp", "include/Scalar/BinaryOps/*.hpp:eval", "include/Scalar/UnaryOps/*.hpp:eval"]}
{"id": "C02", "title": "Evaluation, forward and reverse passes terminate on every graph", "statement": "Eval, DevalF and PreComp return on every expression graph, including graphs in which expressions refer to themselves or to each other in a cycle: every call is bounded by the number of Variables/Expressions that exist.", "quantifier": "all heaps of variables and expressions, cyclic ones included, in any visited/unvisited state", "why_tests_cant": "non-termination on some cyclic graph cannot be excluded by running finitely many graphs", "anchors": ["src/Scalar/Variable.cpp:eval,devalF,traverse,reset", "include/Scalar/Expression.hpp:operator="]}
{"id": "C03", "title": "DevalF applies the chain rule", "statement": "TensorR1::DevalF(e, v) returns the forward-mode derivative: the number obtained by executing e's assignments on (value, derivative) pairs with the derivative rule of each operator, seeding v with 1 and every other variable and parameter with 0.", "quantifier": "all expression graphs in a closed state, all targets v, all values, all arithmetic implementations", "why_tests_cant": "needs every operator at every position in every graph", "anchors": ["src/Scalar/Variable.cpp:devalF", "src/Scalar/CommonFunctions.cpp:DevalFExp", "include/Scalar/BinaryOps/*.hpp:devalF", "include/Scalar/UnaryOps/*.hpp:devalF"]}
{"id": "C04", "title": "DevalF is the derivative in the sense of calculus", "statement": "Over exact reals, whenever every operator in the graph is applied strictly inside its domain (divisors non-zero, log/sqrt arguments positive, |asin|,|acos|,|atanh| arguments < 1, acosh argument > 1, cos(tan argument) non-zero, pow base positive or a constant exponent that is an integer), DevalF(e, v) is the limit of the difference quotient of the function v -> Eval(e).", "quantifier": "all expression graphs, all variables, all real values inside the operator domains", "why_tests_cant": "a derivative is a limit; tests compare a few numbers with a tolerance", "anchors": ["include/Scalar/BinaryOps/GenericSum.hpp", "include/Scalar/BinaryOps/GenericProduct.hpp", "include/Scalar/BinaryOps/GenericDiv.hpp", "include/Scalar/BinaryOps/GenericPow.hpp", "include/Scalar/UnaryOps"]}
{"id": "C05", "title": "Reverse mode equals forward mode", "statement": "After PreComp(e), DevalR(e, v) equals DevalF(e, v) for every variable v (in exact arithmetic), for every expression graph, shared and self-recursive expressions included.", "quantifier": "all expression graphs in a closed state, all variables, all commutative-ring arithmetics", "why_tests_cant": "the reverse sweep visits nodes several times and merges caches of shared sub-expressions; a bookkeeping error shows only for particular sharing patterns", "anchors": ["src/Scalar/Variable.cpp:traverse,devalR", "include/Scalar/BinaryOps/*.hpp:traverse", "include/Scalar/UnaryOps/*.hpp:traverse"]}
{"id": "C06", "title": "Derivative with respect to an unrelated variable is zero", "statement": "If variable v does not occur (directly or through sub-expressions) in e, then DevalF(e, v) = 0 and, after PreComp(e), DevalR(e, v) = 0.", "quantifier": "all graphs, all variables not reachable from the root, any history meeting the closed-state condition", "why_tests_cant": "absence of spurious contributions must hold for all graphs and all stale caches", "anchors": ["src/Scalar/Variable.cpp:devalF,devalR", "src/Scalar/CommonFunctions.cpp:DevalRExp"]}
{"id": "C07", "title": "Repeated use of one expression is history independent", "statement": "Starting from a freshly built graph (or one in which every expression has been evaluated once), any sequence of variable/parameter assignments and Eval/DevalF/PreComp+DevalR calls on one root returns at each step the value determined by the current variable and parameter values alone; earlier calls and earlier values never leak.", "quantifier": "all graphs, all finite histories of assignments and queries on a root", "why_tests_cant": "history length and interleaving are unbounded", "anchors": ["src/Scalar/Variable.cpp:reset,resetImpl,operator=(Type)", "src/Scalar/CommonFunctions.cpp"]}
{"id": "C08", "title": "Evaluation is correct after evaluating other expressions", "statement": "Eval(e) returns the current value of e even if sub-expressions of e were evaluated earlier on their own. (Expected by users; false: a never-evaluated intermediate expression hides an already evaluated one from the reset pass and its old value is used.)", "quantifier": "all graphs and all histories that evaluate arbitrary roots", "why_tests_cant": "depends on the order in which roots are evaluated", "anchors": ["src/Scalar/Variable.cpp:reset (line 251)", "src/Scalar/Variable.cpp:resetImpl"]}
{"id": "C09", "title": "Self-referential assignment is iteration", "statement": "After Expression e = init and n assignments e = f(e, ...), Eval(e) equals n-fold application of f to init (for example e = x; repeat n times e = e*x gives x^(n+1)), and DevalF/DevalR give the derivative of that iterate.", "quantifier": "all n, all loop bodies, all values", "why_tests_cant": "loops of every length", "anchors": ["include/Scalar/Expression.hpp:operator=", "src/Scalar/Variable.cpp:eval,devalF"]}
{"id": "C10", "title": "Plain reassignment replaces the body", "statement": "An assignment e = t in which t does not mention e makes Eval(e) depend on t only, whatever was assigned before; an assignment that mentions e keeps the earlier assignments. Sharing through an intermediate expression is not detected as self-reference.", "quantifier": "all earlier assignment histories and all t", "why_tests_cant": "unbounded histories", "anchors": ["include/Scalar/Expression.hpp:operator=", "include/CommonHeader.hpp:BINARY_FIND_ME", "src/Scalar/Variable.cpp:findMe"]}
{"id": "C11", "title": "Operator sugar means what it says", "statement": "x - c, c - x, -x, x / c, c / x, x + c, pow(x, c), pow(c, x) evaluate to and differentiate as the corresponding real functions although they are stored as sums and products with transformed constants.", "quantifier": "all operands (sub-expressions) and all constants (c != 0 where dividing)", "why_tests_cant": "every constant and operand", "anchors": ["include/Scalar/BinaryOps/GenericSum.hpp", "include/Scalar/BinaryOps/GenericSub.hpp", "include/Scalar/BinaryOps/GenericProduct.hpp", "include/Scalar/BinaryOps/GenericDiv.hpp", "include/Scalar/BinaryOps/GenericPow.hpp"]}
{"id": "C12", "title": "Building expressions has no side effects and node indices stay unique", "statement": "Constructing variables, parameters and operator expressions never changes the result of evaluating any existing expression, and every operator node of every assignment gets an index different from every other node, variable and parameter, which the derivative caches rely on.", "quantifier": "all construction programs", "why_tests_cant": "uniqueness must hold after any number of constructions and clones", "anchors": ["include/Scalar/IVariable.hpp:cloneExp", "include/CommonHeader.hpp:m_idx_count", "include/Scalar/Expression.hpp"]}
{"id": "C13", "title": "Symbolic differentiation is correct for all later values", "statement": "d = SymDiff(e, v) is an expression which, evaluated at any later values of the variables and parameters, gives the derivative of e with respect to v at those values (for graphs without self-recursion and without a constant-over-expression quotient under another operator, see C14).", "quantifier": "all such graphs, all variables, all later valuations", "why_tests_cant": "an expression must be right at every point, not at tested points", "anchors": ["src/Scalar/Variable.cpp:symDeval,symEval,SymDiff", "include/Scalar/BinaryOps/*.hpp:symDeval", "include/Scalar/UnaryOps/*.hpp:symDeval"]}
{"id": "C14", "title": "Symbolic differentiation of constant quotients", "statement": "SymDiff handles c / x like any other operand. (Expected; false: the symbolic value of c/x is built as 1/x, so derivatives of products, powers and functions of c/x are wrong unless c = 1.)", "quantifier": "all constants c and all contexts", "why_tests_cant": "only visible when the quotient is nested and c differs from 1", "anchors": ["include/Scalar/BinaryOps/GenericDiv.hpp:symEval (line 260)"]}
{"id": "C15", "title": "Symbolic derivatives compose to higher orders", "statement": "Applying SymDiff n times gives an expression whose value is the n-th (mixed) derivative, and DevalF/DevalR applied to a symbolic derivative give the next derivative, for graphs of operators whose symbolic derivatives contain no quotient c/X with c other than 1. (For sqrt, and the inverse functions whose symbolic derivatives are written with such a quotient, it is false from order two.)", "quantifier": "all n, all sequences of variables, all graphs covered by C13", "why_tests_cant": "unbounded order", "anchors": ["src/Scalar/Expression.cpp:SymDiff", "src/Scalar/Variable.cpp:symDeval"]}
{"id": "C16", "title": "SymDiff reflects reassigned sub-expressions", "statement": "After reassigning a sub-expression, SymDiff of the parent gives the derivative of the new function. (Expected; false: the operator nodes memoise the old symbolic derivative.)", "quantifier": "all reassignment histories", "why_tests_cant": "depends on call history", "anchors": ["src/Scalar/MetaVariable.cpp:resetTemp", "include/Scalar/BinaryOps/GenericProduct.hpp:symDeval"]}
{"id": "C17", "title": "Variable copies alias", "statement": "Copying or assigning a Variable from another makes both denote the same value and derivative seed: assigning a number through either is visible through the other, and derivatives with respect to either coincide, through any chain of copies.", "quantifier": "all sequences of variable copies and numeric assignments", "why_tests_cant": "unbounded copy histories", "anchors": ["src/Scalar/Variable.cpp:copy constructor, operator=, swap"]}
{"id": "C18", "title": "Parameters are constants with live values", "statement": "A Parameter contributes derivative 0 in forward and reverse mode, and expressions always use its latest numeric value.", "quantifier": "all graphs with parameters, all histories", "why_tests_cant": "all histories", "anchors": ["src/Scalar/Parameter.cpp"]}
{"id": "C19", "title": "Parameter assignment copies the value", "statement": "After p = q for Parameters, p has q's value. (Expected; false: p keeps its own value.)", "quantifier": "all parameters", "why_tests_cant": "the observable effect is history dependent", "anchors": ["src/Scalar/Parameter.cpp:swap, operator="]}
{"id": "C20", "title": "Gradient by one reverse sweep", "statement": "PreComp followed by reading DevalR for each entry of a variable vector gives the full gradient, entry i being the partial derivative with respect to the i-th variable, for any number and order of reads (reads do not disturb one another).", "quantifier": "all vectors of variables, all graphs, any order and repetition of reads", "why_tests_cant": "any length and order", "anchors": ["include/Matrix/CommonMatFunctions.hpp:JacobianR", "example/GaussNewton/src/OracleScalar.cpp:jacobian", "src/Scalar/Variable.cpp:devalR"]}
{"id": "C21", "title": "Hessian is the full symmetric matrix of second derivatives", "statement": "HessianR, SymHessian and OracleScalar::hessian() give at entry (i,j) the second derivative with respect to x_i and x_j. (Expected; false: HessianR and SymHessian compute the diagonal only and leave 0 everywhere else; hessian() fails an index check for two or more variables. The diagonal entries are right, and hessian() for one variable is right in every call, with updates in between.)", "quantifier": "all expression graphs, all vectors of variables, all later updates and queries of one entry", "why_tests_cant": "all dimensions and graphs", "anchors": ["include/Matrix/CommonMatFunctions.hpp:HessianR,SymHessian", "example/GaussNewton/src/OracleScalar.cpp:hessian"]}
{"id": "C22", "title": "User-defined scalar operators", "statement": "An operator defined through UNARY_SCALAR_OPERATOR / BINARY_SCALAR_OPERATOR with function f and derivative function(s) is evaluated as f and differentiated in forward and reverse mode by the chain rule with the supplied derivative(s), anywhere in a graph.", "quantifier": "all functions and derivative functions, all graphs", "why_tests_cant": "arbitrary user functions", "anchors": ["include/Scalar/UnaryOps/GenericScalarUnary.hpp", "include/Scalar/BinaryOps/GenericScalarBinary.hpp"]}
{"id": "C23", "title": "Reverse derivative with respect to an expression", "statement": "DevalR(f, e) = DevalF(f, e) when the target e is itself an Expression used inside f. (True when e is not self-referential and is not f; false when e is self-referential or e is the root.)", "quantifier": "all graphs and expression targets", "why_tests_cant": "depends on graph shape", "anchors": ["src/Scalar/Variable.cpp:traverse,devalF"]}
{"id": "C24", "title": "Mixed real/complex arithmetic", "statement": "With complex Type, real (+,-,*,/) complex and comparison with a real agree with complex arithmetic. (Holds for +, *, complex-minus-real, complex-over-real; false for real-minus-complex, real-over-complex and ==/!=.)", "quantifier": "all real and complex operands", "why_tests_cant": "all operands", "anchors": ["src/CommonHeader.cpp:24-79"]}
{"id": "C25", "title": "Row-major element access is exact and non-aliasing", "statement": "Matrix(i,j) and Matrix[l] address the same element iff l = i*cols + j; in-range accesses never fail, out-of-range accesses are rejected, and writing one element changes no other element.", "quantifier": "all dimensions, all indices", "why_tests_cant": "all sizes", "anchors": ["include/Matrix/MatrixInterface/MatrixAccessors.ipp:operator(),operator[]"]}
{"id": "C26", "title": "Blocks: get/set round trip and frame", "statement": "setBlockMat writes exactly the given block and leaves all other entries unchanged; getBlockMat reads exactly the block; get after set returns the block; ill-formed ranges are rejected.", "quantifier": "all dimensions and block ranges", "why_tests_cant": "all sizes and ranges", "anchors": ["include/Matrix/MatrixInterface/MatrixUtils.ipp:getBlockMat,setBlockMat"]}
{"id": "C27", "title": "Row and column extraction", "statement": "getRow(i) returns the i-th row (as a column vector) and getColumn(j) the j-th column. (True for rows; false for columns: the argument is ignored.)", "quantifier": "all matrices and indices", "why_tests_cant": "all sizes", "anchors": ["include/Matrix/MatrixInterface/MatrixAccessors.ipp:getRow,getColumn"]}
{"id": "C28", "title": "Zero padding", "statement": "pad(r,c,result) yields the matrix surrounded by r zero rows and c zero columns on each side. (True into a fresh buffer; false when the result buffer is reused, because the border is not cleared.)", "quantifier": "all matrices, pad widths, and result-buffer histories", "why_tests_cant": "depends on the previous content of the buffer", "anchors": ["include/Matrix/MatrixInterface/MatrixUtils.ipp:pad", "include/MemoryManager/MemoryManager.hpp:MatrixPool"]}
{"id": "C29", "title": "Element-wise kernels are correct for every result buffer, including aliases", "statement": "Addition, subtraction, Hadamard product, scalar addition and scalar multiplication and unary maps produce the element-wise result whatever buffer is supplied for the result: none, a stale one of the same size, one of another size, or one of the operands (accumulation A = A + B).", "quantifier": "all dimensions, all operand values, all result-buffer states and aliasings", "why_tests_cant": "all aliasing and stale-content combinations", "anchors": ["include/Matrix/MatrixHandler/*/NaiveCPU/*.hpp", "include/MemoryManager/MemoryManager.hpp:MatrixPool"]}
{"id": "C30", "title": "Matrix product kernel", "statement": "MATRIX_MUL(A,B,C) with matching inner dimension stores sum_k A(i,k)*B(k,j) in C(i,j), for every stale content of C (C not aliasing A or B); mismatched dimensions are rejected.", "quantifier": "all dimensions, values and buffers", "why_tests_cant": "all sizes", "anchors": ["include/Matrix/MatrixHandler/MatrixMultiplication/NaiveCPU/MatMulNaiveHandler.hpp"]}
{"id": "C31", "title": "Kronecker product kernel", "statement": "MATRIX_KRON(A,B,C) stores A(i,j)*B(p,q) at (i*rB+p, j*cB+q) for every previous content of C. (True for a fresh zero buffer or when A has no zero entry; false for a reused buffer when A has zeros, as with the naive backend.)", "quantifier": "all dimensions, values and buffer histories", "why_tests_cant": "depends on the previous content of the result buffer", "anchors": ["include/Matrix/MatrixHandler/MatrixKronProduct/NaiveCPU/MatKronNaiveHandler.hpp"]}
{"id": "C32", "title": "Transpose and derivative transpose kernels", "statement": "MATRIX_TRANSPOSE stores A(j,i) at (i,j), is an involution, and MATRIX_DERV_TRANSPOSE permutes derivative blocks so that block (k,l) of the result is block (l,k) of the argument.", "quantifier": "all dimensions and values, any result buffer", "why_tests_cant": "all sizes", "anchors": ["include/Matrix/MatrixHandler/MatrixTranspose/NaiveCPU/*.hpp"]}
{"id": "C33", "title": "Trace kernel", "statement": "MATRIX_TRACE gives the sum of the diagonal of a square matrix.", "quantifier": "all sizes and values", "why_tests_cant": "all sizes", "anchors": ["include/Matrix/MatrixHandler/MatrixTrace/NaiveCPU/MatTraceNaiveHandler.hpp"]}
{"id": "C34", "title": "Convolution kernel", "statement": "conv(X,K,strides,pads) has the documented output size and entry (i,j) = sum_{m,n} Xpad(i*sx+m, j*sy+n)*K(m,n). (True when the internal padding buffer is fresh; false for the naive backend when the buffer from an earlier convolution with another padding is reused.)", "quantifier": "all sizes, strides, pads (kernel not larger than the padded input), all previous convolutions", "why_tests_cant": "depends on which convolutions ran before", "anchors": ["include/Matrix/MatrixHandler/MatrixConvolution/NaiveCPU/MatConvNaiveHandler.hpp", "include/Matrix/BinaryOps/GenericMatConv.hpp"]}
{"id": "C35", "title": "Backends agree", "statement": "The CUDA kernels (add, subtract, Hadamard, scalar operations, element-wise functions, Kronecker, tiled product, tiled transpose) finish under every interleaving of the launched threads, access no memory outside their buffers and leave the same entries as the CPU kernels; Eigen and naive CPU kernels give the same matrices and reject the same operands. So the result does not depend on the backend selected.", "quantifier": "all dimensions, all interleavings of the threads of the grid, all contents of shared memory", "why_tests_cant": "all sizes that are not multiples of the tile", "anchors": ["include/Matrix/MatrixHandler/*/CUDA/src/*.cu"]}
{"id": "C36", "title": "Result buffers have the requested shape", "statement": "MatrixPool hands back a matrix with exactly the requested number of rows and columns; it keeps the old elements when the element count is unchanged and is all zero when newly created.", "quantifier": "all previous buffers and requested sizes", "why_tests_cant": "all histories", "anchors": ["include/MemoryManager/MemoryManager.hpp:MatrixPool"]}
{"id": "C37", "title": "Cached special matrices", "statement": "Eye(n), Zeros(r,c), Ones(r,c) return the identity, zero and all-one matrix of exactly the requested size after any sequence of earlier requests.", "quantifier": "all request sequences", "why_tests_cant": "unbounded request histories", "anchors": ["src/Matrix/MatrixBasics.cpp"]}
{"id": "C38", "title": "Matrix Eval returns the matrix value", "statement": "TensorR2::Eval(M) returns the matrix denoted by the expression (sum, difference, product, Hadamard, transpose, scalar operations, element-wise functions, nested matrix expressions) with the current entries of its variable matrices, when the expression is fresh or has been evaluated before.", "quantifier": "all well-dimensioned matrix expressions, sizes and values, repeated evaluations with changed entries", "why_tests_cant": "all expressions and sizes", "anchors": ["include/Matrix/MatrixInterface/MatrixVirtuals.ipp:eval,reset", "include/Matrix/BinaryOps/*.hpp:eval", "include/Matrix/UnaryOps/*.hpp:eval"]}
{"id": "C39", "title": "A new matrix expression sees current entries", "statement": "Evaluating a newly built matrix expression over a variable matrix X uses X's current entries (and DevalF of it the derivative with respect to the requested matrix). (Expected; false if X was already evaluated through another expression: the first Eval/DevalF of the new expression uses X's old cached value/derivative.)", "quantifier": "all histories that evaluate several matrix expressions over the same matrix", "why_tests_cant": "history dependent", "anchors": ["include/Matrix/CommonMatFunctions.hpp:Eval,DevalF", "include/Matrix/MatrixInterface/MatrixVirtuals.ipp:reset"]}
{"id": "C40", "title": "Forward matrix derivative has the documented block layout", "statement": "TensorR2::DevalF(F, X) is the (rF*rX) x (cF*cX) matrix whose entry (l*rX+i, k*cX+j) is the derivative of F(l,k) with respect to X(i,j), for sums, differences, products, Hadamard products, transposes, scalar multiples and shifts, element-wise functions and nested expressions. (Holds with the Eigen backend; with the hand-written CPU backend a second DevalF can be wrong, because Kronecker products keep old entries.)", "quantifier": "all matrix expressions, all sizes, all positions", "why_tests_cant": "all sizes and positions; the rules use Kronecker products whose index algebra must work for every size", "anchors": ["include/Matrix/BinaryOps/GenericMatProduct.hpp:devalF", "include/Matrix/BinaryOps/GenericMatSum.hpp:devalF", "include/Matrix/BinaryOps/GenericMatHadamard.hpp:devalF", "include/Matrix/UnaryOps/*.hpp:devalF", "include/Matrix/MatrixInterface/MatrixUtils.ipp:setDevalF"]}
{"id": "C41", "title": "Forward matrix derivative is the calculus derivative", "statement": "Over exact reals each entry of DevalF(F,X) is the limit of the difference quotient of F(l,k) in X(i,j).", "quantifier": "all matrix expressions within operator domains, all sizes", "why_tests_cant": "limit statement over all sizes", "anchors": ["include/Matrix/BinaryOps", "include/Matrix/UnaryOps"]}
{"id": "C42", "title": "Reverse matrix derivative is the gradient", "statement": "For a 1x1 named matrix expression F built by sums, differences, products, Hadamard products, transposes, scalar multiples and element-wise functions from matrices, after PreComp(F), DevalR(F, X) has the shape of X and entry (i,j) equals the derivative of F with respect to X(i,j), i.e. agrees with DevalF(F,X), with repeated occurrences of X, after any history of calls, for any iteration order of the adjoint maps and any number of DevalR calls. For a square F of any size it is the derivative of the trace. (False for operands that are themselves named, non-scalar expressions: PreComp is rejected; and for operands that are matrices of scalar expressions: their dependence on X is ignored.)", "quantifier": "all such expressions, all sizes, all histories of Eval, DevalF, PreComp and DevalR", "why_tests_cant": "all shapes, repeated occurrences and histories", "anchors": ["include/Matrix/BinaryOps/*.hpp:traverse", "include/Matrix/UnaryOps/*.hpp:traverse", "include/Matrix/CommonMatFunctions.hpp:PreComp,DevalR", "include/Matrix/MatrixInterface/MatrixVirtuals.ipp:traverse"]}
{"id": "C43", "title": "Reverse derivative through a convolution", "statement": "DevalR through conv gives the adjoints of the kernel and of the input. (Proved for the kernel with stride 1. False otherwise: the input's adjoint is computed by a plain convolution, has the input's shape only for 'same' padding and the right value only for kernels symmetric under rotation by 180 degrees.)", "quantifier": "all input, kernel and padding sizes", "why_tests_cant": "all sizes", "anchors": ["include/Matrix/BinaryOps/GenericMatConv.hpp:traverse"]}
{"id": "C44", "title": "vec does not disturb its operand", "statement": "vec(X) is X's entries stacked in storage order, its derivative has the derivatives of X's entries in the same order, and using it leaves other uses of X unchanged. (The values and derivatives hold for vec of operators, for a bare vec of a matrix, and in any sequence of such calls; non-interference is false: vec reshapes the matrix its operand returned and differentiates its operand by a row of the variables. A result held by the user changes shape, X*vec(X) is rejected, vec(F)+vec(trn(F)) is wrong, trn(a)*X*b + trn(vec(X))*vec(X) has a wrong derivative, and DevalF(X, X) after DevalF(vec(X), X) returns ones of the earlier call.)", "quantifier": "all matrices and all expressions using X and vec(X)", "why_tests_cant": "only visible when X is used twice", "anchors": ["include/Matrix/UnaryOps/GenericMatVec.hpp:eval"]}
{"id": "C45", "title": "Derived matrix functions", "statement": "Sigma (row, column, total sums), trace, MatrixFrobeniusNorm, broadcast, concat, SoftMax, pow<N>, MatrixExp<N> and MatrixLog<N> (truncated series), matrix/scalar and matrix/matrix (element-wise quotient), in any combination with the basic operators, have their mathematical values, and DevalF returns the derivatives of those values; wrong shapes are rejected. (False as it stands: the quotient is exp(log x - log y) and holds for positive entries only; MatrixExp<N> holds for N <= 20 only, because the factorial is computed in 64 bits and is zero from N = 66 on; broadcast with the default axis never evaluates except on a 1x1 matrix. The claim holds with these conditions.)", "quantifier": "all sizes, all N, all values, all nestings, any history of evaluations", "why_tests_cant": "all sizes and orders", "anchors": ["include/Matrix/CommonMatFunctions.hpp:324-487", "src/Matrix/CommonMatFunctions.cpp:26-32"]}
{"id": "C46", "title": "Shape of a zero gradient", "statement": "DevalR(F, X) for an X that F does not depend on is a zero matrix with X's shape. (Expected; false: it has F's shape.)", "quantifier": "all F and X", "why_tests_cant": "all shapes", "anchors": ["include/Matrix/CommonMatFunctions.hpp:DevalR"]}
{"id": "C47", "title": "Factorial", "statement": "Factorial(n) returns n! after any sequence of earlier calls, as long as n! fits in 64 bits, and n! modulo 2^64 otherwise.", "quantifier": "all n and all call histories", "why_tests_cant": "memo table histories", "anchors": ["src/Matrix/CommonMatFunctions.cpp:Factorial"]}
{"id": "C48", "title": "Activation functions and their derivative tables", "statement": "Sin, Cos, Exp, Log, Sqrt, Tanh, Sigmoid, ReLU, LeakyReLU, Abs are paired with functions that are their derivatives at every point of differentiability inside the domain.", "quantifier": "all real arguments in the domain (excluding 0 for ReLU, LeakyReLU, Abs)", "why_tests_cant": "limit statement", "anchors": ["include/Matrix/UnaryFunctions.hpp", "include/Matrix/CommonMatFunctions.hpp"]}
{"id": "C49", "title": "Training loop covers the data exactly in bounds", "statement": "For batch size b <= number of rows n, one epoch of NeuralNet::train terminates, every mini-batch window lies inside the data, and every row is used in at least one mini-batch.", "quantifier": "all n and b", "why_tests_cant": "all sizes", "anchors": ["example/NeuralNet/include/NeuralNet.hpp:train"]}
{"id": "C50", "title": "Accuracy is a percentage", "statement": "NeuralNet::accuracy returns a value between 0 and 100. (Expected; false when the batch size does not divide n-b, and undefined for n=b.)", "quantifier": "all n, b and predictions", "why_tests_cant": "all sizes", "anchors": ["example/NeuralNet/include/NeuralNet.hpp:accuracy"]}
{"id": "C51", "title": "Gauss-Newton normal equations", "statement": "computeAB leaves A = sum_i J_i^T J_i and B = sum_i J_i^T r_i over all data rows, independent of the previous contents of A and B; A is symmetric; and with an exact linear solve one iteration solves a linear least squares problem (its normal equations hold at the new point).", "quantifier": "all data sizes, residuals and Jacobians", "why_tests_cant": "all sizes", "anchors": ["example/GaussNewton/src/GaussNewton.cpp:computeABScalar,computeABMatrix,updateScalar"]}
{"id": "C52", "title": "Random fill uses the requested distribution parameters", "statement": "FillRandomValues<D>(M, params) samples from D(params) on each call. (Expected; false: the parameters of the first call are kept for all later calls.)", "quantifier": "all call sequences", "why_tests_cant": "call histories", "anchors": ["include/Matrix/Matrix.hpp:FillRandomValues", "example/NeuralNet/include/NeuralNet.hpp:randomizeDropout"]}
{"id": "C53", "title": "Forward derivative of a convolution", "statement": "DevalF through conv: component (u,w) of entry (i,j) is sum_{a,b} Xpad(i*sx+a,j*sy+b)*dK_{uw}(a,b) + dXpad_{uw}(i*sx+a,j*sy+b)*K(a,b), i.e. the calculus derivative of conv(X,K). (True when the two internal padding buffers are fresh or were left by a call of the same sizes; false after a call with another padding and the same element count.)", "quantifier": "all sizes, strides, pads, derivative shapes, all previous convolutions", "why_tests_cant": "depends on which convolutions ran before", "anchors": ["include/Matrix/MatrixHandler/MatrixConvolution/NaiveCPU/MatDervConvNaiveHandler.hpp", "include/Matrix/BinaryOps/GenericMatConv.hpp:devalF"]}
{"id": "C54", "title": "Convolution dimension check", "statement": "conv accepts every kernel that fits into the padded input and rejects a kernel that is larger than the padded input. (The second half is false: a kernel too tall but not too wide is accepted.)", "quantifier": "all sizes, pads and strides (size_t arithmetic)", "why_tests_cant": "wrap-around on all sizes", "anchors": ["include/Matrix/BinaryOps/GenericMatConv.hpp:verifyDim"]}
{"id": "C55", "title": "A computed gradient survives evaluation", "statement": "After PreComp(F), calling Eval(F) or DevalF(F, Y) does not affect later DevalR(F, X). (Expected; false: the reset at the start of Eval and DevalF empties the adjoint map of F, DevalR then silently returns zeros in the shape of F.)", "quantifier": "all F, X and interleavings of Eval, DevalF, PreComp and DevalR", "why_tests_cant": "depends on the order of calls", "anchors": ["include/Matrix/CommonMatFunctions.hpp:Eval,DevalF,DevalR", "include/Matrix/MatrixInterface/MatrixVirtuals.ipp:reset"]}
{"id": "C56", "title": "PreComp can be repeated", "statement": "Calling PreComp(F) again gives the same gradients. (True when the operands of F are matrices; false for scalar named expressions nested three deep: the second pass may write a product into a header that shares the buffer of an adjoint in use, depending on the iteration order of the hash map.)", "quantifier": "all F, all numbers of repetitions, all iteration orders", "why_tests_cant": "histories and map orders", "anchors": ["include/Matrix/BinaryOps/GenericMatProduct.hpp:traverse", "src/Matrix/MetaMatrix.cpp:incFunc,clearClone", "include/Matrix/MatrixInterface/MatrixConstructors.ipp:clone,assignClone"]}
{"id": "C57", "title": "A symbolic derivative stays right when the original is evaluated too", "statement": "After d = SymDiff(e, v), evaluating e and then changing variables does not disturb later evaluations of d. (Expected; false: evaluating e marks nodes shared with d as up to date. If only d is evaluated, C13 holds.)", "quantifier": "all graphs covered by C13 and all interleavings of evaluations of e and d with changes of the variables", "why_tests_cant": "depends on the order of calls", "anchors": ["src/Scalar/Variable.cpp:symDeval,symEval,resetImpl", "src/Scalar/Expression.cpp:eval,SymDiff"]}
{"id": "C58", "title": "Symbolic gradients", "statement": "SymGradient(e, xs) and SymMatDiff(e, X) return expressions; entry i, evaluated or differentiated at any later values of the variables and parameters, gives the derivative of e with respect to x_i (and its derivatives) at those values. (True as long as the other entries are not evaluated in between; false if the entries are evaluated in turn with changes of the variables in between: an entry evaluated for the first time after a change may use values from before it.)", "quantifier": "all expression graphs of C15, all vectors of variables, all later sequences of updates and queries", "why_tests_cant": "histories of calls over shared memoised nodes", "anchors": ["include/Matrix/CommonMatFunctions.hpp:SymGradient,SymMatDiff", "src/Scalar/Variable.cpp:symDeval,resetImpl", "src/Scalar/Expression.cpp:SymDiff,operator="]}
{"id": "C59", "title": "Matrix inverse", "statement": "For every expression e whose value is a square invertible matrix F, Eval(inv(e)) is the inverse of F; DevalF and, for a named matrix, PreComp/DevalR give the derivatives of the inverse in the sense of calculus, -F^-1 (dF) F^-1; for a non-square e no call returns a matrix. Given that the backend's numerical routine inverts invertible matrices.", "quantifier": "all sizes, expressions with nested operators and named matrices, values and call histories", "why_tests_cant": "all sizes and matrices, limits", "anchors": ["include/Matrix/UnaryOps/GenericMatInv.hpp:inv,eval,devalF,traverse", "include/Matrix/MatrixHandler/MatrixInverse/Eigen/MatInverseEigenHandler.hpp", "src/Matrix/MatOperators.cpp:MatrixInverse"]}
{"id": "C60", "title": "Determinant", "statement": "For every square e with value F, Eval(det(e)) is the determinant of F (1x1); DevalF and PreComp/DevalR give its derivative. (The derivatives are right where F is invertible, false for singular F: the code multiplies the determinant with the inverse.) For a non-square e no call returns a matrix. Given that the backend's numerical routines are right.", "quantifier": "all sizes, expressions with nested operators and named matrices, values and call histories", "why_tests_cant": "all sizes and matrices, limits", "anchors": ["include/Matrix/UnaryOps/GenericMatDet.hpp:det,eval,devalF,traverse", "include/Matrix/MatrixHandler/MatrixDet/Eigen/MatDetEigenHandler.hpp", "src/Matrix/MatOperators.cpp:MatrixDet"]}
{"id": "C61", "title": "Matrix objects are values", "statement": "Whatever a program does by constructing, filling, copying, moving, assigning (also to themselves), reshaping, writing to, copying data between and destroying matrices and views of its own arrays: no undefined behaviour and no failed check occurs as long as it keeps to the contract (no use of moved-from matrices, null or deleted arrays, indices out of range, overlapping copyData), every matrix has the dimensions and entries it would have if matrices were values, a copy is never affected by what happens to the original, and views show the user's array. Zero dimensions, indices out of range, wrong sizes in copyData and reshape, and setMatrixPtr on an owning matrix are rejected.", "quantifier": "all programs over matrix objects and user arrays, all lengths, dimensions and values", "why_tests_cant": "all histories of object lifetimes and aliasing", "anchors": ["include/Matrix/MatrixInterface/MatrixConstructors.ipp:Matrix,operator=,swap,~Matrix", "include/Matrix/MatrixInterface/MatrixAccessors.ipp:operator(),copyData,setMatrixPtr", "include/Matrix/MatrixInterface/MatrixUtils.ipp:reshape", "include/MemoryManager/MemoryStrategy/CPUMemoryStrategy/CPUMemoryStrategy.hpp:allocate,deallocate"]}
{"id": "C62", "title": "Matrix memory is released exactly once, and clones", "statement": "Every buffer the library allocates has exactly one owning matrix at every moment, no other memory is ever freed, and when all matrices are gone nothing is left. A clone is an alias: reads, copies and writes through it are those of the original, and its end changes nothing. (Refuted for clones: after the end of the original the clone reads through a null pointer; cloning into a matrix with entries of its own leaks them; setMatrixPtr on a clone redirects the owning original.)", "quantifier": "all programs over matrix objects, arrays and clones", "why_tests_cant": "all histories of object lifetimes", "anchors": ["include/Matrix/MatrixInterface/MatrixConstructors.ipp:clone,assignClone,~Matrix", "include/Matrix/MatrixInterface/MatrixAccessors.ipp:allocator,deallocator,setMatrixPtr", "include/MemoryManager/MemoryStrategy/CPUMemoryStrategy/CPUMemoryStrategy.hpp:allocate,deallocate"]}
{"id": "C63", "title": "Copies of matrices can be used in expressions", "statement": "Eval of an expression that uses a copy of a matrix gives the value at the copy's entries. (True if the original has not taken part in an evaluation before it is copied; false otherwise: the copy takes over the flag that it is evaluated, but not the result, so the first Eval sees zeros.)", "quantifier": "all expressions, entries, earlier calls and backends", "why_tests_cant": "depends on the history of calls before the copy", "anchors": ["include/Matrix/MatrixInterface/MatrixConstructors.ipp:Matrix(const Matrix&)", "include/Matrix/MatrixInterface/MatrixVirtuals.ipp:eval,reset"]}
{"id": "C64", "title": "Gradients by plain matrices of numbers", "statement": "PreComp(F) followed by DevalR(F, W) for a Matrix<Type> W that occurs in the named square expression F returns a matrix of the shape of W whose entry (i,j) is the derivative of the trace of F by W(i,j); over the reals and for scalar F it is the limit of the difference quotients when the number W(i,j) is changed.", "quantifier": "all expressions, sizes, entries, backends, schedules, call histories and orders of asking", "why_tests_cant": "limits; all histories and schedules", "anchors": ["include/Matrix/CommonMatFunctions.hpp:PreComp,DevalR", "example/NeuralNet/include/NeuralNet.hpp:accumulateGradients"]}
{"id": "C65", "title": "One training step is a simultaneous gradient step", "statement": "One mini-batch of NeuralNet::train changes every entry of every weight and bias by the learning rate times the derivative of the error by this entry, all derivatives taken at the old parameters; the result does not depend on threading, the interleaving of threads or the backend, nothing else but the batch matrices changes, and the loss shown is the error at the old parameters. (Refuted when one Layer is added twice: updates can be lost; and when a layer is not used in the error: training stops.)", "quantifier": "all networks over plain matrices, parameters, data, masks, learning rates, thread interleavings and earlier calls", "why_tests_cant": "all interleavings of threads; limits", "anchors": ["example/NeuralNet/include/NeuralNet.hpp:resetMiniBatch,accumulateGradients,optimize,GDOptimizer,train", "example/NeuralNet/src/Layer.cpp:WBatch,bBatch"]}
{"id": "C66", "title": "Training is a chain of gradient steps over the data windows", "statement": "NeuralNet::train always finishes, and its effect on the parameters is that of one gradient step (in the sense of the previous property) per window of rows, over windows that lie inside the data and cover it, repeated for every epoch; computing the accuracy between epochs does not change the parameters.", "quantifier": "all networks, data, batch sizes, numbers of epochs, interleavings, dropout masks", "why_tests_cant": "unbounded numbers of steps, all interleavings", "anchors": ["example/NeuralNet/include/NeuralNet.hpp:train,accuracy"]}
{"id": "C67", "title": "Every dropout layer has a mask of its own, and masks are reused", "statement": "After any sequence of network constructions every Dropout call of the current network has its own mask matrix of the dimensions of its argument, shared with no other call; over the whole life of the network object no more masks of any dimensions are allocated than one network needed at most. Randomizing writes exactly 0 or 1/(1-p) to all entries of these masks, not randomizing writes ones, and no other matrix is written. (Refuted: the expected value of a mask entry is 1 - all masks are drawn with the rate of the first mask of the program.)", "quantifier": "all sequences of networks, dimensions, rates and random sources", "why_tests_cant": "all histories of constructions, all random sources", "anchors": ["example/NeuralNet/include/NeuralNet.hpp:Dropout,networkLayers,randomizeDropout", "include/Matrix/Matrix.hpp:FillRandomValues"]}
{"id": "C68", "title": "Derivatives by all elements of a matrix of variables", "statement": "TensorR2::DevalF(e, M) for an Expression e returns a matrix of the shape of M whose entry (i,j) is the derivative of e by M(i,j), whether e is differentiated directly or through copies and in whatever order the elements are processed one after the other, TensorR2::DevalR(e, M) returns the same matrix, and no existing object changes. (Refuted: when e itself was never evaluated but an expression it uses was, and its variables changed since; and when the calls on the copies overlap, as the parallel execution policy allows.)", "quantifier": "all reachable states, expressions, matrices, processing orders and interleavings", "why_tests_cant": "all histories before the call and all orders of the parallel algorithm", "anchors": ["include/Matrix/CommonMatFunctions.hpp:DevalF(T&,const Matrix<Variable>&,bool),DevalR(T&,const Matrix<Variable>&)", "src/Scalar/Expression.cpp:operator=(const Expression&)"]}
{"id": "C69", "title": "Scalar expressions as operands of matrices: values and Jacobians", "statement": "For a scalar Variable, Parameter or Expression s and a matrix expression M of any kind, Eval of s*M, M*s (and M/s as M*(1/s)) is the value of s times every entry of M, Eval of s+M and M+s the value of s plus every entry, after any earlier calls; DevalF by a Matrix<Variable> X, whose entries s may use, gives in block (l,k) the product rule ds/dX * M(l,k) + s * dM(l,k)/dX and the sum ds/dX + dM(l,k)/dX, over the reals the limit of the difference quotients.", "quantifier": "all scalars, matrix expressions, sizes, histories, backends (value) and schedules", "why_tests_cant": "all expressions and histories; limits", "anchors": ["include/Matrix/BinaryOps/GenericMatProduct.hpp:GenericMatScalarProductExp,operator*,operator/", "include/Matrix/BinaryOps/GenericMatSum.hpp:GenericMatScalarSumExp,operator+"]}
{"id": "C70", "title": "Reverse mode with scalar operands", "statement": "PreComp(F) followed by DevalR(F, v), for a Variable v of the scalar operands of a named square matrix expression F, gives a 1x1 matrix with the derivative of the trace of F by v (over the reals the limit of the difference quotients); DevalR(F, X) for a Matrix<Variable> on which these scalars do not depend is the derivative by X as in C42. (Refuted when v is also an entry of a Matrix<Variable> X of F: DevalF(F, X) has both contributions, DevalR(F, X) and DevalR(F, v) only one each.)", "quantifier": "all expressions, scalars, sizes, histories, backends, schedules and hash-map orders", "why_tests_cant": "all histories, orders of the adjoint caches; limits", "anchors": ["include/Matrix/BinaryOps/GenericMatProduct.hpp:GenericMatScalarProductExp::traverse", "include/Matrix/BinaryOps/GenericMatSum.hpp:GenericMatScalarSumExp::traverse", "include/Matrix/CommonMatFunctions.hpp:PreComp,DevalR"]}
{"id": "C71", "title": "Assigning a new expression to a named matrix", "statement": "After F = e for a Matrix<Expression> F that does not occur in e, at any point of a program of Eval, DevalF and assignments, Eval(F) and DevalF(F, X) give the value and derivative of e, and Eval of every expression built on F and evaluated before gives its value with e in the place of F. Matrices returned earlier for other expressions keep their entries; those returned for F itself lose their buffer at the assignment. (Refuted: when F was evaluated and an expression D using F was not, the first Eval(D) after the assignment reads the freed buffer.)", "quantifier": "all expressions, histories of evaluations and assignments, sizes, backends (value) and schedules", "why_tests_cant": "all histories and expressions", "anchors": ["include/Matrix/Matrix.hpp:operator=(const IMatrix<Z>&),eval,devalF,reset,deallocator"]}
{"id": "C72", "title": "Matrices handed out stay valid, the client's matrices stay untouched", "statement": "The matrix Eval(F) returned for a Matrix<Expression> F remains a live matrix of F's dimensions through any further Eval and DevalF calls; every later Eval(F) returns that same matrix, and after DevalF(F, X) it holds the value of F at the entries of that call, in a matrix different from the derivative (so v = Eval(F); d = DevalF(F, X) may be used together). A derivative keeps its entries under any later Eval calls. Matrices the client created itself are never changed by Eval, DevalF or assignments of expressions. (Refuted: a derivative does not survive the next DevalF of the same expression; both calls return the same matrix.)", "quantifier": "all expressions, histories of evaluations, differentiations and assignments, sizes, schedules, backends (value)", "why_tests_cant": "all histories", "anchors": ["include/Matrix/Matrix.hpp:eval,devalF,getMatrixPtr", "include/Matrix/CommonMatFunctions.hpp:Eval,DevalF", "include/MemoryManager/MemoryManager.hpp:MatrixPool"]}
{"id": "C73", "title": "Gauss-Newton with a matrix of residuals", "statement": "A GaussNewton object with an OracleMatrix for a residual column F (a Matrix<Expression>) and a row x of variables, data matrices of at least setData-size rows: solve() comes to its end without an error, and performs exactly max_iter steps; each step moves every entry of x by the solver's answer for A = sum over the data rows of J^T J and B = sum of J^T r, where r is the exact value of F and J its exact Jacobian by the entries of x with the parameters set to that data row. Nothing but x and the parameters bound to data changes, the data matrices keep their contents, and every settled expression is evaluated right afterwards. The oracle is refused unless F is a column and x a row. For residuals affine in x and an exact solver, one step ends at a least-squares solution.", "quantifier": "all residual expressions, data, sizes, numbers of iterations, earlier histories of the program, schedules, solvers", "why_tests_cant": "all expressions, data sets and earlier histories", "anchors": ["example/GaussNewton/src/OracleMatrix.cpp:OracleMatrix,eval,jacobian,evalMat,getVariableSize", "example/GaussNewton/src/GaussNewton.cpp:setDataUnit,computeABMatrix,updateMatrix,solve", "include/Matrix/CommonMatFunctions.hpp:Eval,DevalF"]}
{"id": "C74", "title": "Every call on matrices ends, cyclic definitions included", "statement": "Eval, DevalF and PreComp of matrix expressions return, are rejected by an assertion or leave the defined behaviour after a bounded recursion; the bound depends only on the expressions of the program (number of Matrix<Expression> objects and depth of their definitions), not on the entries, the state, earlier calls, schedule or backend, and holds for definitions that refer to themselves or to each other in cycles. For programs without cycles the calls within this bound return the right values. (Refuted: cyclic definitions such as F = G + A; G = F + A can be evaluated; the first Eval(F) dereferences a null pointer.)", "quantifier": "all expression graphs with finitely many named expressions, cyclic ones included, all states, entries, schedules, backends", "why_tests_cant": "non-termination on some graph or after some history cannot be excluded by finitely many runs", "anchors": ["include/Matrix/MatrixInterface/MatrixVirtuals.ipp:eval,devalF,traverse,reset", "include/Matrix/MatrixInterface/MatrixUtils.ipp:resetImpl", "include/Matrix/CommonMatFunctions.hpp:Eval,DevalF,PreComp", "include/Matrix/BinaryOps", "include/Matrix/UnaryOps"]}
{"id": "C75", "title": "Eval of matrix expressions is reproducible to the bit, in floating point too", "statement": "With the naive handlers the entries returned by Eval are the outcome of one fixed sequence of the scalar operations of the number type, determined by the expression and the current entries alone: no law of arithmetic is used, so this holds for IEEE doubles. Two evaluations with the same entries agree to the bit whatever the schedules and the calls made before. In IEEE double precision a named expression F = e has in position (i,j) the value of e (with -0 as +0) if the other entries of the row of e are finite. (Refuted: F has the value of its right-hand side for all doubles. It is computed as the right-hand side times a unit matrix, so an infinite or NaN entry makes all other entries of its row NaN: F = [inf, 1] evaluates to [inf, NaN].)", "quantifier": "all expression graphs, entries (infinities and NaN included), schedules, histories of Eval calls; any number type", "why_tests_cant": "floating point results could depend on the schedule or on what was evaluated before; runs sample a few schedules, and infinite entries are rarely tried", "anchors": ["include/Matrix/MatrixHandler/MatrixMultiplication/NaiveCPU/MatMulNaiveHandler.hpp", "include/Matrix/Matrix.hpp:eval,Matrix(const T&)", "include/Matrix/MatrixInterface/MatrixVirtuals.ipp:eval"]}
{"id": "C76", "title": "A matrix that is assigned to again from itself has the value that the assignments give when executed in order", "statement": "After F = a0; F = a1; F = a2; ... where the right-hand sides are over F itself and over matrices built before F, Eval(F) returns, in every state that earlier Eval and DevalF calls on F lead to and for all entries at the time of the call, the matrix that executing the assignments one after the other gives, F standing inside each right-hand side for its value before the assignment; an assignment that does not mention F discards the ones before it. DevalF(F, X) returns the derivative of that composition. (Refuted: this also holds if F is mentioned through a named matrix. After F = X; A = F + X; F = A * X; the library does not notice that A mentions F, forgets F = X, and Eval(F) dereferences a null result.)", "quantifier": "all expression graphs, all lists of assignments of one shape, entries, schedules, histories of Eval and DevalF calls on F and of assignments F = a (a over F) between them", "why_tests_cant": "tests try one or two re-assignments of small matrices and one call; the intermediate values are kept in the same object that the next assignment reads, so stale flags or results show only after particular histories", "anchors": ["include/Matrix/Matrix.hpp:operator=", "include/Matrix/MatrixInterface/MatrixVirtuals.ipp:eval,devalF,reset", "include/Matrix/MatrixInterface/MatrixUtils.ipp:findMe", "include/CommonHeader.hpp:BINARY_FIND_ME", "include/Matrix/CommonMatFunctions.hpp:Eval,DevalF"]}
{"id": "C77", "title": "Differences and quotients of a matrix and a scalar", "statement": "For a number or scalar expression s and a matrix expression M, s - M, M - s and M / s evaluate, after any earlier calls and for the entries at the time of the call, to the matrix with the entries s - M(i,j), M(i,j) - s, M(i,j) / s; DevalF gives the block matrix of their derivatives (over the reals, the calculus derivatives of these entries), including the dependence of s on the variables.", "quantifier": "all matrix expressions, numbers and scalar operands, entries, schedules, call histories", "why_tests_cant": "the operators are rewritten into a sum with a scaled operand, so a swapped operand or a lost sign shows only for particular operands; tests use one matrix and one scalar", "anchors": ["include/Matrix/BinaryOps/GenericMatSub.hpp:operator-", "include/Matrix/BinaryOps/GenericMatProduct.hpp:operator/", "include/Matrix/BinaryOps/GenericMatSum.hpp:operator+", "include/Matrix/CommonMatFunctions.hpp:Eval,DevalF"]}
{"id": "C78", "title": "The Gaussian example computes the normal density and its derivatives", "statement": "The program of example/Gaussian.cpp - a Variable x, the expression (1/sqrt(2*PI*pow(sig,2)))*exp(-pow((x-mu),2)/(2*pow(sig,2))) built in a factory expression and copied - answers Eval with the density exp(-(x-mu)^2/(2 sig^2))/sqrt(2 PI sig^2), DevalF and PreComp+DevalR both with its derivative -(x-mu)/sig^2 times the density, and after SymDiff the symbolic derivative evaluates to that derivative and its forward and reverse derivatives to ((x-mu)^2/sig^4-1/sig^2) times the density; all of this again after every later assignment to x.", "quantifier": "every mean, every non-zero standard deviation, every positive value of the macro PI, every first number and every list of later numbers of x (for the symbolic half: different from the mean), every earlier history of the program, either order of evaluating operands in the symbolic mode", "why_tests_cant": "the example prints six numbers for one x, one mean and one deviation; that the three modes agree with calculus is a statement about all of them", "anchors": ["example/Gaussian.cpp:Gaussian", "example/Gaussian.cpp:main", "include/Scalar/Expression.hpp:ExpressionFactory"]}
{"id": "C79", "title": "Reading the data of the neural network example", "statement": "LoadData(path, X, Y) of the neural network example comes to its end exactly if every row of the file has a place: a readable label below the number of columns of Y, then readable numbers, at most as many as X has columns, and no more rows than the matrices have. Then X(i,j) is the j-th number of row i divided by 255 and Y(i,label of row i) is 1; all other entries of X and Y and all other matrices are as before. For new matrices in CPU memory the rows of Y are one-hot (zero without a label). With the pinned memory the example asks for, and when a second file is loaded into the same matrices, they are not: the other entries keep what was there.", "quantifier": "all files (any number and lengths of rows, unreadable fields included), all sizes of X and Y, all contents of the memory, every number type", "why_tests_cant": "files with a missing, extra or unreadable field at some place and stale memory contents are not reached by loading one data set", "anchors": ["example/NeuralNet/main.cpp:LoadData,MNISTPrediction", "include/Matrix/MatrixInterface/MatrixAccessors.ipp:operator()", "include/MemoryManager/MemoryStrategy/GPUMemoryStrategy/GPUPinnedMemoryStrategy.hpp:allocate"]}
{"id": "C80", "title": "The network of the neural network example", "statement": "For any layers whose matrices fit in size: Eval of the example's final layer returns, for every sample, the softmax of the scores the layers compute from X (dropout mask times LeakyReLU of X*transpose(W) plus bias, layer after layer): positive numbers with sum 1. With one-hot labels Eval of the example's error returns the sum over the samples of minus the logarithm of the probability predicted for the label.", "quantifier": "all numbers and sizes of layers, batch sizes, weights, biases, masks, inputs and labels, all states the program can be in, all schedules", "why_tests_cant": "the value is claimed for every network, weight and input; a test computes one network, and a swapped transpose or axis shows only when the sizes differ", "anchors": ["example/NeuralNet/main.cpp:CustomNet,networkLayers,error", "example/NeuralNet/include/NeuralNet.hpp:Dropout", "include/Matrix/CommonMatFunctions.hpp:SoftMax,Sigma,broadcast"]}
{"id": "C81", "title": "Gradients of objectives written with the library's functions", "statement": "After PreComp(error), DevalR(error, W) for matrices of numbers W in error, in any order, returns matrices of the sizes of W whose entries are the derivatives of the error's value - as a function over the reals, with the quotients, softmax, sums, powers written out - by the entries of W. For the neural network example: the derivatives of the cross entropy of the softmax scores by all weights and biases, wherever no unit is at the kink of its LeakyReLU.", "quantifier": "all expressions built by calls of the library's functions whose value is one number, all entries at which they are differentiable, all orders and numbers of queries, all networks, all histories, schedules and orders of the cache's hash table", "why_tests_cant": "a finite-difference test checks one entry at one point to a few digits; the claim is equality with the derivative for every network and every point", "anchors": ["include/Matrix/CommonMatFunctions.hpp:DevalR,PreComp,SoftMax,Sigma", "example/NeuralNet/include/NeuralNet.hpp:accumulateGradients", "example/NeuralNet/main.cpp:error,networkLayers"]}
{"id": "C82", "title": "A training step of the example network is gradient descent on the cross entropy", "statement": "One mini-batch of the neural network example - new dropout masks and data rows are written, Eval(error) is taken for display, PreComp and DevalR are called for every weight and bias, and the optimizer (in sequence or one thread each) updates them - always completes; the loss displayed is the cross entropy of the softmax scores of the network at the new rows and masks, and every entry of every weight and bias changes by alpha times the derivative of that cross entropy by the entry, all derivatives taken at the values before the update.", "quantifier": "all networks of LeakyReLU layers with dropout, all sizes, all one-hot labels, all weights at which no unit is at the kink, all alpha, with and without threads and display, all interleavings of the optimizer's threads, all earlier histories, schedules and hash orders", "why_tests_cant": "a unit test runs one network for a few steps and looks whether the loss falls; a gradient of the wrong layer, a stale value or an update seen by a later gradient also lets it fall", "anchors": ["example/NeuralNet/include/NeuralNet.hpp:accumulateGradients,train,GDOptimizer", "example/NeuralNet/main.cpp:error,networkLayers"]}
