# Formal model of Kartz4code/CoolDiff in Rocq (Coq 8.16.1)

How to read the development: `properties.jsonl` lists the properties in English, `MANIFEST.json` names the theorems of
each, `rocq/theories/Prop*.v` contain exactly those theorems (short proofs, `Print Assumptions`, and beside each theorem
`Example`s that meet its hypotheses on a concrete, non-trivial program). Everything else is model, specification or lemma.

## 1. Trusted base

* Coq 8.16.1's kernel (`coqc`, flags of `rocq/_CoqProject` only: `-Q theories Verif`). No plugins, no `Admitted`, no
  axioms of our own, no functors or module types, no disabled checks.
* Axioms, all of the standard library, as printed by `Print Assumptions` (repeated at the end of every `Prop*.v`), with
  SFD = `ClassicalDedekindReals.sig_forall_dec`, SND = `ClassicalDedekindReals.sig_not_dec`,
  FE = `FunctionalExtensionality.functional_extensionality_dep`, CL = `Classical_Prop.classic`. They come from the
  construction of the reals and from lemmas of its analysis library; no proof here applies them directly.

* Closed under the global context (no axioms): every theorem not listed below (205 of 260).
* SFD + SND + CL + FE: `C04_forward_is_derivative`, `C04_reverse_is_derivative`, `C11_operator_sugar`, `C14_constant_quotient_refuted`, `C15_higher_orders`, `C15_sqrt_refuted`, `C21_hessianR`, `C21_hessianR_refuted`, `C21_oracle_one`, `C21_symHessian`, `C21_symHessian_refuted`, `C41_limit`, `C45_broadcast_refuted`, `C45_derivatives`, `C45_exponential_refuted`, `C45_quotient_refuted`, `C45_values`, `C48_activation_derivatives`, `C48_activation_values`, `C51_linear_least_squares`, `C51_one_iteration`, `C53_calculus`, `C58_gradient_entry`, `C59_limit`, `C60_limit`, `C60_singular_refuted`, `C64_limit`, `C65_real`, `C67_first_rate_decides`, `C67_mean_refuted`, `C67_not_randomized`, `C67_randomized`, `C69_limit`, `C70_limit`, `C73_least_squares`, `C75_infinity_refuted`, `C75_named`, `C77_limit`, `C78_derivatives`, `C78_numeric`, `C78_symbolic`, `C80_error`, `C80_prediction`, `C81_gradient`, `C81_network`, `C82_minibatch`
* SFD + FE: `C24_comparison`, `C24_correct_operators`, `C24_real_minus_complex`, `C24_real_over_complex`, `C24_refuted`, `C50_accuracy_when_divisible`, `C50_over_100_refuted`
* SFD + SND + FE: `C45_shapes_checked`
* SFD: `C50_equal_sizes_refuted`

* The faithfulness of the hand-written model to the C++ text. Every definition cites the file and lines it models; each
  file's header lists its simplifications. Nothing was executed against the C++ code (the sandbox cannot build it).

## 2. What is modelled

Paths relative to /repo; files relative to `rocq/theories`.

| Code | Model | Specification |
|---|---|---|
| number type `Type` (real, also an opaque float) and its laws where needed | `Num.v`, `NumInst.v` (Z, R) | same |
| scalar operators `include/Scalar/{BinaryOps,UnaryOps}`, custom operators, `Variable`, `Parameter`, `Expression`, `MetaVariable`, `CommonFunctions` (Eval, DevalF, PreComp, DevalR): eval, devalF, traverse, reset, findMe, visited flags, caches | `ScalarModel.v`, client commands in `ScalarUser.v` part 2 | `ScalarSpec.v`, `ScalarUser.v` part 1 |
| symEval / symDeval / SymDiff, memo tables, temporaries; `SymHessian`, `SymGradient`, `HessianR` loops | `ScalarSym.v`, `SymHess.v` | formulas over the reals in `SymCalc.v`, `SymHessCalc.v` |
| object level of `Variable` / `Parameter` (copy, move, assign) | `VarObj.v` | `VarObjSpec.v` (alias classes) |
| complex helpers of `CommonHeader`, `Factorial`, training loop, accuracy, random fill | `Misc.v` | in `PropMisc.v` |
| activation functions and derivative tables, host and device | `Activation.v` | calculus (`Calculus.v`) |
| `Matrix` buffers, accessors, blocks, rows, columns, padding, `MatrixPool`, special-matrix registry | `MatMem.v`, `Kernels.v` | index equations in `KernelStep.v` (`holds`) |
| naive CPU handlers (as loops with arbitrary schedules), Eigen handlers, dispatch | `Kernels.v`, `Backend.v`, `Square.v`, `Conv.v` | `madd`, `mmul`, `mkron`, ... in `Backend.v`; `Determ.v` (inverse, determinant) |
| CUDA kernels: interleaving machine with barriers, shared memory and bounds | `Cuda.v`, `CudaKernels.v`, `CudaTiled.v` | entry equations in `PropBackend.v` |
| matrix expression engine: sum, difference, product, Hadamard, scalar operators, Kronecker, transpose, unary functions, inverse, determinant; leaves (matrices of numbers, variables, parameters, expressions), named matrices; eval, devalF, reset, scratch arrays | `Slots.v`, `Exec.v`, `MatEngine.v`, `MatGraph.v` | `MatSpec.v` (`den`, `dif`, block layout) |
| reverse mode of matrices: traverse, adjoint caches, PreComp, DevalR | `MatRev.v`, `RevVals.v` | gradient of `dif` |
| `vec` | `Vec.v` | reshaped `den` / `dif` |
| convolution operator: value, forward derivative, the kernel calls of traverse | `Conv.v`, `ConvRev.v` | explicit sums in `ConvProofs.v`, `ConvDerv.v` |
| derived functions (`CommonMatFunctions`: quotient, broadcast, Sigma, trace, norm, concat, SoftMax, pow, MatrixExp, MatrixLog) | `MatFun.v` | `MatFunSpec.v` |
| Matrix objects: constructors, assignment, clone, destructor, memory strategy | `MatObj.v` (spec `MatObjSpec.v`, proofs `MatObjOk.v`) | `PropMatObj.v` |
| Copy constructor and evaluation flags | `MatCopy.v` | `PropMatCopy.v` |
| `Matrix<Expression>::operator=` with an expression not using the matrix | `MatAssign.v` | `PropAssign.v` |
| Lifetime of returned matrices | `MatEval.v`, `MatDeval.v` (`grew`, `stable`) | `PropStable.v` |
| `OracleMatrix.cpp`, `GaussNewton.cpp` with matrices | `GaussMatrix.v`, `MatEnough.v` | `PropGaussMatrix.v` |
| Termination of the matrix engine | `MatEnds.v` | `PropMatEnds.v` |
| Eval in floating point | `FloatEval.v` | `PropFloat.v` |
| Matrices assigned to several times | `MatRec.v` `MatRecSim.v` `MatRecOk.v` `MatRecRun.v` `MatRecSpec.v` `MatRecGrow.v` | `PropMatRec.v` |
| Differences and quotients with scalars | `PropMatDiff.v` (build) | in `PropMatDiff.v` (entry, slope, curve) |
| Gaussian example | example/Gaussian.cpp:27-58 | `GaussCurve.v`, `PropGaussian.v` |
| Data loading of the neural network example | example/NeuralNet/main.cpp:48-79 | `LoadData.v`, `PropData.v` |
| Network of the neural network example | example/NeuralNet/main.cpp:13-45 | `ExampleNet.v`, `PropNet.v` |
| Gradients of function-built objectives | CommonMatFunctions.hpp:95-180, 297-487; NeuralNet.hpp | `MatFunGrad.v`, `PropFunGrad.v` |
| Training step of the example network | NeuralNet.hpp:12-115, 340-400; main.cpp:14-42 | `PropNetTrain.v` |
| NeuralNet example: layers, mini-batch, threads, train | `Threads.v`, `Train.v` | `TrainSpec.v`, `Param.v` (derivatives by numbers) |
| NeuralNet example: dropout masks | `Dropout.v` | in `PropDropout.v` |
| scalar Variables, Parameters, Expressions as operands of matrices (product, sum) | in `MatEngine.v`, `MatRev.v` (`USProdE`, `USSumE`) | `MatSpec.v`, `PropMatScalar.v` |
| TensorR2::DevalF/DevalR of an Expression by a Matrix<Variable> | `ScalarMat.v` | in `PropScalarMat.v` |
| Gauss-Newton example with the scalar oracle | `GaussNewton.v`, `GaussScalar.v` | normal equations in `PropGauss.v` |

## 3. What is not modelled

* IEEE rounding. Theorems that use no laws hold for every number type, hence for floats as well; theorems with a laws
  hypothesis (`NumLaws`) or over `R` are about exact arithmetic.
* Machine integers: `size_t` is unbounded, except in `Factorial` (C47, modulo 2^64).
* Memory management: allocation never fails, pools only grow; in the evaluation engine user objects outlive their uses (object lifetimes are C61, C62).
* The numerical routines of Eigen (LLT solve, `inverse()`, `determinant()`): function parameters; the theorems that need
  them right carry the hypothesis (`inverts`, `measures`, or that the solver solves the system), met by concrete routines in the examples.
* The CUDA runtime, host/device copies, streams; 32-bit index overflow on the device.
* Parallel execution policies: loops over distinct elements run in an arbitrary order, atomically per iteration (also
  interleaved for the racy trace, C33); hash-map iteration order is an arbitrary permutation.
* Template mechanics: overload resolution is done by hand. Printing, ONNX / file IO, timing.
* Scalar operands of matrices: the scalar engine is not run inside the matrix engine; a scalar operand has a value and
  derivatives given by the environment (what C01/C05 prove of it). A scalar variable has a cache key of its own even when the
  program also uses it as an entry of a Matrix<Variable> (the dependence on that matrix is in the derivative given), so a
  reverse derivative by the matrix misses the part through the scalar (C70, refuted there).
* Expressions over a re-assigned matrix (`F = F + ...; E = f(F)`; `Eval` and `DevalF` of `F` itself are in `MatRec.v`) and reverse mode
  of a re-assigned matrix are outside the matrix engine model (inside for scalars, C09).

## 4. Style

* A number type is an arbitrary record `Num T` without laws; laws are an explicit hypothesis record.
* The scalar object graph is a heap from node indices to cells `{base; value; derivative; items; cache; visited}`. Every
  recursive C++ function is a fuel-indexed Coq function returning `None` when out of fuel; C02 proves that fuel computed
  from the number of objects always suffices, and `MatFuel.v` that more fuel never changes an outcome.
* Matrices live in a memory addressed by pointers, so that results, operands and scratch can alias. Calls return
  `Ok`, `Rejected` (ASSERT) or `Undefined` (undefined behaviour in C++).
* Results hold over histories: `reached` / `history` say that the state came from program start by any sequence of
  legal calls; the theorems then speak of the next call.
* Expectations that are false of the code are proved false (`*_refuted`, an executed witness or a statement for all
  inputs of a class) beside the strongest true form found; these properties have status `proved` with a note saying so.

## 5. Per property

| id | modelled by | proof |
|---|---|---|
| C01 | heap engine, reset + eval | invariant over the evaluation pass, induction on rank; refinement of client programs |
| C02 | same, cyclic graphs included | measure: number of unvisited cells |
| C03 | devalF | pass invariant on (value, derivative) pairs |
| C04 | devalF over R | `derivable_pt_lim` by induction on the graph's rank |
| C05 | traverse | adjoint invariant for operator trees, ring laws |
| C06 | devalF, traverse | specified derivative is 0 by induction, transfer by C03/C05 |
| C07 | commands on one root | settledness invariant preserved by each command |
| C08 | several roots | refutation by execution; true form for closed graphs |
| C09 | assignment list of one cell | fold lemma over C01/C03/C05 |
| C10 | assignment with findMe | case analysis on occurrence + C01 |
| C11 | operator sugar | evaluation / derivative equations |
| C12 | builder with index counter | state invariant: ids distinct, values unchanged |
| C13, C15 | symDeval with memo | memo invariant: temporaries denote value / derivative for all valuations; sessions |
| C14, C16, C57 | same | refutations by execution, true parts by C13 |
| C17, C19 | object model | simulation by alias classes; refutation |
| C18 | Parameter leaf | corollary of C01, C03, C05 |
| C20 | PreComp then reads | C05 for each variable; reads frame lemma |
| C21, C58 | Hessian / gradient loops over memo tables | loop characterisation over the memo invariant; refutations |
| C22 | custom operators | arbitrary f, f' in every scalar theorem |
| C23 | DevalR on expressions | generalised reverse lemma; refutations of each dropped condition |
| C24 | complex helpers | algebra over R; refutations |
| C25-C28 | buffer model | list / index lemmas; refutations |
| C29-C33 | naive handlers as loops writing into a buffer | permutation-invariant loop lemmas; refutations for stale or aliased buffers |
| C34, C53, C54 | convolution handlers | instruction tables, history invariant on padding buffers; refutations |
| C35 | CUDA machine, CPU dispatch | invariants over all interleavings; progress |
| C36, C37 | pool / registry | invariant over request histories |
| C38-C40 | matrix engine on memory | pass invariant over expression trees, scratch-slot soundness, settledness over call histories; refutations |
| C41 | `dif` over R | limits by induction on expressions |
| C42, C46, C55, C56 | reverse mode | value-level adjoint lemma (`RevVals`) + memory refinement; refutations |
| C43 | kernel calls of traverse | loop lemmas, ring laws; refutation |
| C44 | vec | pass invariant with reshaped headers; refutations of non-interference |
| C45 | builders of derived functions | induction over nested programs, `den` of built expressions |
| C47 | cached factorial | invariant over call histories |
| C48 | activation tables | `derivable_pt_lim` |
| C49, C50 | loops | loop invariants; refutation |
| C51 | accumulation loops, scalar oracle | fold invariants; algebra; scalar engine theorems |
| C52 | static distribution | invariant: first parameters are kept; refutation |
| C59, C60 | inverse / determinant operators in all modes | engine theorems + algebra of `Determ.v` (Jacobi's formula) + limits in `InvCalc.v` |
| C61, C62 | worlds of objects, strategies and buffers | simulation of the value-semantics specification, ownership invariant over all programs; refutations for clones |
| C63 | engine state after a copy | pass lemma for the copied leaf; transfer of C38 for untouched originals |
| C64 | reverse mode | the same graph with the matrix regarded as variable; C42's lemmas |
| C65 | threads as interleaved tasks on entries, engine for the gradients | independence of tasks implies order independence; reverse-mode theorem; calculus as in C41; counterexample schedules |
| C66 | loop over windows | induction over the run |
| C67 | dropout pool and masks, static distribution | invariant: pool and masks in use are a permutation of all matrices made; counting |
| C68 | copies of the expression, one DevalF per element in any order | every call is a legal command of the client-program theorem (C01); values of copies |
| C69 | scalar operand = object with a value and derivatives (1x1 leaf) and the list of its variables | cases of the engine invariants (value, Jacobian); limits through `dif_lim` |
| C70 | scalar variables are keys of the adjoint cache, not leaves; slots 20.. for the weights | reverse-mode invariant over `keyed` (leaves and scalar variables); executed counterexample |
| C71 | assignment drops the slots of F and of its old operators, frees the result buffers, keeps the visited mark | the engine invariant holds for the new objects; results of a named expression belong to its own operators only (`Own`), preserved by every call |
| C72 | slots of operators and named expressions as in C38; a slot that has the dimensions it is asked for is reused | `stable` and clause 4 of `grew`: every kernel program writes only slots, and reuses the slot of a named value once its size fits; carried through `eval_ok` and `devalF_ok` |
| C73 | OracleMatrix and setDataUnit/updateMatrix on top of the matrix engine of C38/C40 and the loop of C51 | the oracle hypothesis of `computeAB_ok` is discharged by `act_full` (value and derivative of F at each data row); invariant `MI` over iterations; a recursion bound independent of the state (`MatEnough.v`) |
| C74 | recursion of the engine as fuel; any graph with finitely many named expressions | measure: (number of named expressions not yet visited) * (height of definitions) + depth of the expression; visited flags are only set during a pass and only cleared during reset |
| C75 | Eval over any number type; IEEE binary64 from Flocq | the kernel sequence is the inductive specification `fval` (deterministic); histories preserve the engine invariant without ring laws; x*1 = x and 0 + x by Flocq's correctness theorems |
| C76 | m_gh_vec with several items, operator= and findMe | the engine with several items is simulated by the one-item engine on a chain F, F1, F2, ... of fresh matrices, Fk+1 = ak(Fk) (lock-step bisimulation of states); the chain is a well-formed graph, so C38 and C40 apply; an entry-wise bridge shows that the chain denotes the sequential execution |
| C77 | the expressions that the overloads build over C69 operands and number operands | C38, C40, C41 on the built expression; ring laws |
| C78 | The program of example/Gaussian.cpp as a client of the scalar model (GaussCurve.v: set_up, queries, session). Value and first derivative from C01/C03/C20 by exhibiting the solution of the value and derivative equations; symbolic half from C15 with the limit identified by uniqueness of derivatives. |
| C79 | main.cpp:LoadData as a loop over rows and fields writing through the checked element access of the matrix memory; induction over fields and rows with an exact characterisation of acceptance. The csv library is not modelled. |
| C80 | The layers and the error of main.cpp as calls of the modelled library functions (MatFun.v), values by C45_values and induction over the layers; softmax and cross entropy by algebra over the reals. |
| C81 | C64_gradient_by_numbers for the expression that make builds, make_ok in the graph with W regarded as variables, equality of the two near the point; the leaves kept by every builder by a small Hoare logic. |
| C82 | C65_minibatch for the store after the feeds, the gradient matrices identified by C81 and the displayed value by the error_value of C80; the labels do not change when a parameter is put. |
