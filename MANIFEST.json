{
 "claims": [
  {
   "property": "C01",
   "status": "proved",
   "theorems": [
    "C01_eval_returns_value",
    "C01_client_programs"
   ],
   "note": "Any number type (no laws). C01_client_programs covers whole interactive programs."
  },
  {
   "property": "C02",
   "status": "proved",
   "theorems": [
    "C02_calls_return"
   ],
   "note": "No acyclicity or history restriction; symbolic temporaries excluded (see C13)."
  },
  {
   "property": "C03",
   "status": "proved",
   "theorems": [
    "C03_forward_chain_rule"
   ],
   "note": "Any number type."
  },
  {
   "property": "C04",
   "status": "proved",
   "theorems": [
    "C04_forward_is_derivative",
    "C04_reverse_is_derivative"
   ],
   "note": "Exact reals; in_domain side conditions as in the property."
  },
  {
   "property": "C05",
   "status": "proved",
   "theorems": [
    "C05_reverse_equals_forward"
   ],
   "note": "Exact arithmetic (ring laws) and invertible divisors; targets as in utarget."
  },
  {
   "property": "C06",
   "status": "proved",
   "theorems": [
    "C06_unrelated_derivative_zero"
   ],
   "note": "Exact arithmetic; reverse part at points where every divisor is invertible."
  },
  {
   "property": "C07",
   "status": "proved",
   "theorems": [
    "C07_one_root_history_independent"
   ],
   "note": "Any list of sets and queries on one root."
  },
  {
   "property": "C08",
   "status": "proved",
   "theorems": [
    "C08_other_roots",
    "C08_other_roots_refuted"
   ],
   "note": "Unrestricted claim is false (C08_other_roots_refuted, witness executed in the model); true form proved."
  },
  {
   "property": "C09",
   "status": "proved",
   "theorems": [
    "C09_iteration",
    "C09_power"
   ],
   "note": ""
  },
  {
   "property": "C10",
   "status": "proved",
   "theorems": [
    "C10_reassignment",
    "C10_forgets_old_body"
   ],
   "note": "Both kinds of assignment."
  },
  {
   "property": "C11",
   "status": "proved",
   "theorems": [
    "C11_operator_sugar"
   ],
   "note": "Sugar table = the desugared terms the operators store."
  },
  {
   "property": "C12",
   "status": "proved",
   "theorems": [
    "C12_construction_frame",
    "C12_construction_preserves_results",
    "C12_unique_indices"
   ],
   "note": ""
  },
  {
   "property": "C13",
   "status": "proved",
   "theorems": [
    "C13_symdiff_tracks"
   ],
   "note": "Any number type with exact division, either order of evaluating operands, every later sequence of updates and queries of the derivative."
  },
  {
   "property": "C14",
   "status": "proved",
   "theorems": [
    "C14_constant_quotient_refuted",
    "C14_unit_quotients_nest"
   ],
   "note": "Expectation refuted over the reals; nested unit quotients proved right (with C13)."
  },
  {
   "property": "C15",
   "status": "proved",
   "theorems": [
    "C15_higher_orders",
    "C15_sqrt_refuted"
   ],
   "note": "Every sequence of differentiations, updates, forward and reverse derivatives over the reals; sqrt refuted at order two."
  },
  {
   "property": "C16",
   "status": "proved",
   "theorems": [
    "C16_reassignment_refuted"
   ],
   "note": "Expectation refuted for both operand orders; reassignments before the first SymDiff are covered by C13."
  },
  {
   "property": "C17",
   "status": "proved",
   "theorems": [
    "C17_objects_are_alias_classes",
    "C17_copies_alias",
    "C17_chains_alias",
    "C17_others_do_not_interfere"
   ],
   "note": "Object identity model: every history of constructions, copies and assignments."
  },
  {
   "property": "C18",
   "status": "proved",
   "theorems": [
    "C18_parameters"
   ],
   "note": ""
  },
  {
   "property": "C19",
   "status": "proved",
   "theorems": [
    "C19_parameter_assignment_keeps_the_old_value",
    "C19_copy_constructed_parameters_alias",
    "C19_parameter_assignment_refuted"
   ],
   "note": "Expectation refuted; assignment proved to keep the old value for every history; copy construction aliases."
  },
  {
   "property": "C20",
   "status": "proved",
   "theorems": [
    "C20_gradient"
   ],
   "note": ""
  },
  {
   "property": "C21",
   "status": "proved",
   "theorems": [
    "C21_hessianR",
    "C21_hessianR_refuted",
    "C21_symHessian",
    "C21_symHessian_refuted",
    "C21_oracle_one",
    "C21_oracle_refuted"
   ],
   "note": "Expectation refuted for HessianR, SymHessian (off-diagonal entries) and the oracle (dimension >= 2); the diagonal entries and the one-variable oracle are proved right over the reals."
  },
  {
   "property": "C22",
   "status": "proved",
   "theorems": [
    "C22_custom_operators"
   ],
   "note": "Operators may occur anywhere: every scalar theorem quantifies over terms containing them."
  },
  {
   "property": "C23",
   "status": "proved",
   "theorems": [
    "C23_expression_target",
    "C23_root_target_refuted",
    "C23_self_target_refuted",
    "C23_copy_target_refuted"
   ],
   "note": "True form with three side conditions, each shown necessary by a refutation."
  },
  {
   "property": "C24",
   "status": "proved",
   "theorems": [
    "C24_correct_operators",
    "C24_real_minus_complex",
    "C24_real_over_complex",
    "C24_comparison",
    "C24_refuted"
   ],
   "note": "True operators proved; real-minus-complex, real-over-complex and comparison refuted for every input outside a stated set."
  },
  {
   "property": "C25",
   "status": "proved",
   "theorems": [
    "C25_access",
    "C25_write"
   ],
   "note": ""
  },
  {
   "property": "C26",
   "status": "proved",
   "theorems": [
    "C26_set_block",
    "C26_get_block",
    "C26_rejected",
    "C26_round_trip"
   ],
   "note": "Any schedule of the parallel loops."
  },
  {
   "property": "C27",
   "status": "proved",
   "theorems": [
    "C27_get_row",
    "C27_column_ignored",
    "C27_column_square",
    "C27_column_refuted"
   ],
   "note": "Rows proved; columns: argument shown to be ignored for every matrix (result is column 0 on square ones), expectation refuted."
  },
  {
   "property": "C28",
   "status": "proved",
   "theorems": [
    "C28_pad_fresh",
    "C28_pad_reuse",
    "C28_refuted"
   ],
   "note": "Fresh buffer proved; reused buffer characterised exactly (border = old elements) and refuted."
  },
  {
   "property": "C29",
   "status": "proved",
   "theorems": [
    "C29_binary",
    "C29_scalar_and_unary",
    "C29_mismatch"
   ],
   "note": "Any number type, any schedule, aliasing allowed."
  },
  {
   "property": "C30",
   "status": "proved",
   "theorems": [
    "C30_product",
    "C30_rejected"
   ],
   "note": "Any number type: the sum is left to right starting from zero."
  },
  {
   "property": "C31",
   "status": "proved",
   "theorems": [
    "C31_kron",
    "C31_kron_exact",
    "C31_refuted"
   ],
   "note": "Exact behaviour for every buffer; Kronecker product for new buffers or zero-free left factors; stale entries refuted."
  },
  {
   "property": "C32",
   "status": "proved",
   "theorems": [
    "C32_transpose",
    "C32_involution",
    "C32_derv_transpose",
    "C32_in_place_refuted"
   ],
   "note": "In-place transpose refuted."
  },
  {
   "property": "C33",
   "status": "proved",
   "theorems": [
    "C33_trace",
    "C33_rejected",
    "C33_parallel_refuted"
   ],
   "note": "Iterations one at a time in any order; with interleaved iterations lost updates are shown for every matrix."
  },
  {
   "property": "C34",
   "status": "proved",
   "theorems": [
    "C34_eigen",
    "C34_history",
    "C34_refuted",
    "C34_reject"
   ],
   "note": "Eigen handler: always. Naive handler: every history whose reused padding buffers fit; refuted otherwise."
  },
  {
   "property": "C35",
   "status": "proved",
   "theorems": [
    "C35_cuda_elementwise",
    "C35_cuda_map",
    "C35_cuda_kron",
    "C35_cuda_product",
    "C35_cuda_transpose",
    "C35_cpu",
    "C35_agree",
    "C35_completes"
   ],
   "note": "CUDA kernels: interleaving machine with barriers, shared memory and bounds; every schedule of the launched grid ends with the specified entries (add, sub, Hadamard, scalar, map, Kronecker, tiled product, tiled transpose). CPU: Eigen and naive kernels give the same matrices and reject the same operands. Device arithmetic is the same Num as the host; 32-bit index overflow, warp scheduling and the device function table are not modelled."
  },
  {
   "property": "C36",
   "status": "proved",
   "theorems": [
    "C36_pool"
   ],
   "note": ""
  },
  {
   "property": "C37",
   "status": "proved",
   "theorems": [
    "C37_special",
    "C37_kernels_allowed",
    "C37_gpu_refuted"
   ],
   "note": "Any history; pinned-memory Eye and Zeros refuted."
  },
  {
   "property": "C38",
   "status": "proved",
   "theorems": [
    "C38_eval",
    "C38_history",
    "C38_plain",
    "C38_again",
    "C38_rejects"
   ],
   "note": "Both CPU backends, every schedule, every history of settled calls; ill-dimensioned operands are rejected. Inverse and determinant included (see C59, C60); convolution and vec have their own models (C34, C44, C53)."
  },
  {
   "property": "C39",
   "status": "proved",
   "theorems": [
    "C39_fresh",
    "C39_evaluated",
    "C39_stale_value_refuted",
    "C39_wrong_variable_refuted",
    "C39_null_derivative_refuted"
   ],
   "note": "Expectation refuted three ways (stale value, derivative by the wrong variable, null pointer). True form: any expression not sharing evaluated matrices that its own reset does not reach."
  },
  {
   "property": "C40",
   "status": "proved",
   "theorems": [
    "C40_devalF",
    "C40_entries",
    "C40_naive_refuted"
   ],
   "note": "Eigen backend, every history of settled calls; hand-written backend refuted for a second call."
  },
  {
   "property": "C41",
   "status": "proved",
   "theorems": [
    "C41_limit"
   ],
   "note": "Derivatives of scalar-expression entries are taken from the scalar engine (hypothesis va_ent of varies; see C01, C12)."
  },
  {
   "property": "C42",
   "status": "proved",
   "theorems": [
    "C42_gradient",
    "C42_scalar",
    "C42_agrees_with_devalF",
    "C42_nested_matrices_refuted",
    "C42_matrices_of_expressions_refuted"
   ],
   "note": "Both CPU backends, every schedule, every iteration order of the adjoint maps, every history; named or scalar-expression operands refuted."
  },
  {
   "property": "C43",
   "status": "proved",
   "theorems": [
    "C43_kernel",
    "C43_input_shape",
    "C43_refuted"
   ],
   "note": "Operator-level kernel calls of traverse (cache bookkeeping not included). Kernel adjoint stride 1 proved; input adjoint characterised; expectation refuted."
  },
  {
   "property": "C44",
   "status": "proved",
   "theorems": [
    "C44_history",
    "C44_eval",
    "C44_derivative",
    "C44_result_reshaped_refuted",
    "C44_product_refuted",
    "C44_sum_refuted",
    "C44_derivative_refuted",
    "C44_order_refuted"
   ],
   "note": "Values and derivatives proved for vec of operators and bare vec of a matrix, over all histories of such calls (C44_history, C44_eval, C44_derivative). The non-interference part of the expectation is false; the refutations give the cases: C44_result_reshaped_refuted, C44_product_refuted, C44_sum_refuted, C44_derivative_refuted, C44_order_refuted."
  },
  {
   "property": "C45",
   "status": "proved",
   "theorems": [
    "C45_values",
    "C45_derivatives",
    "C45_quotient_refuted",
    "C45_exponential_refuted",
    "C45_factorial_wraps",
    "C45_shapes_checked",
    "C45_broadcast_refuted"
   ],
   "note": "Any nesting of the functions over plain and named matrices, over the reals; values on both CPU backends, derivatives (Eigen handler) as limits. Conditions (positive quotients, N<=20, 1x1 default broadcast) each shown necessary by a refutation. Entries of Ones/Eye/Zeros and of the concat blocks are an assumption on the environment, justified by C37 and C28."
  },
  {
   "property": "C46",
   "status": "proved",
   "theorems": [
    "C46_absent",
    "C46_shape_refuted"
   ],
   "note": "True form (zeros in the shape of F) proved; expectation refuted."
  },
  {
   "property": "C47",
   "status": "proved",
   "theorems": [
    "C47_factorial"
   ],
   "note": "Modulo 2^64, any call history."
  },
  {
   "property": "C48",
   "status": "proved",
   "theorems": [
    "C48_activation_values",
    "C48_activation_derivatives",
    "C48_device_tables"
   ],
   "note": "Host and device (CUDA) derivative tables."
  },
  {
   "property": "C49",
   "status": "proved",
   "theorems": [
    "C49_windows_cover",
    "C49_batch_larger_than_data_refuted"
   ],
   "note": "b<=n proved; b>n shown to read out of bounds."
  },
  {
   "property": "C50",
   "status": "proved",
   "theorems": [
    "C50_accuracy_when_divisible",
    "C50_over_100_refuted",
    "C50_equal_sizes_refuted",
    "C50_argmax"
   ],
   "note": "Percentage when the batch divides the data; over-100 and undefined case refuted."
  },
  {
   "property": "C51",
   "status": "proved",
   "theorems": [
    "C51_A_symmetric",
    "C51_normal_equations",
    "C51_linear_least_squares",
    "C51_normal_matrices",
    "C51_solve",
    "C51_one_iteration"
   ],
   "note": "computeAB for any oracle; the scalar oracle is the scalar engine itself (values and exact gradients of the client expression), any number of iterations; the LLT solver is a function parameter. The matrix oracle is C73."
  },
  {
   "property": "C52",
   "status": "proved",
   "theorems": [
    "C52_first_call_decides",
    "C52_first_call_samples",
    "C52_refuted"
   ],
   "note": "First call decides; expectation refuted."
  },
  {
   "property": "C53",
   "status": "proved",
   "theorems": [
    "C53_history",
    "C53_calculus",
    "C53_refuted"
   ],
   "note": "Every history whose reused padding buffers fit; calculus meaning over the reals; refuted otherwise."
  },
  {
   "property": "C54",
   "status": "proved",
   "theorems": [
    "C54_accepts",
    "C54_refuted"
   ],
   "note": "Acceptance proved; missing rejection shown for all sizes."
  },
  {
   "property": "C55",
   "status": "proved",
   "theorems": [
    "C55_cleared",
    "C55_gradient_survives_refuted"
   ],
   "note": "Expectation refuted; the clearing is proved for every settled call."
  },
  {
   "property": "C56",
   "status": "proved",
   "theorems": [
    "C56_repeat",
    "C56_repeat_refuted"
   ],
   "note": "Operands that are matrices: covered by C42_gradient for every history; nested named expressions refuted."
  },
  {
   "property": "C57",
   "status": "proved",
   "theorems": [
    "C57_interleaved_evaluation_refuted"
   ],
   "note": "Expectation refuted for both operand orders; queries of the derivative alone are covered by C13."
  },
  {
   "property": "C58",
   "status": "proved",
   "theorems": [
    "C58_gradient_entry",
    "C58_entries_in_turn_refuted"
   ],
   "note": "Every session on one entry over the reals; using the entries in turn with updates in between is refuted for both operand orders."
  },
  {
   "property": "C59",
   "status": "proved",
   "theorems": [
    "C59_value",
    "C59_derivative",
    "C59_limit",
    "C59_reverse",
    "C59_rejects"
   ],
   "note": "The numerical routine (Eigen) is a parameter assumed to invert invertible matrices; values on both handlers, forward derivatives with the Eigen handler, also as limits over the reals; reverse mode for named matrices over plain matrices."
  },
  {
   "property": "C60",
   "status": "proved",
   "theorems": [
    "C60_value",
    "C60_derivative",
    "C60_limit",
    "C60_reverse",
    "C60_rejects",
    "C60_singular_refuted"
   ],
   "note": "As C59, with the determinant routine assumed to compute the determinant (defined by first-row expansion). Derivatives at singular matrices are refuted (C60_singular_refuted)."
  },
  {
   "property": "C61",
   "status": "proved",
   "theorems": [
    "C61_matrices_are_values",
    "C61_copies_are_independent",
    "C61_rejects",
    "C61_owner_keeps_its_memory"
   ],
   "note": "Matrices of numbers on the CPU strategy; evaluation state is C63. The copy constructor of Matrix<Expression> (which stores a pointer to the original) is not modelled."
  },
  {
   "property": "C62",
   "status": "proved",
   "theorems": [
    "C62_one_owner",
    "C62_no_leaks",
    "C62_clones_are_aliases",
    "C62_clone_keeps_entries_refuted",
    "C62_clone_into_owner_leaks_refuted",
    "C62_clone_bypasses_check_refuted"
   ],
   "note": "Ownership and release for all programs without clones; clones as aliases proved; the expectations that a clone keeps its entries, may replace an owning matrix, or respects the setMatrixPtr check are refuted for every program."
  },
  {
   "property": "C63",
   "status": "proved",
   "theorems": [
    "C63_copy_before_evaluation",
    "C63_copy_after_evaluation_refuted",
    "C63_copy_in_expression_refuted"
   ],
   "note": "True form proved for copies made before the original is evaluated; for copies made afterwards refuted for every history (leaf) and inside an expression (witness)."
  },
  {
   "property": "C64",
   "status": "proved",
   "theorems": [
    "C64_gradient_by_numbers",
    "C64_limit"
   ],
   "note": "Named square F over plain matrices (as C42); inverses in F of invertible matrices."
  },
  {
   "property": "C65",
   "status": "proved",
   "theorems": [
    "C65_minibatch",
    "C65_deterministic",
    "C65_real",
    "C65_shared_layer_refuted",
    "C65_unused_layer_refuted"
   ],
   "note": "Every interleaving of the threads at the level of single loads and stores of entries; the expectation without conditions is refuted for shared and unused layers. Rows of the data are copied instead of aliased; random masks are arbitrary."
  },
  {
   "property": "C66",
   "status": "proved",
   "theorems": [
    "C66_train"
   ],
   "note": "The windows are those of C49. Simplification: the accuracy between epochs evaluates an output expression with nodes of its own (the code uses the nodes of the error)."
  },
  {
   "property": "C67",
   "status": "proved",
   "theorems": [
    "C67_own_masks",
    "C67_memory",
    "C67_randomized",
    "C67_not_randomized",
    "C67_first_rate_decides",
    "C67_mean_refuted"
   ],
   "note": "The expectation that the mean of a mask is 1 is refuted: which entries of all masks but the first are dropped does not depend on their rate (static distribution object, cf. C52)."
  },
  {
   "property": "C68",
   "status": "proved",
   "theorems": [
    "C68_forward",
    "C68_modes_agree",
    "C68_fresh_expression_refuted",
    "C68_parallel_refuted"
   ],
   "note": "Two expectations are refuted: the call on a never-queried expression over a queried one (C68_fresh_expression_refuted), and overlapping calls under the parallel policy (C68_parallel_refuted); C68_forward is the strongest true form for non-overlapping calls. Expressions only, not unnamed operator nodes."
  },
  {
   "property": "C69",
   "status": "proved",
   "theorems": [
    "C69_product_value",
    "C69_sum_value",
    "C69_product_jacobian",
    "C69_sum_jacobian",
    "C69_limit"
   ],
   "note": "M/s is modelled as M*(1/s), which is how the code defines it. DevalF under the Eigen handler as in C40; the value under every handler."
  },
  {
   "property": "C70",
   "status": "proved",
   "theorems": [
    "C70_scalar_variable",
    "C70_scaled",
    "C70_limit",
    "C70_entries_of_matrices_refuted"
   ],
   "note": "The expectation that DevalR by a Matrix<Variable> (or by one of its entries) sees both the dependence through the matrix and through scalar operands is refuted (C70_entries_of_matrices_refuted); the theorems cover all other cases."
  },
  {
   "property": "C71",
   "status": "proved",
   "theorems": [
    "C71_eval",
    "C71_devalF",
    "C71_assigned",
    "C71_assigned_derivative",
    "C71_users",
    "C71_still_a_program",
    "C71_other_results_stay",
    "C71_own_result_lost",
    "C71_new_user_refuted"
   ],
   "note": "C71_still_a_program gives the conditions under which F = e (also with new dimensions) keeps the program well formed. Assignments that do not mention F itself. The expectation for users of F that were never evaluated is refuted (C71_new_user_refuted, F keeps its visited mark and the pointer to the freed result), and the matrix Eval(F) returned before is shown to be unreadable after the assignment (C71_own_result_lost)."
  },
  {
   "property": "C72",
   "status": "proved",
   "theorems": [
    "C72_value_pointer",
    "C72_value_with_derivative",
    "C72_derivative_stays",
    "C72_client_matrices",
    "C72_derivative_overwritten_refuted"
   ],
   "note": "Named expressions, as in C38/C40 (DevalF with Eigen's handler). The expectation that a derivative survives the next DevalF of its expression is refuted (C72_derivative_overwritten_refuted)."
  },
  {
   "property": "C73",
   "status": "proved",
   "theorems": [
    "C73_solve",
    "C73_refused",
    "C73_least_squares"
   ],
   "note": "F a named Matrix<Expression>, Eigen's handler (as in C40); the LLT solver is a function parameter; entries of matrices of scalar expressions are arbitrary (extensional) functions of the entries of variables and parameters, with arbitrary derivatives."
  },
  {
   "property": "C74",
   "status": "proved",
   "theorems": [
    "C74_calls_end",
    "C74_reverse_ends",
    "C74_uniform",
    "C74_cycle_is_undefined_refuted"
   ],
   "note": "Bounds the recursion (fuel) of the model; the loops of the kernels are structurally finite in the model. That cyclic definitions can be evaluated is refuted (C74_cycle_is_undefined_refuted)."
  },
  {
   "property": "C75",
   "status": "proved",
   "theorems": [
    "C75_value",
    "C75_reproducible",
    "C75_named",
    "C75_infinity_refuted"
   ],
   "note": "Eval with the naive handlers (Eigen does not document the order of its sums; Kronecker products and forward mode are not covered). IEEE arithmetic is Flocq's binary64, round to nearest even; contraction of a*b+c to fma by the compiler is not modelled. That a named expression equals its right-hand side is refuted (C75_infinity_refuted), the exact value is C75_named."
  },
  {
   "property": "C76",
   "status": "proved",
   "theorems": [
    "C76_eval",
    "C76_devalF",
    "C76_twice",
    "C76_history",
    "C76_indirect_refuted"
   ],
   "note": "All right-hand sides have the shape of F (the model does not update m_rows and m_cols between items), mention F only as a direct operand, and Eval/DevalF are called on F, not on expressions that contain F. Assignments between calls are covered when they mention F and their other operands are settled (xreached_assign); one that does not mention F replaces all items, and between calls it is covered by C71 for a matrix with one item only. DevalF with the Eigen backend, as C40. The indirect case is refuted (C76_indirect_refuted)."
  },
  {
   "property": "C77",
   "status": "proved",
   "theorems": [
    "C77_value",
    "C77_jacobian",
    "C77_limit"
   ],
   "note": "neg = (-1) * s and inv = 1 / s are scalar operands with the value (and for neg the derivatives) that C01 and C03 prove of the scalar engine; the scalar engine is not run inside the matrix engine. DevalF with the Eigen backend, as C40. In C77_limit over the reals no condition s <> 0 is needed: it is in the hypothesis that the operand 1/s varies differentiably."
  },
  {
   "property": "C78",
   "status": "proved",
   "theorems": [
    "C78_derivatives",
    "C78_numeric",
    "C78_symbolic"
   ],
   "note": "Exact real arithmetic (std::pow with integer exponents of negative bases included). The symbolic half excludes x = mu, where pow(x - mu, 2) is not smooth for the library: its third symbolic derivative is 0*pow(0,-1). The printed output itself is not modelled."
  },
  {
   "property": "C79",
   "status": "proved",
   "theorems": [
    "C79_load",
    "C79_one_hot",
    "C79_pinned_refuted",
    "C79_second_file_refuted"
   ],
   "note": "A finding: main.cpp:67-75 creates Ytrain and Ytest in pinned memory, which cudaMallocHost does not clear, and LoadData writes only the ones (C79_pinned_refuted); loading twice leaves two ones in a row (C79_second_file_refuted). The csv reader is an outside library: a file is the list of its rows, a field what get<size_t> and get<Type> give for it."
  },
  {
   "property": "C80",
   "status": "proved",
   "theorems": [
    "C80_prediction",
    "C80_error"
   ],
   "note": "Over the reals. The example has four layers; the theorem is for any list of layers. Dropout is its mask matrix, any numbers: how the mask is drawn is not modelled."
  },
  {
   "property": "C81",
   "status": "proved",
   "theorems": [
    "C81_gradient",
    "C81_network"
   ],
   "note": "C81_gradient for any program of the library's functions (MatFunSpec.v), C81_network for the example's error. Combines C64 (reverse sweep = derivative of the built expression) with C45 (what the functions build). The matrix must not be one the library registers itself (own): DevalR by OnesRef would count the library's own uses. Real numbers."
  },
  {
   "property": "C82",
   "status": "proved",
   "theorems": [
    "C82_minibatch"
   ],
   "note": "C82_minibatch: C65 (the step moves by the matrices DevalR returns) with C81 (these are the derivatives) and C80 (the error is the cross entropy). C82_nonvacuous gives a two-layer network with all hypotheses met. Real numbers; the L2 regulariser of main.cpp is compiled out (#if 0) and not in this statement."
  }
 ]
}