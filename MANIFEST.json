{
 "claims": [
  {
   "property": "C01",
   "status": "proved",
   "theorems": [
    "C01_evaluate_is_rerun",
    "C01_C03_any_controls_any_history"
   ],
   "note": "Any arithmetic. consistent = user blocks recompute their function; disciplined = in-place changes are annotated or go through stop_annotating(modifies=)."
  },
  {
   "property": "C02",
   "status": "proved",
   "theorems": [
    "C02_recorded_value"
   ],
   "note": "Any arithmetic, any earlier call history if sibling outputs of controls are controls too."
  },
  {
   "property": "C03",
   "status": "partial",
   "theorems": [
    "C03_history_independent",
    "C03_any_history_is_rerun",
    "C01_C03_any_controls_any_history",
    "C03_sibling_refuted"
   ],
   "note": "Proved when every multi-output block has all or none of its outputs as controls (always so for the float blocks); REFUTED without that condition (C03_sibling_refuted)."
  },
  {
   "property": "C04",
   "status": "proved",
   "theorems": [
    "C04_retry",
    "C04_as_fresh",
    "C04_switch_and_tape"
   ],
   "note": "Every tape recorded by a program, any controls, any values, exception at any block (user blocks may raise anything). Switch and working tape: any code in blocks and callbacks that changes the working tape only within with-blocks."
  },
  {
   "property": "C05",
   "status": "partial",
   "theorems": [
    "C05_derivative_exact",
    "C05_derivative_returns",
    "C05_program_recorded",
    "C05_program_returns",
    "C05_program_evaluated",
    "C05_off_tape_refuted"
   ],
   "note": "Over the reals; differentiability is required per operation reached from a control (smooth_at). User blocks are assumed differentiable with a correct adjoint component at the point. Controls that no operation reads or writes: allowed unless an earlier call differentiated some such other control as the functional. REFUTED otherwise (C05_off_tape_refuted): an adjoint left in a control that is not on the tape is returned as its derivative."
  },
  {
   "property": "C06",
   "status": "partial",
   "theorems": [
    "C06_repeatable",
    "C06_repeatable_no_failures",
    "C06_failures_only_lose_results",
    "C06_stale_marks_refuted"
   ],
   "note": "Any arithmetic. Two derivatives that return are equal whatever happened in between; full outcome equality when no call in between raised. REFUTED in full: a derivative that raises leaves path markings that can make a later derivative raise (C06_stale_marks_refuted). Controls that no operation reads or writes: allowed unless an earlier call differentiated some such other control as the functional."
  },
  {
   "property": "C07",
   "status": "partial",
   "theorems": [
    "C07_no_influence_zero",
    "C07_off_tape_refuted"
   ],
   "note": "Any arithmetic, controls used on the tape, any history. REFUTED for a control not on the tape whose adjoint value is stale (C07_off_tape_refuted)."
  },
  {
   "property": "C08",
   "status": "proved",
   "theorems": [
    "C08_tangent_exact",
    "C08_program_recorded"
   ],
   "note": "Over the reals, for every variable J of the tape; same smoothness conditions as C05."
  },
  {
   "property": "C09",
   "status": "partial",
   "theorems": [
    "C09_duality",
    "C09_duality_recorded",
    "C09_off_tape_refuted"
   ],
   "note": "any commutative ring whose division is multiplication by a factor; user blocks: adjoint component transpose of tangent component (users_dual); controls distinct, but may depend on one another. Controls that no operation reads or writes: allowed unless an earlier call differentiated some such other control as the functional. REFUTED otherwise (C09_off_tape_refuted)."
  },
  {
   "property": "C10",
   "status": "partial",
   "theorems": [
    "C10_hessian_partial",
    "C10_program_partial",
    "C10_rerun_partial",
    "C10_exp_refuted",
    "C10_mul_refuted",
    "C10_mul_two_refuted",
    "C10_log_refuted",
    "C10_div_refuted"
   ],
   "note": "REFUTED in general: the code's second-order sweep is wrong for exp, log (missing terms), products (loop variable overwrites the factor index) and raises TypeError for quotients of recorded constants; witnesses over the reals (integers with unit division for the TypeError). Proved over exact reals: after rf(m) and rf.derivative(), rf.hessian(d) is entry by entry the derivative of the gradient along m + s d, when between controls and functional there are only sums, differences, negations, min/max away from ties, quotients, powers, squares, and products whose result enters the functional linearly. Missing: exp, log, other products (false), user blocks (depends on their code). C10_rerun_partial states the same against the re-run program (hessian_at: derivative of the gradient of a function of the values), for any calls before."
  },
  {
   "property": "C11",
   "status": "proved",
   "theorems": [
    "C11_sweeps_keep_values"
   ],
   "note": "Any arithmetic, including sweeps that raise."
  },
  {
   "property": "C12",
   "status": "partial",
   "theorems": [
    "C12_value_scale",
    "C12_derivative_scale",
    "C12_off_tape_refuted",
    "C12_no_stale"
   ],
   "note": "exact over any commutative ring; user blocks must be homogeneous in the adjoint inputs; also equality of exceptions. Controls that no operation reads or writes: allowed unless an earlier call differentiated some such other control as the functional. REFUTED otherwise (C12_off_tape_refuted)."
  },
  {
   "property": "C13",
   "status": "partial",
   "theorems": [
    "C13_kept_blocks",
    "C13_state",
    "C13_same_results",
    "C13_recorded_at_rest",
    "C13_stale_adjoint_refuted",
    "C13_exceptions_refuted",
    "recorded_tapes_are_coherent"
   ],
   "note": "Kept blocks characterised exactly; every sequence of evaluations/derivatives that returns on the unoptimised tape returns the same on the optimised one, for states where operations no control influences agree with stored values (shown for recorded programs and after non-raising calls) and controls that fell off the tape carry no adjoint. REFUTED without the latter (stale adjoint returned) and for raising evaluations."
  },
  {
   "property": "C14",
   "status": "proved",
   "theorems": [
    "C14_refused_changes_nothing",
    "C14_refused_exactly"
   ],
   "note": "Exactness for well-formed tapes (which recorded tapes are)."
  },
  {
   "property": "C15",
   "status": "proved",
   "theorems": [
    "C15_reachable",
    "C15_restored",
    "C15_with_restores",
    "C15_new_with_restores",
    "C15_off_inside"
   ],
   "note": "Process-level language with shared and fresh stop_annotating objects, modifies, decorated recursive calls, raise/try, pause/continue; every run from every reachable state; inside a block annotation is off unless code calls continue_annotation itself."
  },
  {
   "property": "C16",
   "status": "proved",
   "theorems": [
    "C16_same_values",
    "C16_same_exceptions",
    "C16_nothing_recorded",
    "C16_constants"
   ],
   "note": "Any arithmetic, any program, any placement of switches. The unannotated call can be replaced by the creation of its results as plain new objects, giving the identical world, hence identical answers to all API calls. An unannotated in-place assignment without modifies= is outside (excluded by the disciplined hypothesis elsewhere). Block keywords of overload_function are under C47 (refuted there)."
  },
  {
   "property": "C17",
   "status": "partial",
   "theorems": [
    "C17_call",
    "C17_hessian",
    "C17_derivative_partial",
    "C17_tape_adjoint",
    "C17_block_hessians_partial",
    "C17_refuted",
    "C17_components_refuted"
   ],
   "note": "REFUTED in general: derivative() with derivative_components multiplies left-out controls by 0. outside any stop_annotating block (recorded on the tape), and Tape.evaluate_tlm with PowBlock/SubBlock records. Proved for rf(values), rf.hessian, derivative() without components, Tape.evaluate_adj. Full statement kept: all of them record nothing. Tape.evaluate_hessian called directly on differences and negations records exactly the additions that involve an AdjFloat."
  },
  {
   "property": "C18",
   "status": "partial",
   "theorems": [
    "C18_context",
    "C18_scoped_programs",
    "C18_decorator_refuted"
   ],
   "note": "Context-manager part proved for every nesting and exception. REFUTED for the decorator: the tape is switched when the function is defined and only the first call uses it."
  },
  {
   "property": "C19",
   "status": "proved",
   "theorems": [
    "C19_order_and_steps",
    "C19_add_block_index",
    "C19_no_block_moves",
    "C19_new_block_in_last_step",
    "recorded_tapes_are_coherent"
   ],
   "note": "No checkpoint manager (with one see C40)."
  },
  {
   "property": "C20",
   "status": "partial",
   "theorems": [
    "C20_same_blocks_partial",
    "C20_independent_partial",
    "C20_adjoint_dependencies_partial",
    "C20_shared_state_refuted",
    "copy_model_refines_tape"
   ],
   "note": "Blocks, time steps and adjoint dependencies of copy and original are independent under every interleaving. REFUTED for the steps' checkpointable state, which both tapes share."
  },
  {
   "property": "C21",
   "status": "proved",
   "theorems": [
    "C21_values_restored",
    "C21_selected_values_restored",
    "C21_derivative_restored",
    "C21_derivative_restored_if_returns"
   ],
   "note": "Package data not modelled. A sweep that raised in between can make a later derivative raise (C06), never change its value."
  },
  {
   "property": "C22",
   "status": "partial",
   "theorems": [
    "C22_ascending_partial",
    "C22_refuted"
   ],
   "note": "REFUTED for unsorted, repeated, negative indices, empty tuples and a single control; proved for ascending in-range indices with a list of controls (arithmetic with x*0 = 0)."
  },
  {
   "property": "C23",
   "status": "proved",
   "theorems": [
    "C23_derivative",
    "C23_derivative_components",
    "C23_hessian",
    "C23_round_trip"
   ],
   "note": "Any arithmetic. Tuples come back as lists, as the statement says."
  },
  {
   "property": "C24",
   "status": "partial",
   "theorems": [
    "C24_sets",
    "C24_arguments_untouched",
    "C24_order_of_results",
    "C24_order_of_insertion",
    "C24_iterator_refuted"
   ],
   "note": "Proved for all programs over sets with set/list/one-pass-iterator arguments, except intersection/symmetric_difference with a one-pass iterator, where the claim is REFUTED."
  },
  {
   "property": "C25",
   "status": "proved",
   "theorems": [
    "C25_tags_listed_once",
    "C25_first_appearance",
    "C25_blocks_of_tag",
    "C25_partition"
   ],
   "note": "Tags are natural numbers with decidable equality."
  },
  {
   "property": "C26",
   "status": "proved",
   "theorems": [
    "C26_failures_unobservable",
    "C26_same_values"
   ],
   "note": "Any arithmetic, any program, any sequence of API calls: dropping the failing statements changes no answer. Hypothesis: functionals and controls queried are not mentioned only by failed operations (C26_only_failed shows why; that is the C07 off-tape defect)."
  },
  {
   "property": "C27",
   "status": "partial",
   "theorems": [
    "C27_evaluations",
    "C27_feedback",
    "C27_derivative_constant_partial",
    "C27_derivative_settled_partial",
    "C27_derivative_refuted"
   ],
   "note": "Evaluations proved for every tape and any number of evaluations (no block after the linked variable's block reads the placeholder; links are not chains and do not touch controls). REFUTED for the derivative: it is the adjoint sweep with the placeholder at the linked variable's new value and every other variable at the value of the last evaluation, so (C27_derivative_refuted) it is not the derivative with the placeholder held constant. Proved: the placeholder has no influence through the link, and when the evaluation left the linked values unchanged the derivative is that with the placeholder constant."
  },
  {
   "property": "C28",
   "status": "proved",
   "theorems": [
    "C28_old_functionals",
    "C28_versions",
    "C28_rerun"
   ],
   "note": "Any arithmetic, any number of updates."
  },
  {
   "property": "C29",
   "status": "proved",
   "theorems": [
    "C29_unobservable"
   ],
   "note": "Any arithmetic, any two schedules of collections, any sequence of API calls."
  },
  {
   "property": "C30",
   "status": "proved",
   "theorems": [
    "C30_last_registration",
    "C30_class",
    "C30_dispatch"
   ],
   "note": "Classes and types are numbers; conversion functions are parameters."
  },
  {
   "property": "C31",
   "status": "partial",
   "theorems": [
    "C31_call",
    "C31_every_array",
    "C31_one_list",
    "C31_get",
    "C31_set",
    "C31_segments",
    "C31_consecutive",
    "C31_short",
    "C31_derivative",
    "C31_controls",
    "C31_adjfloat",
    "C31_refuted"
   ],
   "note": "Proved for every list of controls whose overloaded type keeps its documented contract (AdjFloat does). REFUTED for pyadjoint's own vector type (numpy_adjoint ndarray): it implements none of the methods."
  },
  {
   "property": "C32",
   "status": "partial",
   "theorems": [
    "C32_function",
    "C32_merged_function",
    "C32_flat_function",
    "C32_jacobian",
    "C32_jacobian_action",
    "C32_no_exception",
    "C32_actions",
    "C32_dimension",
    "C32_lengths",
    "C32_split",
    "C32_split_once",
    "C32_split_kinds",
    "C32_refuted"
   ],
   "note": "Proved for flat lists; jacobian, actions and dimensions also for merged constraints nested to any depth. REFUTED for nesting: the split drops nested merged constraints, nested lists raise AttributeError, nested merged constraints of different sizes cannot be evaluated."
  },
  {
   "property": "C33",
   "status": "partial",
   "theorems": [
    "C33_accepted",
    "C33_rejected",
    "C33_kept",
    "C33_serialised",
    "C33_serialised_single",
    "C33_ipopt",
    "C33_tao",
    "C33_refuted"
   ],
   "note": "Acceptance characterised exactly; SciPy, IPOPT (all bounds given) and TAO bounds aligned for any controls. REFUTED: integer pair for a single vector control raises, plain array pair for a single control rejected, None in IPOPT bounds becomes nan, no bounds gives the largest float in IPOPT."
  },
  {
   "property": "C34",
   "status": "partial",
   "theorems": [
    "C34_partial",
    "C34_refuted"
   ],
   "note": "REFUTED: every jac is the Jacobian of the last constraint (late binding). Types, functions and the single-constraint case proved."
  },
  {
   "property": "C35",
   "status": "partial",
   "theorems": [
    "C35_partial",
    "C35_lengths",
    "C35_refuted"
   ],
   "note": "Proved for lists, MergedConstraints and single equality/inequality constraints, with the callback's values in the same order when all constraints have as many components. REFUTED: nested merged constraint raises TypeError; constraints of different sizes make the constraint callback raise."
  },
  {
   "property": "C36",
   "status": "partial",
   "theorems": [
    "C36_partial",
    "C36_first_partial",
    "C36_values_partial",
    "C36_refuted"
   ],
   "note": "Proved for memoize <= 1 with derivatives at the point evaluated last, and for any memoize when that was the first evaluation of the point; values for any memoize; no failures. REFUTED for memoize = 2, after failures, and for out-of-order derivatives. Hessian calls: C61."
  },
  {
   "property": "C37",
   "status": "partial",
   "theorems": [
    "C37_partial",
    "C37_no_flag",
    "C37_refuted"
   ],
   "note": "Proved for every protocol run in which Accept follows directly the Trial it accepts (gradients in between allowed). REFUTED when a Temp or Revert comes between Trial and Accept."
  },
  {
   "property": "C38",
   "status": "partial",
   "theorems": [
    "C38_to_petsc",
    "C38_round_trip",
    "C38_from_petsc",
    "C38_mismatch",
    "C38_copy_writes_nothing",
    "C38_flatten",
    "C38_flatten_refuted",
    "C38_options",
    "C38_options_refused",
    "C38_manager",
    "C38_restored",
    "C38_default",
    "C38_options_refuted"
   ],
   "note": "Proved when getSubVector shares memory. REFUTED: nothing is written if it copies; colliding keys lose a leaf; a user's option under the prefix is destroyed; nested use of one manager removes the options early."
  },
  {
   "property": "C39",
   "status": "proved",
   "theorems": [
    "C39_taylor_test",
    "C39_derivative_term",
    "C39_affine_quadratic",
    "C39_taylor_to_dict",
    "C39_mismatch"
   ],
   "note": "Any tape with one value per recomputed output, any point, direction and H; real arithmetic (residuals of the Python run carry rounding). Affine functional: residuals vanish and, in exact arithmetic, the call ends in ZeroDivisionError; quadratic: rate 2. Derivative term exact under the hypotheses of C05."
  },
  {
   "property": "C40",
   "status": "proved",
   "theorems": [
    "C40_end_timestep_refused",
    "C40_derivative_refused",
    "C40_enable_refused"
   ],
   "note": "For every schedule, recorded program and history of calls. Recording counts as the evaluation that allows a first derivative. A refused derivative leaves tape, manager and all stored and current values; the adjoint seed and markings it writes before the manager is asked stay."
  },
  {
   "property": "C41",
   "status": "partial",
   "theorems": [
    "C41_evaluation_partial",
    "C41_rerun_partial",
    "C41_recorded_controls_partial",
    "C41_stored_partial",
    "C41_zero_functional_refuted",
    "C41_first_evaluation_refuted",
    "C41_exp_refuted"
   ],
   "note": "REFUTED as stated (functional whose recorded value is zero; first evaluation with a control used in the last step; exp/log intermediates stored). What holds, for every covering schedule (online or offline), pure program without exp/log and history on the same controls: after the first attempted call each evaluation of a functional with non-zero recorded value equals the plain tape's and the re-run program's; at the recorded control values also the first; at any values also the first when the schedule stores the adjoint data of every step and the controls are leaves used in every step. Missing: mutable objects (in-place updates), histories mixing control sets."
  },
  {
   "property": "C42",
   "status": "partial",
   "theorems": [
    "C42_stored_steps_refuted",
    "C42_replayed_steps_refuted",
    "C42_work_refuted",
    "C42_recorded_controls_partial",
    "C42_gradient_partial",
    "C42_stored_partial",
    "C42_stored_gradient_partial"
   ],
   "note": "REFUTED as stated: after an evaluation at changed values, controls not used in every step lose their new value before the reverse sweep, and steps replayed from a snapshot are differentiated at stale values even if the control is used in every step. What holds: at the recorded control values, for every schedule that covers the steps and then reverses them (online or offline, any stores and replays), every derivative, first or repeated, equals the plain one, and over the reals is the exact derivative of the program; at any values the same for schedules that store the adjoint data of every step and restore each step before reversing it, with leaf controls used in every step."
  },
  {
   "property": "C43",
   "status": "partial",
   "theorems": [
    "C43_no_sensitivities_refuted",
    "C43_solve_adjoint_refuted",
    "C43_solve_adjoint_control"
   ],
   "note": "REFUTED as stated: J.adj_value is set on the functional object, so nothing is propagated; holds when the functional is passed as a Control"
  },
  {
   "property": "C44",
   "status": "partial",
   "theorems": [
    "C44_iterators_partial",
    "C44_fresh_tape_partial",
    "C44_sequences_raise",
    "C44_refuted",
    "C44_empty_start_refuted",
    "C44_schedule_refuted"
   ],
   "note": "REFUTED as stated, three ways: with the default progress bar a list, tuple or range raises TypeError before the first item (next() on a non-iterator); on a fresh tape whose first iteration records nothing all later work is one time step early; one iteration more than the schedule announced is silently recorded in the step before. Proved for iterators (or self-iterating bars), any body that does not end steps itself, early exit by break or exception included, with and without a manager."
  },
  {
   "property": "C45",
   "status": "partial",
   "theorems": [
    "C45_dependent_controls_refuted",
    "C01_C03_any_controls_any_history",
    "C05_derivative_exact"
   ],
   "note": "REFUTED for a control computed from another control (witness x=3, y=x*x, J=x*y). Value part holds for any controls (C01_C03_any_controls_any_history); derivative exact when no control depends on another, leaves or intermediate (C05_derivative_exact)."
  },
  {
   "property": "C46",
   "status": "proved",
   "theorems": [
    "C46_flags_never_leak"
   ],
   "note": "Any arithmetic."
  },
  {
   "property": "C47",
   "status": "partial",
   "theorems": [
    "C47_one_block",
    "C47_off",
    "C47_raise",
    "C47_shape_partial",
    "C47_tuple_refuted",
    "C47_kwargs_refuted",
    "C47_kwargs_partial",
    "C47_nested",
    "C47_nested_raise"
   ],
   "note": "REFUTED for tuple results (come back as a list) and for calls with block keywords while annotation is off (the function receives them and raises TypeError). Proved otherwise: one block with the call's dependencies and one fresh output per result, none when off or raising, nothing recorded inside."
  },
  {
   "property": "C48",
   "status": "proved",
   "theorems": [
    "C48_counter",
    "C48_determined"
   ],
   "note": "Every history of recording, accepted/refused/failing evaluations with raising callbacks, derivatives, Hessians, optimisation, clearing."
  },
  {
   "property": "C49",
   "status": "proved",
   "theorems": [
    "C49_tape_is_program"
   ],
   "note": "Any arithmetic; user blocks consistent with their functions, in-place changes annotated or through modifies=."
  },
  {
   "property": "C50",
   "status": "partial",
   "theorems": [
    "C50_effect_partial",
    "C50_new_objects_partial",
    "C50_only_recorded_partial",
    "C50_refuted"
   ],
   "note": "REFUTED: clear_tape keeps the stored values of block variables and recording does not overwrite them, so a program using an object evaluated before at another value evaluates and differentiates at the old value. Proved: the direct effect; for any history if the later program uses new objects; for any program if there were only recordings and clearings before."
  },
  {
   "property": "C51",
   "status": "partial",
   "theorems": [
    "C51_minimise_partial",
    "C51_maximise_partial",
    "C51_exact_partial",
    "C51_hessian_partial",
    "C51_refuted"
   ],
   "note": "Proved for a ReducedFunctional and any algorithm that asks for derivatives only at the point evaluated last: values are those of scale*J of the re-run program, over the reals gradients are those of the function; the algorithm's result is returned and stored; exceptions come out. REFUTED for the rest: through the NumPy view the scale is not used (maximize minimises); rf keeps the new scale afterwards, even if an exception is raised; a gradient is that of the point evaluated last; basinhopping does not see bounds; afterwards the tape mixes two points. Hessian actions are those rf.hessian gives; under the conditions of C10 those of the function (C51_hessian_partial)."
  },
  {
   "property": "C52",
   "status": "partial",
   "theorems": [
    "C52_values",
    "C52_evaluate_partial",
    "C52_gradient_partial",
    "C52_gradient_evaluated_partial",
    "C52_gradient_smooth_partial",
    "C52_refuted",
    "C52_each_refuted",
    "C52_int_refuted"
   ],
   "note": "Proved by induction on expressions for programs in which recorded floats meet only operations AdjFloat overrides (supported): values and exceptions while recording, evaluation at any point after any history, exact gradients (unconditional without powers, min, max; at differentiable points with them). + and * of numbers are assumed commutative because number + AdjFloat records AdjFloat + number. REFUTED for the rest: number / x, number ** x, x % y, x // y, +x, abs(x) give plain floats that later evaluations keep; an int argument of exp, log, min, max raises AttributeError while annotating. Controls that no operation reads or writes: allowed unless an earlier call differentiated some such other control as the functional."
  },
  {
   "property": "C53",
   "status": "partial",
   "theorems": [
    "C53_indices",
    "C53_values",
    "C53_evaluate_partial",
    "C53_gradient_partial",
    "C53_gradient_evaluated_partial",
    "C53_gradient_returns_partial",
    "C53_repeated_refuted",
    "C53_arithmetic_refuted",
    "C53_hessian_refuted"
   ],
   "note": "Proved: the positions selected by every int, slice, list of ints and list of bools. Proved for all programs without array arithmetic: values and exceptions while recording, evaluation at any arrays (any lengths) and floats after any history, and, when no index list names a position twice, that the derivative returns and is the exact gradient entry by entry at differentiable points. A control array without influence gets the float 0 as derivative. REFUTED: a[[0,0]] assigns adjoints instead of adding them; array arithmetic is not recorded, so evaluations keep old values; Hessians raise NotImplementedError. In-place changes of entries and views: C58, C59. Not modelled: several dimensions. Controls that no operation reads or writes: allowed unless an earlier call differentiated some such other control as the functional."
  },
  {
   "property": "C54",
   "status": "proved",
   "theorems": [
    "C54_every_value"
   ],
   "note": "Every live object with a variable; all programs, points, call histories before and after."
  },
  {
   "property": "C55",
   "status": "partial",
   "theorems": [
    "C55_shape",
    "C55_acyclic",
    "C55_no_path_no_effect",
    "C55_no_path_zero",
    "C55_labels",
    "C55_unlinked_refuted",
    "C55_operands_refuted"
   ],
   "note": "Shape, acyclicity, labels and dependence proved for all recorded programs. Refuted: a graph is always returned (KeyError for a block without inputs and outputs), labels can be read as equations (outdated variables of an object show its newest value)."
  },
  {
   "property": "C56",
   "status": "partial",
   "theorems": [
    "C56_tao_partial",
    "C56_exact_partial",
    "C56_hessian_partial",
    "C56_refuted"
   ],
   "note": "Proved for controls that influence J and whose objects were not overwritten, types with PETSc conversions, user blocks that answer, subvectors that share memory, Hessian products after a point was set. Over R the gradients are exact; Hessian answers are what rf.hessian gives after an evaluation at that point; under the conditions of C10 those of the function (C56_hessian_partial). Refuted: AdjFloat has no PETSc conversions, a control that does not influence J raises TypeError, in-place updated control objects give another derivative, norm before any derivative raises, copied subvectors lose writes. Not modelled: derivative callbacks, MPI, options of TAO."
  },
  {
   "property": "C57",
   "status": "partial",
   "theorems": [
    "C57_ipopt_partial",
    "C57_exact_partial",
    "C57_options",
    "C57_refuted"
   ],
   "note": "Proved when IPOPT asks for gradients only at the point evaluated last and all bounds are given; over R the gradients are those of scale*J. Options characterised exactly. Refuted: gradients at other points, an obj_scaling_factor parameter turns maximisation into minimisation, absent bounds become nan. Constraints: C35."
  },
  {
   "property": "C58",
   "status": "partial",
   "theorems": [
    "C58_arrays_partial",
    "C58_floats",
    "C58_point_refuted",
    "C58_repeated_refuted",
    "C58_write_refuted"
   ],
   "note": "Proved when array-valued functionals have a scale that is a factor one and the user does not write into arrays got from the tape; refuted without either condition (in-place scaling writes through views into the controls and accumulates). Adjoint arrays: C59. Two-dimensional arrays are not modelled."
  },
  {
   "property": "C59",
   "status": "partial",
   "theorems": [
    "C59_gradient_partial",
    "C59_frame",
    "C59_shared_refuted"
   ],
   "note": "Proved over the reals: derivatives taken in any interleaving with evaluations, writes into the user's arrays and writes into earlier gradients are the exact partial derivatives; for any arithmetic no user variable and no stored value changes except by writing. Missing: index lists with repeated indices and non-differentiable points (see C53), array functionals, writes into arrays got from the tape (see C58); controls without influence when derivatives of off-tape variables were taken. Refuted for array sums written like pyadjoint's own AddBlock: one array becomes the adjoint of both summands, and a later += on one changes the other."
  },
  {
   "property": "C60",
   "status": "partial",
   "theorems": [
    "C60_solve_partial",
    "C60_exact_partial",
    "C60_hessian_partial",
    "C60_bounds",
    "C60_refuted",
    "C60_hessian_refuted"
   ],
   "note": "Proved for control types that change in place with new copies and all methods, any algorithm keeping the protocol of C37 and asking for Hessian actions where it last asked for a gradient, over any arithmetic; over the reals gradients, and under the conditions of C10 Hessian actions, are those of the function. Refuted in full: AdjFloat controls (operations have no effect or raise), the start vector shares its objects with the tape, Hessian actions after an accepted point without a new gradient. Constraints passed to ROL are in C62; the Riesz map of gradients is the identity."
  },
  {
   "property": "C61",
   "status": "partial",
   "theorems": [
    "C61_moola_partial",
    "C61_exact_partial",
    "C61_refuted"
   ],
   "note": "Proved for memoize 0 or 1, when gradients are asked for at the point evaluated last and operators are applied when their point is the one evaluated last and the one of the last gradient, and nothing raises: values of scale*J of the re-run program, gradients and Hessian actions of rf without memoisation; over the reals and under the conditions of C10 those of the function. REFUTED in full: an operator applied after another evaluation acts at that point; made without a gradient there it uses the adjoint values of another point, or raises TypeError when there was none; with memoize 2 a cached value leaves the tape at another point. The conversion to Moola's vectors is not modelled."
  },
  {
   "property": "C62",
   "status": "partial",
   "theorems": [
    "C62_solve_partial",
    "C62_exact_partial",
    "C62_type_error",
    "C62_others_dropped",
    "C62_refuted"
   ],
   "note": "Proved for any arithmetic, any constraints of either kind (methods are any functions that may raise) and any algorithm keeping the update protocol of C37, with one control, a control and constraint type that changes in place, and the written vector not read in the same call; over the reals objective gradients and Hessian actions are the mathematical ones. TypeError for workspaces that are not overloaded is proved for all types. Refuted in full: with two controls the derivative ignores the second entry of the direction and the adjoint leaves the second entry as it was; with AdjFloat nothing is stored; constraints of neither class are silently dropped (C62_others_dropped). Not modelled: ROL's own scaling, dual vectors and bound constraints of the constraints beyond the zero lower bound."
  },
  {
   "property": "C63",
   "status": "partial",
   "theorems": [
    "C63_values",
    "C63_evaluate_partial",
    "C63_gradient_partial",
    "C63_gradient_evaluated_partial",
    "C63_deterministic",
    "C63_refuted",
    "C63_gradient_refuted"
   ],
   "note": "Recorded values and exceptions equal plain runs for all supported programs that end. Evaluation equals the program wherever its comparisons come out as recorded; the derivative is the exact gradient of the program (branches and loops included) where no recorded float equals the number it is compared with. Refuted otherwise: the tape keeps the branches and rounds taken when recording, also at ties."
  },
  {
   "property": "C64",
   "status": "partial",
   "theorems": [
    "C64_evaluate_partial",
    "C64_refuted"
   ],
   "note": "Evaluations, after any evaluations with the same controls and any other calls, equal the re-run of the program, each floating object showing at each use its function of its arguments at that moment; all programs in which floating objects are only arguments of wrapped functions (once per call) and are not controls. Derivatives are not proved. Refuted for Control of a floating object: evaluations ignore the supplied value and the derivative is zero."
  }
 ]
}