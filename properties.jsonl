{"id": "C01", "title": "Evaluating a reduced functional equals re-running the program", "statement": "For a program recorded on a tape, calling ReducedFunctional(J, controls)(values) returns exactly the value (or raises exactly the exception) that re-running the recorded program with the controls' values replaced would give; operations executed while annotation was off keep the values they had when recorded. The equality is exact for any arithmetic, including floating point.", "quantifier": "every straight-line program of overloaded float operations, user-defined multi-output blocks, pauses of annotation, in-place updates, time-step boundaries and garbage collections; every choice of leaf controls; every vector of control values", "why_tests_cant": "unit tests replay a handful of fixed expressions; the claim is about every program and every input, including aliasing (the same variable used several times in one operation) and unannotated segments", "anchors": ["pyadjoint/reduced_functional.py:ReducedFunctional.__call__", "pyadjoint/block.py:Block.recompute", "pyadjoint/adjfloat.py:annotate_operator", "pyadjoint/adjfloat.py:FloatOperatorBlock.recompute_component", "pyadjoint/block_variable.py:BlockVariable.saved_output", "pyadjoint/control.py:Control.update"]}
{"id": "C02", "title": "The recorded value is reproduced", "statement": "Calling the reduced functional with the values the controls had while recording returns the functional's recorded value exactly.", "quantifier": "every recorded program and every choice of controls (leaves or intermediate results)", "why_tests_cant": "tests check single programs; the exact (bitwise) reproduction must hold for all programs and any arithmetic", "anchors": ["pyadjoint/reduced_functional.py:ReducedFunctional.__call__", "pyadjoint/block.py:Block.recompute", "pyadjoint/block_variable.py:BlockVariable.will_add_as_dependency"]}
{"id": "C03", "title": "The value does not depend on the call history", "statement": "The result of rf(values) depends only on the recorded program and on the most recent value supplied for each leaf variable used as a control; it does not depend on how many evaluations, derivatives, Hessians, tangent-linear sweeps or failed calls came before, through this or any other reduced functional on the tape.", "quantifier": "every finite sequence of API calls (evaluations, derivatives, Hessians, TLM sweeps, of any reduced functionals on the tape), successful or failing", "why_tests_cant": "tests run short fixed call sequences; hidden state (adjoint values, markings, checkpoints) could leak only after particular histories", "anchors": ["pyadjoint/reduced_functional.py:ReducedFunctional.__call__", "pyadjoint/reduced_functional.py:ReducedFunctional.derivative", "pyadjoint/reduced_functional.py:ReducedFunctional.hessian", "pyadjoint/drivers.py:compute_gradient", "pyadjoint/drivers.py:compute_hessian"]}
{"id": "C04", "title": "A failed evaluation can be retried", "statement": "If rf(values) raises inside the recomputation of any block, no variable stays flagged as control, the annotation switch and the working tape are unchanged, and the next call rf(values2) gives what a call on a fresh recording would give.", "quantifier": "every tape, every block index at which the exception is raised, every later control value", "why_tests_cant": "crash points are as many as blocks; tests never inject a failure at each block of each tape", "anchors": ["pyadjoint/reduced_functional.py:ReducedFunctional.__call__", "pyadjoint/reduced_functional.py:marked_controls", "pyadjoint/tape.py:stop_annotating"]}
{"id": "C05", "title": "The derivative is the exact derivative", "statement": "Over real arithmetic, if rf.derivative() returns at a point where the recorded computation is differentiable, the returned list g satisfies d/dt rf(m + t h) at t=0 = sum_i g_i h_i for every direction h, and rf is defined near m.", "quantifier": "every tape built from + - * / ** neg exp log min max and user blocks with correct components, every set of controls none of which depends on another, every point, every direction; any accumulated stale state", "why_tests_cant": "Taylor tests sample points and directions and tolerate rounding; the claim is an equality for every graph", "anchors": ["pyadjoint/drivers.py:compute_gradient", "pyadjoint/tape.py:Tape.evaluate_adj", "pyadjoint/block.py:Block.evaluate_adj", "pyadjoint/adjfloat.py:MulBlock", "pyadjoint/adjfloat.py:DivBlock", "pyadjoint/adjfloat.py:PowBlock", "pyadjoint/adjfloat.py:ExpBlock", "pyadjoint/adjfloat.py:LogBlock", "pyadjoint/adjfloat.py:MinBlock", "pyadjoint/adjfloat.py:MaxBlock"]}
{"id": "C06", "title": "Derivatives are repeatable whatever happened before", "statement": "After an evaluation, rf.derivative() returns the same list (bit for bit, in any arithmetic) however many derivative, Hessian or TLM calls, for this or another functional or other controls, succeeded or failed in between, provided the controls lie on the tape and no other evaluation took place.", "quantifier": "every call history between two derivative calls, including calls that raised half-way and left stale adjoint values and stale path markings", "why_tests_cant": "leftover markings/adjoint values after a failure occur only for specific crash points", "anchors": ["pyadjoint/drivers.py:compute_gradient", "pyadjoint/tape.py:Tape.marked_nodes", "pyadjoint/tape.py:Tape.reset_variables", "pyadjoint/block_variable.py:BlockVariable.reset_variables"]}
{"id": "C07", "title": "A control without influence gets derivative zero", "statement": "If the functional does not depend on a control, derivative() returns 0 for it.", "quantifier": "every tape, functional and control, and every call history before", "why_tests_cant": "tests check a fresh tape; a stale adjoint value on a variable that the tape does not mention shows only after another derivative call", "anchors": ["pyadjoint/drivers.py:compute_gradient", "pyadjoint/control.py:Control.get_derivative", "pyadjoint/block.py:Block.reset_variables"]}
{"id": "C08", "title": "The tangent-linear model is the exact directional derivative", "statement": "Over real arithmetic, setting the controls' TLM values to h and evaluating the TLM gives, in every output variable that depends on a control, the directional derivative of its value along h.", "quantifier": "every tape of float operations and correct user blocks, every point where it is differentiable, every direction", "why_tests_cant": "tests compare a few expressions by finite differences", "anchors": ["pyadjoint/tape.py:Tape.evaluate_tlm", "pyadjoint/block.py:Block.evaluate_tlm", "pyadjoint/adjfloat.py:MulBlock.evaluate_tlm_component", "pyadjoint/adjfloat.py:DivBlock.evaluate_tlm", "pyadjoint/adjfloat.py:PowBlock.evaluate_tlm", "pyadjoint/adjfloat.py:SubBlock.evaluate_tlm"]}
{"id": "C09", "title": "Adjoint and tangent-linear sweeps are dual", "statement": "For every tape and direction, adj_seed * (TLM value of J in direction h) = sum_i derivative_i * h_i exactly, in every commutative ring, whenever both sweeps succeed, also for user blocks whose adjoint component is the transpose of their tangent component.", "quantifier": "every tape, seed, direction and commutative ring", "why_tests_cant": "a dot-product test samples directions", "anchors": ["pyadjoint/block.py:Block.evaluate_adj", "pyadjoint/block.py:Block.evaluate_tlm", "pyadjoint/adjfloat.py:FloatOperatorBlock"]}
{"id": "C10", "title": "The Hessian action is the derivative of the gradient", "statement": "Over real arithmetic, after rf.derivative(), rf.hessian(h) returns d/dt of rf.derivative() at m + t h.", "quantifier": "every tape of float operations, controls, points and directions", "why_tests_cant": "Taylor tests on Hessians sample few expressions; errors only show for particular combinations (products feeding nonlinear operations, exp, log, constants in quotients)", "anchors": ["pyadjoint/drivers.py:compute_hessian", "pyadjoint/block.py:Block.evaluate_hessian", "pyadjoint/adjfloat.py:MulBlock.evaluate_hessian_component", "pyadjoint/adjfloat.py:ExpBlock.evaluate_hessian_component", "pyadjoint/adjfloat.py:LogBlock.evaluate_hessian_component", "pyadjoint/adjfloat.py:DivBlock.evaluate_hessian", "pyadjoint/adjfloat.py:PowBlock.evaluate_hessian"]}
{"id": "C11", "title": "Differentiating never changes values", "statement": "derivative(), hessian() and TLM sweeps, whether they succeed or raise, change no stored forward value: control values, the functional's value and every later evaluation are the same as if the sweep had not happened.", "quantifier": "every tape without checkpointing, every crash point of the sweep", "why_tests_cant": "requires all intermediate states of the sweep", "anchors": ["pyadjoint/tape.py:Tape.evaluate_adj", "pyadjoint/tape.py:Tape.evaluate_tlm", "pyadjoint/tape.py:Tape.evaluate_hessian", "pyadjoint/block.py:Block.evaluate_adj"]}
{"id": "C12", "title": "Scale and adjoint seed act linearly", "statement": "rf with scale=s returns s*value; derivative(adj_input=a) with scale=s equals a*s times the unscaled derivative (exact over a commutative ring).", "quantifier": "every tape of float operations, every scale, seed and controls", "why_tests_cant": "tests use scale=1 or one value", "anchors": ["pyadjoint/reduced_functional.py:ReducedFunctional.__call__", "pyadjoint/reduced_functional.py:ReducedFunctional.derivative", "pyadjoint/drivers.py:compute_gradient"]}
{"id": "C13", "title": "Optimising the tape preserves value and derivative", "statement": "After rf.optimize_tape(), rf(values) and rf.derivative() return exactly what they would have returned on the unoptimised tape, for all values, and the kept blocks are exactly the ones both depending on a control and contributing to the functional, in their original order.", "quantifier": "every well-formed tape, set of controls and functional, every later control value", "why_tests_cant": "the removed part depends on the graph; tests check block counts on small graphs", "anchors": ["pyadjoint/tape.py:Tape.optimize", "pyadjoint/tape.py:Tape.optimize_for_controls", "pyadjoint/tape.py:Tape.optimize_for_functionals", "pyadjoint/reduced_functional.py:ReducedFunctional.optimize_tape"]}
{"id": "C14", "title": "A refused optimisation changes nothing", "statement": "If optimize_for_controls raises because a control depends on another control, the tape's blocks and time steps are what they were; and it raises exactly when some block output that depends on a control is itself a control.", "quantifier": "every tape and control list", "why_tests_cant": "needs every position of the offending block", "anchors": ["pyadjoint/tape.py:Tape.optimize_for_controls"]}
{"id": "C15", "title": "The annotation switch is always restored", "statement": "Any nesting of `with stop_annotating()` blocks and functions decorated with no_annotations, with early exceptions at any depth (caught or not) and recursion through the shared decorator object, leaves the annotation switch as it was on entry, and annotation is off everywhere inside.", "quantifier": "every finite program over with-blocks, decorated calls, raise, try/except, and annotation queries", "why_tests_cant": "the nesting and the exception points are unbounded; the decorator object is shared by the whole library and keeps a stack", "anchors": ["pyadjoint/tape.py:stop_annotating", "pyadjoint/tape.py:no_annotations", "pyadjoint/tape.py:annotate_tape"]}
{"id": "C16", "title": "Nothing is recorded while annotation is off", "statement": "Operations executed with annotation paused, within stop_annotating, or with annotate=False compute the same values but add no block, and their results behave as constants: derivatives with respect to controls do not flow through them.", "quantifier": "every program, every placement of pause/continue", "why_tests_cant": "all placements of switches in all programs", "anchors": ["pyadjoint/tape.py:annotate_tape", "pyadjoint/tape.py:pause_annotation", "pyadjoint/adjfloat.py:annotate_operator", "pyadjoint/adjfloat.py:exp", "pyadjoint/overloaded_function.py:overload_function"]}
{"id": "C17", "title": "Evaluating and differentiating record nothing", "statement": "rf(values), rf.derivative() and rf.hessian(), and the tape's own evaluate_adj/evaluate_tlm/evaluate_hessian, add no block to any tape and leave the annotation switch unchanged, even when annotation is on while they are called.", "quantifier": "every tape, every reduced functional incl. derivative_components, annotation on or off, every crash point", "why_tests_cant": "depends on the operators hidden in the sweep (in-place scaling, tlm accumulation, zero derivatives)", "anchors": ["pyadjoint/reduced_functional.py:ReducedFunctional.derivative", "pyadjoint/reduced_functional.py:_get_pack_derivative_components", "pyadjoint/adjfloat.py:PowBlock.evaluate_tlm", "pyadjoint/adjfloat.py:SubBlock.evaluate_tlm", "pyadjoint/tape.py:Tape.evaluate_tlm"]}
{"id": "C18", "title": "The working tape is scoped", "statement": "`with set_working_tape() as t:` makes t the working tape inside and re-establishes the previous working tape on exit, for every nesting and every exception; a function decorated with @set_working_tape() is equivalent to one whose body is wrapped in the context manager.", "quantifier": "every nesting of contexts, decorated functions, definitions and calls, with exceptions", "why_tests_cant": "decorator behaviour depends on the order of definition and calls", "anchors": ["pyadjoint/tape.py:set_working_tape"]}
{"id": "C19", "title": "Blocks are kept in execution order and consistently split into time steps", "statement": "After any sequence of add_block, end_timestep and dependency registrations, the tape's block list is the concatenation of its time steps' blocks, blocks appear in the order added, add_block returns the block's index, and no block moves or disappears.", "quantifier": "every sequence of tape operations", "why_tests_cant": "two redundant lists must stay in step for every interleaving", "anchors": ["pyadjoint/tape.py:TimeStepSequence.append", "pyadjoint/tape.py:TimeStepSequence.append_step", "pyadjoint/tape.py:Tape.add_block", "pyadjoint/tape.py:Tape.end_timestep", "pyadjoint/tape.py:Tape.add_to_checkpointable_state"]}
{"id": "C20", "title": "Copies of a tape are independent lists", "statement": "Tape.copy() has the same blocks and time steps as the original, and adding blocks or ending time steps on either afterwards does not change the other.", "quantifier": "every tape and every later operation sequence on either tape", "why_tests_cant": "aliasing shows only for particular later operations", "anchors": ["pyadjoint/tape.py:Tape.copy", "pyadjoint/tape.py:TimeStepSequence.__init__", "pyadjoint/tape.py:TimeStep.copy"]}
{"id": "C21", "title": "Snapshot and restore of block variables", "statement": "restore_block_vars(checkpoint_block_vars(controls)) brings back the value of the functional, of every block output and of the listed controls, and the derivative there, whatever evaluations took place in between.", "quantifier": "every tape, every control list containing the controls used, every sequence of evaluations in between", "why_tests_cant": "history of calls between snapshot and restore is unbounded", "anchors": ["pyadjoint/tape.py:Tape.checkpoint_block_vars", "pyadjoint/tape.py:Tape.restore_block_vars"]}
{"id": "C22", "title": "derivative_components selects components", "statement": "With derivative_components=idx, derivative() returns a list with the true derivative at the positions in idx and zeros elsewhere.", "quantifier": "every list of controls and every index tuple", "why_tests_cant": "tests use sorted tuples only", "anchors": ["pyadjoint/reduced_functional.py:_get_extract_derivative_components", "pyadjoint/reduced_functional.py:_get_pack_derivative_components", "pyadjoint/reduced_functional.py:ReducedFunctional.derivative"]}
{"id": "C23", "title": "Enlist/delist is a round trip", "statement": "Results come back in the shape controls were given: a single control gives a single derivative, a list or tuple gives a list of the same length, and delist refuses a wrong-sized list for a single control.", "quantifier": "every argument, listed or not", "why_tests_cant": "shape handling is used by every driver", "anchors": ["pyadjoint/enlisting.py:Enlist", "pyadjoint/reduced_functional.py:ReducedFunctional.derivative"]}
{"id": "C24", "title": "OrderedSet is a set that remembers insertion order", "statement": "Every operation of OrderedSet agrees with the mathematical set operation, has no duplicates, and iterates in order of first insertion; remove raises KeyError exactly for absent elements; operations returning a new set do not change their arguments.", "quantifier": "every sequence of operations and all element lists", "why_tests_cant": "unbounded histories, e.g. discard followed by re-add moves an element to the end", "anchors": ["pyadjoint/ordered_set.py:OrderedSet"]}
{"id": "C25", "title": "Tags partition the tagged blocks", "statement": "get_tags() lists each tag used once, in order of first appearance; get_blocks(tag) is exactly the blocks with that tag in tape order; every tagged block is found under exactly one listed tag.", "quantifier": "every tape", "why_tests_cant": "all distributions of tags", "anchors": ["pyadjoint/tape.py:Tape.get_tags", "pyadjoint/tape.py:Tape.get_blocks"]}
{"id": "C26", "title": "A failing operation leaves a usable tape", "statement": "If an overloaded operation raises while being recorded (exp overflow, log domain, division by zero, user function error), everything recorded before still evaluates and differentiates as before and recording can continue.", "quantifier": "every program and every operation at which the exception happens", "why_tests_cant": "each operation is a crash point; exp/log put their block on the tape before computing", "anchors": ["pyadjoint/adjfloat.py:exp", "pyadjoint/adjfloat.py:log", "pyadjoint/adjfloat.py:annotate_operator", "pyadjoint/overloaded_function.py:overload_function"]}
{"id": "C27", "title": "Placeholders feed the previous result back", "statement": "When a dependency is a Placeholder linked to a later variable, the n-th evaluation uses the value of that variable from evaluation n-1 (the recorded value first); the derivative treats it as a constant.", "quantifier": "every tape with a placeholder and every number of evaluations", "why_tests_cant": "needs induction over evaluations", "anchors": ["pyadjoint/placeholder.py:Placeholder"]}
{"id": "C28", "title": "stop_annotating(modifies=...) versions variables", "statement": "A value changed inside stop_annotating(modifies=u) is seen by operations recorded afterwards, while operations recorded before keep replaying with the old value.", "quantifier": "every program with any number of such updates", "why_tests_cant": "interleavings of updates and uses are unbounded", "anchors": ["pyadjoint/tape.py:stop_annotating.__exit__", "pyadjoint/overloaded_type.py:OverloadedType.clear_block_variable"]}
{"id": "C29", "title": "Garbage collection is unobservable", "statement": "Whether and when block variables that nothing references are collected changes neither values nor derivatives.", "quantifier": "every program and every schedule of collections", "why_tests_cant": "the collector's schedule is not under test control", "anchors": ["pyadjoint/overloaded_type.py:Weakref", "pyadjoint/overloaded_type.py:OverloadedType.block_variable"]}
{"id": "C30", "title": "Overloaded-type registry dispatch", "statement": "create_overloaded_object is the identity on overloaded objects, converts exactly the registered types with the class registered last for that type, and passes other objects through unchanged (with a warning unless suppressed).", "quantifier": "every sequence of registrations and every object", "why_tests_cant": "registration order and lists of classes are unbounded", "anchors": ["pyadjoint/overloaded_type.py:create_overloaded_object", "pyadjoint/overloaded_type.py:register_overloaded_type"]}
{"id": "C31", "title": "NumPy interface is a lossless view of the controls", "statement": "ReducedFunctionalNumPy(m_array) evaluates the functional at the control values packed in m_array; get_global/set_local are inverse to each other and use disjoint consecutive segments in control order; the derivative array is laid out the same way.", "quantifier": "every list of controls of any sizes and every array", "why_tests_cant": "offset arithmetic must hold for all size lists", "anchors": ["pyadjoint/reduced_functional_numpy.py:ReducedFunctionalNumPy", "pyadjoint/control.py:Control.assign_numpy", "pyadjoint/numpy_adjoint/array.py:ndarray"]}
{"id": "C32", "title": "Merged constraints behave as their concatenation", "statement": "canonicalise, MergedConstraints and the equality/inequality split keep every constraint exactly once, in order; function, jacobian and Hessian action of the merged constraint are the concatenation (or sum) of the parts and lengths agree.", "quantifier": "every nested list of constraints", "why_tests_cant": "all list shapes", "anchors": ["pyadjoint/optimization/constraints.py"]}
{"id": "C33", "title": "Bounds are aligned with controls", "statement": "MinimizationProblem accepts exactly well-shaped bounds; serialised bounds give, for each scalar component in control order, the lower and upper bound supplied (or -inf/+inf).", "quantifier": "every list of controls and bounds of mixed scalar/vector/None kind", "why_tests_cant": "shape combinations are unbounded", "anchors": ["pyadjoint/optimization/optimization_problem.py", "pyadjoint/optimization/optimization.py:serialise_bounds", "pyadjoint/optimization/ipopt_solver.py"]}
{"id": "C34", "title": "Each SciPy constraint gets its own Jacobian", "statement": "In the list of constraints passed to SciPy, the jac of entry i is the Jacobian of constraint i, as its fun is the function of constraint i.", "quantifier": "every list of constraints", "why_tests_cant": "a closure captured in a loop goes wrong only with two or more constraints", "anchors": ["pyadjoint/optimization/optimization.py:minimize_scipy_generic"]}
{"id": "C35", "title": "IPOPT receives consistent constraint bounds", "statement": "The constraint lower/upper bound lists have one entry per constraint component, 0 to 0 for equalities and 0 to +inf for inequalities, in the order of the merged constraint function.", "quantifier": "every constraint list", "why_tests_cant": "all lengths", "anchors": ["pyadjoint/optimization/ipopt_solver.py"]}
{"id": "C36", "title": "Moola memoisation is transparent", "statement": "With memoisation the Moola functional returns, for every sequence of evaluations and derivatives, the values that would be computed without it.", "quantifier": "every memoize size and every call sequence including failures", "why_tests_cant": "cache eviction and failure histories", "anchors": ["pyadjoint/optimization/moola_problem.py"]}
{"id": "C37", "title": "ROL's update protocol leaves the tape at the iterate ROL asks about", "statement": "Following ROL's Initial/Trial/Accept/Revert/Temp protocol, value and gradient are always those of the vector last passed to update.", "quantifier": "every sequence of update calls allowed by the protocol", "why_tests_cant": "protocol histories are unbounded", "anchors": ["pyadjoint/optimization/rol_solver.py"]}
{"id": "C38", "title": "PETSc/TAO vector interface and options handling", "statement": "to_petsc/from_petsc pack and unpack controls losslessly in disjoint index ranges; solver options are inserted for the duration of the context and removed afterwards even on exceptions; flattened parameter dictionaries keep every leaf under its joined key.", "quantifier": "every list of control sizes, every nested dictionary, every exception point", "why_tests_cant": "offset arithmetic and dictionary shapes", "anchors": ["pyadjoint/optimization/tao_solver.py"]}
{"id": "C39", "title": "Taylor test computes the documented residuals", "statement": "taylor_test computes residual |J(m+eps_k h) - J(m) - eps_k dJ(h)| for eps_k = 0.01*2^-k and the minimum of consecutive log-ratio rates; for a functional affine in the direction the residuals vanish; the controls end at the last perturbed point.", "quantifier": "every reduced functional, point and direction", "why_tests_cant": "numerical tests only see rates above a threshold", "anchors": ["pyadjoint/verification.py:taylor_test", "pyadjoint/verification.py:taylor_to_dict"]}
{"id": "C40", "title": "Checkpoint manager protocol", "statement": "With checkpointing enabled, end_timestep is accepted only while recording, a derivative is accepted only after an evaluation, and otherwise CheckpointError is raised without touching values; enabling after blocks were recorded is refused.", "quantifier": "every sequence of manager calls and every schedule", "why_tests_cant": "protocol histories", "anchors": ["pyadjoint/checkpointing.py:CheckpointManager.end_timestep", "pyadjoint/checkpointing.py:CheckpointManager.evaluate_adj", "pyadjoint/checkpointing.py:CheckpointManager.recompute", "pyadjoint/tape.py:Tape.enable_checkpointing"]}
{"id": "C41", "title": "Checkpointed evaluation equals plain evaluation", "statement": "For every schedule of Forward actions covering the steps in order, evaluating with checkpointing gives the functional value of the evaluation without checkpointing, for all control values.", "quantifier": "every program split into steps, every schedule, every control value", "why_tests_cant": "which values are dropped depends on step, schedule and dependency structure", "anchors": ["pyadjoint/checkpointing.py:CheckpointManager.recompute", "pyadjoint/checkpointing.py:CheckpointManager.process_operation", "pyadjoint/tape.py:TimeStep.checkpoint", "pyadjoint/tape.py:TimeStep.restore_from_checkpoint"]}
{"id": "C42", "title": "Checkpointed derivative equals plain derivative", "statement": "For every valid schedule, the derivative computed with checkpointing equals the one without, at the last evaluated control values, also after several evaluations.", "quantifier": "every program, schedule, control value and number of evaluations", "why_tests_cant": "recomputation from stored states depends on the interplay of schedule, dependency sets and controls", "anchors": ["pyadjoint/checkpointing.py:CheckpointManager.evaluate_adj", "pyadjoint/checkpointing.py:CheckpointManager.process_operation", "pyadjoint/tape.py:TimeStep.checkpoint"]}
{"id": "C43", "title": "solve_adjoint accumulates all sensitivities", "statement": "solve_adjoint(J) leaves in every variable's adj_value the derivative of J with respect to that variable.", "quantifier": "every tape and functional", "why_tests_cant": "the tests only look at one variable kind", "anchors": ["pyadjoint/drivers.py:solve_adjoint"]}
{"id": "C44", "title": "The timestepper makes one time step per iteration", "statement": "for step in tape.timestepper(iterable) yields the items of any iterable in order and the work of iteration k is recorded in time step k.", "quantifier": "every iterable and loop body, including early exit", "why_tests_cant": "kinds of iterables and early exits", "anchors": ["pyadjoint/tape.py:TapeTimeStepper", "pyadjoint/tape.py:Tape.timestepper"]}
{"id": "C45", "title": "Controls that are intermediate results cut the graph", "statement": "If a control is an intermediate result, evaluating with a new value uses that value everywhere downstream, and the derivative with respect to the listed controls is the derivative of that function, also when one control is computed from another.", "quantifier": "every tape and set of controls, including controls computed from controls", "why_tests_cant": "all graph positions", "anchors": ["pyadjoint/block.py:Block.recompute", "pyadjoint/drivers.py:compute_gradient", "pyadjoint/tape.py:_find_relevant_nodes"]}
{"id": "C46", "title": "Control flags never leak", "statement": "After any API call, normal or exceptional, no variable is left flagged as a control, so later writes to its stored value take effect.", "quantifier": "every call and crash point", "why_tests_cant": "crash points", "anchors": ["pyadjoint/reduced_functional.py:marked_controls", "pyadjoint/drivers.py:marked_controls", "pyadjoint/block_variable.py:BlockVariable.checkpoint"]}
{"id": "C47", "title": "overload_function records what the function did", "statement": "A function wrapped by overload_function returns the function's result in the same shape, records exactly one block with the call's dependencies and one output variable per result when annotation is on, and none when off; nested annotation inside the function is suppressed.", "quantifier": "every function, arguments, result shape and nesting", "why_tests_cant": "all result shapes and nested overloaded calls", "anchors": ["pyadjoint/overloaded_function.py:overload_function", "pyadjoint/block.py:Block.pop_kwargs"]}
{"id": "C48", "title": "The recompute counter counts evaluations", "statement": "tape.recompute_count is the number of functional evaluations started since the tape was created or cleared.", "quantifier": "every call history", "why_tests_cant": "histories", "anchors": ["pyadjoint/reduced_functional.py:ReducedFunctional.__call__", "pyadjoint/tape.py:Tape.clear_tape"]}
{"id": "C49", "title": "The tape lists exactly the annotated operations", "statement": "After any program, the tape's block list contains, in execution order, exactly one block for each overloaded operation executed with annotation on that returned, holding the versions and values it read and the versions and values it produced, plus one block without results for each exp/log/min/max call that raised; nothing else.", "quantifier": "every program, every placement of switches, updates, collections, time steps and failing operations", "why_tests_cant": "quantifies over all programs and interleavings of switches, failures and in-place updates", "anchors": ["pyadjoint/tape.py:Tape.add_block", "pyadjoint/block.py:Block.add_dependency", "pyadjoint/block.py:Block.add_output", "pyadjoint/adjfloat.py:annotate_operator", "pyadjoint/overloaded_type.py:OverloadedType.create_block_variable"]}
{"id": "C50", "title": "Clearing the tape starts afresh", "statement": "After tape.clear_tape() the tape has no blocks and no time steps, its evaluation count is zero and adjoint values are gone, while objects keep their values. A reduced functional of a program recorded afterwards behaves as if the program had been recorded on a new tape by a process holding the same objects: evaluating it gives what re-running the program from the objects' current values gives.", "quantifier": "every history of recordings, evaluations, derivatives and clearings before, every program afterwards", "why_tests_cant": "histories before the clearing and programs after it are unbounded", "anchors": ["pyadjoint/tape.py:Tape.clear_tape", "pyadjoint/tape.py:Tape.reset_variables", "pyadjoint/block_variable.py:BlockVariable.save_output", "pyadjoint/block_variable.py:BlockVariable.will_add_as_dependency"]}
{"id": "C51", "title": "minimize and maximize hand the optimiser the scaled functional", "statement": "minimize(rf, method, scale=s, bounds=b) runs the optimisation algorithm from the current controls on the function s*J, J the re-run program: every value, gradient and Hessian action the algorithm receives is that of s*J at the point it asks about, and the bounds it receives are those given; maximize does the same with -s*J. The controls the algorithm ends with are returned (bare if there is one) and are the values the controls hold afterwards; an exception of the algorithm comes out. Afterwards rf has the scale it had before, and its derivative is that at the returned controls.", "quantifier": "every recorded program, every call history before, every algorithm and order of questions, every method, scale and bounds", "why_tests_cant": "quantifies over all optimisation algorithms and their sequences of questions", "anchors": ["pyadjoint/optimization/optimization.py:minimize", "pyadjoint/optimization/optimization.py:maximize", "pyadjoint/optimization/optimization.py:minimize_scipy_generic", "pyadjoint/optimization/optimization.py:minimize_custom", "pyadjoint/reduced_functional_numpy.py:ReducedFunctionalNumPy"]}
{"id": "C52", "title": "Python arithmetic on recorded floats is the program that is re-evaluated and differentiated", "statement": "Let a program assign variables with Python expressions over AdjFloats and ordinary ints and floats: + - * / ** % //, unary - and +, abs, and pyadjoint's exp, log, min, max, with any mix of recorded and ordinary operands. With annotation on every variable gets the value, or the program the exception, that ordinary numbers give. For every variable J that is an AdjFloat, ReducedFunctional(J, controls) called with new values returns what the same Python program computes when run with those values as ordinary numbers, or raises the same exception, and its derivative is the gradient of that function.", "quantifier": "every program of assignments and every expression, every assignment of recorded and ordinary operands, every evaluation point, every earlier history of calls", "why_tests_cant": "quantifies over all expressions and operand kinds; which operand's method Python calls decides what is recorded", "anchors": ["pyadjoint/adjfloat.py:annotate_operator", "pyadjoint/adjfloat.py:AdjFloat", "pyadjoint/adjfloat.py:exp", "pyadjoint/adjfloat.py:log", "pyadjoint/adjfloat.py:min", "pyadjoint/adjfloat.py:max", "pyadjoint/overloaded_type.py:create_overloaded_object", "pyadjoint/reduced_functional.py:ReducedFunctional"]}
{"id": "C53", "title": "Programs that index numpy arrays are re-evaluated and differentiated as written", "statement": "Let a program use one-dimensional numpy_adjoint arrays and AdjFloats: index an array with an int, a slice, a list of ints or a list of bools, add, subtract, multiply and negate arrays, and compute with floats using + - * / **, unary -, exp, log, min, max. With annotation on every variable gets the value, or the program the exception, that plain numpy arrays and floats give. For every variable J, ReducedFunctional(J, controls) with arrays and floats as controls, called with new arrays and floats, returns what the program computes with those, or raises the same exception. If J is a float, its derivative is the gradient: for each array control the array of partial derivatives by its entries, for each float control the partial derivative; and its Hessian action is the second derivative.", "quantifier": "every program, every array length and index expression, every evaluation point (arrays of any lengths), every earlier history of calls", "why_tests_cant": "quantifies over all programs, array lengths, and combinations of overlapping slices and index lists", "anchors": ["numpy_adjoint/array.py:ndarray", "numpy_adjoint/array.py:ndarray.__getitem__", "numpy_adjoint/array.py:NumpyArraySliceBlock", "numpy_adjoint/__init__.py", "pyadjoint/reduced_functional.py:ReducedFunctional", "pyadjoint/drivers.py:compute_gradient"]}
{"id": "C54", "title": "After an evaluation every recorded object holds its value in the re-run program", "statement": "Let rf = ReducedFunctional(J, controls) for a recorded program, and let rf(m) return a value. Then for every object y of the program that has a variable on the tape - inputs, intermediate results and the results of operations that J does not depend on - the stored value (y.block_variable.saved_output, Control(y).tape_value()) is the value y has at the end of the program when it is run with m, and stays so through any later derivative, Hessian and sweep calls. Earlier evaluations with the controls of the program do not matter, provided the controls do not contain a proper part of the outputs of an operation.", "quantifier": "every recorded program, object, evaluation point, and history of calls before and after the evaluation", "why_tests_cant": "quantifies over all programs and all intermediate objects, including those no functional depends on", "anchors": ["pyadjoint/reduced_functional.py:ReducedFunctional.__call__", "pyadjoint/block.py:Block.recompute", "pyadjoint/block_variable.py:BlockVariable.saved_output", "pyadjoint/control.py:Control.tape_value"]}
{"id": "C55", "title": "The exported graph is the tape, and its paths are the dependences", "statement": "For every recorded program tape.create_graph() returns a directed acyclic graph: one node for every operation and every variable of the tape, one edge from every input of an operation to it and from it to every output. Operations are labelled with their operator and operands at position (0, -i), i the index on the tape; variables are labelled with the stored value of their object and placed next to the first operation where they occur. After rf(m) the label of a variable is the value of its object when the program is run with m, so an arithmetic operation and its output can be read as an equation. If no path leads from a control to J, changing that control does not change rf(m), and if the control is in the graph its derivative is zero.", "quantifier": "every recorded program, evaluation point, and history of calls", "why_tests_cant": "quantifies over all tapes; absence of paths and independence are universal statements over all control values", "anchors": ["pyadjoint/tape.py:Tape.create_graph", "pyadjoint/block.py:Block.create_graph", "pyadjoint/block_variable.py:BlockVariable.__str__", "pyadjoint/adjfloat.py:AdjFloat._ad_str"]}
{"id": "C56", "title": "TAOSolver callbacks answer at the point asked about, in any order", "statement": "For every recorded program, every problem MinimizationProblem(rf, bounds) without constraints and every behaviour of TAO, TAOSolver(problem, parameters).solve() is the run of TAO on the function scale*J: TAO starts at the controls' tape values with the bounds given; the objective callback returns scale*J(x) and writes its gradient at x; the Hessian matrix times v is the Hessian at the point last set, applied to v, plus the shifts added since then times v, whatever was evaluated in between; the gradient norm and the initial inverse Hessian of LMVM are the Riesz representation of a derivative. An exception of the program comes out of solve(); a stop without convergence raises TAOConvergenceError; otherwise the solution is returned, as a list iff the controls were given as one.", "quantifier": "every recorded program, controls of every type with PETSc conversions, every sequence of callbacks chosen by TAO depending on the answers, every history of calls before", "why_tests_cant": "TAO's methods choose the points and the order of callbacks; the Hessian context keeps a point and a shift between callbacks while the tape moves to other points, so wrong answers need particular interleavings", "anchors": ["pyadjoint/optimization/tao_solver.py:TAOObjective", "pyadjoint/optimization/tao_solver.py:TAOSolver", "pyadjoint/optimization/tao_solver.py:PETScVecInterface"]}
{"id": "C57", "title": "IPOPTSolver runs IPOPT on the reduced functional", "statement": "For every recorded program and every behaviour of IPOPT, IPOPTSolver(problem, parameters).solve() for a problem without constraints is a run of IPOPT on scale*J: it starts at the controls' tape values with the problem's bounds, every value and gradient it is given is that of scale*J at the point it asks about, and a MaximizationProblem is maximised. parameters reach IPOPT under their names, 'tolerance' as tol and 'maximum_iterations' as max_iter. What IPOPT ends with is returned, as a list iff the controls were given as one; exceptions of callbacks come out of solve().", "quantifier": "every recorded program, control type with list conversions, bounds, parameter dictionary, sequence of callbacks chosen by IPOPT depending on the answers, history of calls before", "why_tests_cant": "IPOPT chooses points and order; whether gradients belong to the point asked about depends on the interleaving", "anchors": ["pyadjoint/optimization/ipopt_solver.py:IPOPTSolver", "pyadjoint/reduced_functional_numpy.py:ReducedFunctionalNumPy"]}
{"id": "C58", "title": "Tape and user arrays do not interfere", "statement": "For every recorded program over numpy arrays and floats and every later sequence of user actions (making arrays, taking slices of them - which are views -, writing into them, evaluating reduced functionals, reading control values off the tape), evaluating rf at the user's current values returns scale*J at those values; the controls then hold exactly those values, no array of the user has changed, the returned value does not change afterwards, and later writes of the user into their own arrays do not change anything on the tape.", "quantifier": "every recorded array program, functional (float or array), scale, interleaving of array creation, slicing, in-place writes, evaluations and tape reads", "why_tests_cant": "whether two arrays share memory depends on the whole history of slicing and evaluation; a corrupted stored value shows only in a later call", "anchors": ["numpy_adjoint/array.py:ndarray", "numpy_adjoint/array.py:NumpyArraySliceBlock.recompute_component", "pyadjoint/reduced_functional.py:ReducedFunctional.__call__", "pyadjoint/control.py:Control.update", "pyadjoint/control.py:Control.tape_value"]}
{"id": "C59", "title": "Gradients of array programs are right in memory, and belong to the user", "statement": "Let a program over numpy arrays and floats be recorded, and let the user afterwards make arrays, take slices (views), write into their arrays, evaluate reduced functionals, take derivatives of any recorded variables and write into the derivatives they get, in any order. Then the derivative taken after rf(values) consists, for every array control, of an array of the partial derivatives of scale*J by its entries at those values, and of a number for every float control, although adjoint values are accumulated in place; later evaluations and derivatives never change a gradient returned before or any other array of the user, derivatives never change a value stored on the tape, and writing into a returned gradient changes nothing on the tape and no other gradient. The same holds for further array operations whose blocks follow the interface.", "quantifier": "every recorded array program, float functional, evaluation point, scale, interleaving of evaluations, derivatives and writes into arrays and gradients", "why_tests_cant": "whether an accumulated adjoint shares memory with another one or with a gradient handed out depends on the whole program and history", "anchors": ["pyadjoint/block_variable.py:BlockVariable.add_adj_output", "pyadjoint/block.py:Block.evaluate_adj", "pyadjoint/control.py:Control.get_derivative", "numpy_adjoint/array.py:NumpyArraySliceBlock.evaluate_adj_component", "numpy_adjoint/array.py:ndarray._ad_convert_type", "pyadjoint/drivers.py:compute_gradient"]}
{"id": "C60", "title": "Running ROL through the adapter equals running it on plain vectors and the re-run program", "statement": "For any algorithm that uses the vector operations and the objective callbacks handed to it, ROLSolver(problem, parameters).solve() returns what that algorithm computes when its vectors are plain lists of values (a clone is a zero vector, plus and scale change only their own vector, dot, norm, dimension, reduce and the elementwise operations act on the values) and its value, gradient and Hessian-vector answers are those of scale times the functional of the re-run program at the vector of the last update; exceptions of the functional come out unchanged; the vectors of bounds have the given values and are separate from the control vector; the values stored by the tape change only by evaluations.", "quantifier": "every recorded program, every history of evaluations and sweeps before, every ROL algorithm keeping the update protocol, every control type", "why_tests_cant": "Tests run one ROL algorithm on a few problems with one control type; which vectors share objects with each other or with the tape, and which adjoint values a Hessian action uses, depends on the order in which the algorithm calls back.", "anchors": ["pyadjoint/optimization/rol_solver.py", "pyadjoint/overloaded_type.py", "pyadjoint/adjfloat.py", "pyadjoint/control.py"]}
{"id": "C61", "title": "Moola gets value, gradient and Hessian of the functional at the point it asks about", "statement": "For MoolaOptimizationProblem(rf, memoize).obj: calling it at x returns scale times the functional of the re-run program at x, derivative(x) the gradient of that function at x, and hessian(x) an operator that maps a direction d to the Hessian of that function at x applied to d, whatever other calls were made before the operator was made and between making and applying it, and whatever memoize is. (Values and gradients alone: C36.)", "quantifier": "every recorded program, scale, memoize size, history of evaluations and sweeps before, sequence of evaluations, gradients, Hessian operators made and applied, points and directions", "why_tests_cant": "Moola's algorithms interleave evaluations, gradients and Hessian actions depending on the values they see; which point and which adjoint values an action uses depends on the whole order and on cache hits", "anchors": ["pyadjoint/optimization/moola_problem.py", "pyadjoint/reduced_functional.py:ReducedFunctional.hessian", "pyadjoint/drivers.py:compute_hessian"]}
{"id": "C62", "title": "Running ROL with constraints through the adapter equals running it on plain vectors and plain constraint functions", "statement": "For a problem with a list of equality and inequality constraints and any algorithm that uses the vector operations, the objective callbacks and the constraint callbacks handed to it, ROLSolver(problem, parameters).solve() returns what that algorithm computes on plain vectors when value() gives the list of the values of the constraints of that kind at x in the order of the problem, applyJacobian the list of their derivatives along the direction, applyAdjointJacobian and applyAdjointHessian the Riesz map of the sum over the constraints of their adjoint derivatives (second derivatives along the direction) with the entries of the multiplier; every callback writes its result vector only, whatever it held before; exceptions of a constraint come out unchanged; the lower bounds of inequality constraints are zero; all constraints of the problem are passed on; a constraint whose workspace is no overloaded value is refused with TypeError.", "quantifier": "every recorded program, every number of controls, every list of constraints, every ROL algorithm keeping the update protocol, every control and constraint value type", "why_tests_cant": "Tests run ROL on one problem with one or two constraints; which entries a callback reads and which objects it leaves untouched depends on the number of controls and on whether their type changes in place.", "anchors": ["pyadjoint/optimization/rol_solver.py", "pyadjoint/optimization/constraints.py", "pyadjoint/overloaded_type.py"]}
{"id": "C63", "title": "The reduced functional of a program with if and while is the program", "statement": "Let a Python program assign variables, branch with if and loop with while, where expressions are those of C52 and conditions compare two expressions with < <= > >= == !=, over AdjFloats and ordinary numbers. With annotation on the program ends with the values, or raises the exception, that ordinary numbers give. For every variable J that is an AdjFloat at the end, ReducedFunctional(J, controls) called with new values returns what the program computes when run with those values as ordinary numbers, or raises the same exception, and its derivative is the gradient of that function.", "quantifier": "every program with any nesting of if and while that ends, every mix of recorded and ordinary operands, every evaluation point, every earlier history of calls", "why_tests_cant": "quantifies over all programs and numbers of loop rounds; a test evaluates near the recorded values, where the branches agree", "anchors": ["pyadjoint/adjfloat.py:AdjFloat", "pyadjoint/adjfloat.py:annotate_operator", "pyadjoint/reduced_functional.py:ReducedFunctional", "pyadjoint/drivers.py:compute_gradient"]}
{"id": "C64", "title": "A floating object passed to a function is recomputed from its arguments", "statement": "Let f be an active floating object (FloatingType with a block class): its value is a function of other overloaded objects, at all times. Let programs create such objects, pass them to functions wrapped by overload_function, and overwrite other objects in between. Calling ReducedFunctional(J, controls) with new values returns what the program computes when re-run with those values (or raises the same exception), f showing at each use its function of what its arguments are at that moment; when f itself is a control, its later uses take the supplied value.", "quantifier": "every program creating and using any number of floating objects, every interleaving with in-place modifications, pauses and timesteps, every control, every new values", "why_tests_cant": "quantifies over all programs and all orders of uses and modifications; a test uses one view and one modification", "anchors": ["pyadjoint/overloaded_type.py:FloatingType", "pyadjoint/block_variable.py:BlockVariable.will_add_as_dependency", "pyadjoint/block.py:Block.add_dependency", "pyadjoint/overloaded_function.py:overload_function"]}
