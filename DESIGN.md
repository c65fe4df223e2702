# A Rocq model of pyadjoint

Source modelled: `/repo` (dolfin-adjoint/pyadjoint at the pinned commit), read as text; nothing is run.
Prover: Coq 8.16.1. Sources in `rocq/theories`, built with `coq_makefile -f _CoqProject -o Makefile && make -j4`.

## 1. Shape of the model

* **Arithmetic is a parameter.** A record `fops V` holds the float operations used by the code (`+ - * neg`, the
  partial `/ ** exp log`, `numpy.log`, comparisons). Structural theorems (replay, history, crash points, tape
  surgery, checkpointing, caches) hold for *every* `V` and `fops`, hence bit for bit for IEEE floats, whatever they do.
  Calculus theorems instantiate `V := R`; duality theorems assume commutative-ring laws as section hypotheses
  (discharged at `R`); counterexamples instantiate `V := Z` or `Q` and compute.
* **Exceptions are values.** Sweeps return `state * option exn`, so what a half-finished sweep leaves behind is visible
  (crash-point properties).
* **Object graph.** Block variables live in a heap `nat -> bvar`; blocks name variables by number; Python identity is
  number equality. Heaps are compared pointwise (no functional extensionality).
* **Recording.** User programs are statement lists executed on a world (objects with values and weak references to
  block variables, heap, tape, annotation switch), following the order of effects in the code (e.g. `exp` puts its
  block on the tape before computing the result, `+` after).
* **Specification side.** `Spec*.v`: a small definitional interpreter of programs/graphs which knows nothing about
  tapes, checkpoints or markings. Property files `Props_*.v` contain only theorems closed by `exact lemma` and
  `Print Assumptions`.

## 2. What is modelled, what is not

Modelled (function by function, each definition cites its lines): `block_variable.py`, `block.py`, `adjfloat.py`, `tape.py` (annotation switch, working tape, Tape, TimeStep, TimeStepSequence, timestepper; create_graph; not
the TensorFlow part and the writing of files), `drivers.py`, `control.py`, `reduced_functional.py`, `enlisting.py`,
`ordered_set.py`, `placeholder.py`, `overloaded_function.py`, `overloaded_type.py` (registry, weak references),
`checkpointing.py` (schedule = an arbitrary list of actions), `reduced_functional_numpy.py`, `verification.py`,
`optimization/*.py` (minimize/maximize, constraints, bounds, SciPy/IPOPT glue, Moola cache and Hessian operators, ROL update protocol, vectors and solver, TAO vectors/options),
`numpy_adjoint/array.py` (indexing of one-dimensional arrays).

Not modelled: TensorFlow/DOT output, logging and progress bars, pickling, disk checkpointing packages,
MPI, the external optimisers and `checkpoint_schedules` themselves (they are universally quantified: any
schedule, any call sequence), thread interleavings, IEEE rounding (structural theorems hold for any rounding; calculus
theorems are about exact reals).

Simplifications are listed at the definition and collected in section 5.

### Files

| files | content |
|---|---|
| Base, Model, Record, Surgery, Coll, Proc, RFull, Over, Opt, Solvers, Taylor, Ckpt, Stepper, Place, Minimise, PyExp, Arrays, Export, Tao, Ipopt, Alias, AliasGrad, Rol, Moola, RolCon, PyFlow, Floating | model (definitions only) |
| Spec, SpecGraph, SpecColl, SpecTape, SpecPlain, SpecOpt, SpecSolvers, SpecTaylor, SpecCkpt, SpecStepper, SpecPlace, SpecHess, SpecClear, SpecMinimise, SpecPy, SpecArr, SpecArrR, SpecExport, SpecTao, SpecIpopt, SpecAlias, SpecAliasGrad, SpecRol, SpecMoola, SpecRolCon, SpecFlow, SpecFloating | specifications, independent of tapes, checkpoints and sweeps |
| BaseFacts, Graph, RecordFacts, Replay*, Session, History, Sweep, Marks, FreshAdj | replay, recording invariant, call histories |
| Dual, TlmSweep, DualAll, Linear, RealInst, Calculus, Gradient, HessFacts, HessSweep, HessExact | sweeps as linear maps, real first and second derivatives |
| Optimize*, TapeFacts, TapeMore, TapeCopy | tape surgery |
| CollFacts, ProcFacts, RFullFacts, OverFacts | collections, switches, interface, overload_function |
| OptFacts, SolverFacts, MinimiseFacts, TaoFacts, IpoptFacts | NumPy view, constraints, bounds, optimisation packages, minimize/maximize, TAOSolver, IPOPTSolver |
| RolFacts, RolConFacts, MoolaFacts | ROL vectors, solver and constraints, Moola functional with Hessians |
| HessDer, HessRuns | Hessians of the re-run program and the algorithms that ask for them |
| Reach | a sweep leaves a value in every variable that influences the functional |
| TaylorFacts | Taylor test |
| CkptProtocol, CkptRecord, CkptStep, CkptInv, CkptTape, CkptEval, CkptCall, CkptAdj, CkptGrad, CkptGlob, CkptStored, CkptGradR | checkpoint manager: modes; recording with a manager against recording without; invariants of stored values; evaluations and derivatives against the plain tape |
| StepperFacts | loops over tape.timestepper |
| PlaceFacts | tapes with placeholders against plain tapes |
| PyFacts, PyProg, PyGradR | Python expressions over AdjFloats |
| FlowFacts, FlowGradR | Python programs with if and while |
| FloatFacts, FloatHist | floating objects |
| AliasFacts, AliasGradFacts, AliasGradRun, AliasGradR | arrays sharing memory: evaluations, derivatives |
| ArrFacts, ArrIndex, ArrFlat, ArrGradR, ArrTape, ArrProgR | numpy_adjoint arrays: programs that index arrays, the tape of single numbers they stand for, their gradients |
| TapeValues, ExportFacts, ExportRun | stored values after an evaluation; the exported graph of a tape |
| ClearTape, ClearFresh | recording on a cleared tape |
| Iso, TapeRecord, IsoRecord, Observe | parametricity in variable names, tape = recorded operations, observational equivalence of programs |
| Instances, Props_* | example arithmetic; property theorems and examples |

## 3. Trusted base

The Coq kernel; the axioms `Print Assumptions` prints below each property theorem; the reading of the Python source
into the model. Structural theorems are closed under the global context. Theorems over `R` (C05, C08, C10, C42_gradient_partial, C42_stored_gradient_partial, C10_rerun_partial, C51_exact_partial, C51_hessian_partial, C56_exact_partial, C56_hessian_partial, C60_hessian_partial, C61_exact_partial, C62_exact_partial, C57_exact_partial, C60_exact_partial, C59 gradients, C52_gradient*, C63_gradient*, C53_gradient*, C53_repeated_refuted, parts of
C09/C12/C39) use the standard library's `ClassicalDedekindReals.sig_not_dec`, `ClassicalDedekindReals.sig_forall_dec`,
`FunctionalExtensionality.functional_extensionality_dep` and `Classical_Prop.classic`.

## 4. Properties

(Status is kept in `MANIFEST.json`. "any" = for every value type and arithmetic.)

| id | what is modelled | how proved |
|----|------------------|------------|
| C01 | recording of programs, `ReducedFunctional.__call__` | refinement: recorded tape simulates the definitional interpreter (induction over the program), replay = spec (induction over blocks); any |
| C02 | same | corollary of the recording invariant; any |
| C03 | API calls as a transition system | invariant over call histories; any |
| C04 | state left by an exception at any block | invariant + C03; any |
| C05 | `compute_gradient` over R | reverse-sweep invariant (sum of adjoint*tangent is conserved) + Coquelicot derivatives per operation; refutation for off-tape stale control |
| C06 | stale adjoint values and markings | sweep result depends only on saved values of path variables; any |
| C07 | `get_derivative` on None, reset of on-tape variables only | theorem for on-tape controls / fresh state; refutation for off-tape stale control |
| C08 | `evaluate_tlm` over R | forward induction |
| C09 | both sweeps over commutative rings | reverse-sweep invariant, also for controls that depend on one another (`DualAll.v`); refutation for off-tape stale control |
| C10 | `compute_hessian` over R | per-operation refutations (Mul, Exp, Log, None adj); on the sound fragment (`SpecHess.v`) the second-order sweep tracks the derivative of the pure adjoint sweep along the control line (`HessFacts.v`, `HessSweep.v`, `HessExact.v`) |
| C11 | sweeps touch only adj/tlm/hessian/mark fields | frame lemmas; any |
| C12 | scale, adj_input | linearity by induction; ring; refutation for off-tape stale control |
| C13 | `Tape.optimize*` | dead-code elimination simulation for value and adjoint; any |
| C14 | RuntimeError branch | case analysis with exact characterisation; any |
| C15 | with/decorator programs with shared stack | induction over programs |
| C16 | annotation switch in recording | frame + spec leaf; any |
| C17 | block list unchanged by sweeps; annotated `*=` in pack callback | frame lemmas; refutations |
| C18 | set_working_tape programs | induction; refutation for decorator |
| C19 | TimeStepSequence | invariant over operation sequences |
| C20 | Tape.copy | separation of lists; aliasing refutation for step metadata |
| C21 | checkpoint/restore dictionaries | frame + replay theorem; any |
| C22 | pack/extract callbacks | list induction; refutation for unsorted tuples |
| C23 | Enlist | case analysis |
| C24 | OrderedSet as insertion-ordered dict | list-set theorems, refinement to finite sets |
| C25 | get_tags/get_blocks | list induction |
| C26 | exception while recording | recording invariant covers output-less blocks; any |
| C27 | placeholder.Placeholder | simulation with the tape whose placeholders are ordinary variables, induction over evaluations; refutation: derivative mixes new and old values |
| C28 | clear_block_variable | recording refinement with object versions; any |
| C29 | weak references | recording invariant is stable under collection; any |
| C30 | registry dictionary | induction over registrations |
| C31 | offsets | list induction |
| C32 | constraints | list induction |
| C33 | bounds | list induction |
| C34 | closure late binding | refutation + fun part positive |
| C35 | cl/cu lists | list induction |
| C36 | cache | refutation for size >= 2 / failures; theorem for size 1 without failures |
| C37 | ROL updates | invariant over protocol traces |
| C38 | vectors, options, flattening | list/tree induction |
| C39 | taylor_test, taylor_to_dict | composition of replay and gradient theorems over R; rates as the exponent p with e1 = e0 (1/2)^p |
| C40 | manager modes | state machine |
| C41 | recompute with manager | simulation invariant on live variables |
| C42 | evaluate_adj with manager | simulation invariant; at changed values an invariant on what the steps' checkpoints hold; refutations for controls not used in every step and for replayed steps |
| C43 | solve_adjoint | refutation + positive for J a control |
| C44 | TapeTimeStepper, for loops | induction over the items; refutations: non-iterators, first iteration without work, loop longer than the schedule |
| C45 | recompute skips controls' blocks | replay theorem with cut semantics; refutation for dependent controls |
| C46 | marked_controls | state machine; any |
| C47 | overload_function | recording semantics |
| C48 | counter | state machine |
| C49 | recording | correspondence between block list and the operations of the program, by induction over the program; any |
| C50 | `clear_tape` in sessions (`Surgery.v`, `RFull.v`), `SpecClear.v` | the cleared world satisfies the recording invariant if no evaluation changed stored values (`ClearTape.v`); for new objects a twin world without a past is simulated (`ClearFresh.v`); refuted for objects evaluated before at other values |
| C51 | `minimize`, `maximize` with an arbitrary algorithm (a decision tree of questions, `Minimise.v`) | simulation of the run on the tape by the run on the functions (`SpecMinimise.v`: `plays`), induction over the run; over R the answers are gradients; refutations: NumPy view, scale and tape afterwards, gradient at another point, bounds of basinhopping |
| C52 | Python's operator dispatch on AdjFloats and numbers (`PyExp.v`), `annotate_operator`, exp/log/min/max | the evaluation of a supported expression is a list of recorded statements whose re-run computes the expression with the new numbers (induction on expressions, `PyFacts.v`); then C01 and C05; refutations for reflected / and **, %, //, +x, abs(x), int arguments |
| C53 | `numpy_adjoint/array.py` (`Arrays.v`): `__getitem__`, `NumpyArraySliceBlock`, programs of indexing and float operations | each statement is a recorded statement over values that are floats or arrays, then C01; for derivatives the tape of arrays is matched, block by block and sweep by sweep, with a tape of single numbers (entry i of variable v = one variable, `ArrFlat.v`), then C05; refutations: repeated positions, array arithmetic, Hessians |
| C54 | `saved_output` of all variables after `__call__` | the simulation of C01, for every object instead of the functional (`TapeValues.v`) |
| C55 | `Tape.create_graph`, `Block.create_graph` (`Export.v`) | invariant over the blocks added so far (`ExportFacts.v`); paths = influence, then the replay and sweep theorems (`ExportRun.v`); refutations: blocks without inputs and outputs, labels of outdated variables |
| C56 | `TAOObjective`, callbacks of `TAOSolver`, `solve` (`Tao.v`); TAO is an arbitrary decision tree of callbacks | simulation of the run on the tape by the run on the functions (`SpecTao.v`: `tplays`), with `Reach.v` for the adjoint values read from block variables; simplified: dual values have the control's type, conversion errors come before writing, derivative callbacks, MPI and option handling (C37) left out |
| C57 | `IPOPTSolver` without constraints (`Ipopt.v`); IPOPT is an arbitrary decision tree of callbacks, its status is not looked at | as C51 (`plays`), options by induction over the dictionary; refutations: gradient at another point, scaling parameter, absent bound |
| C58 | evaluation of array tapes with references into a memory of buffers (`Alias.v`): slices are views, lists and masks copies, `func_value *= scale` and `a[i] = x` write; the stored state before the first evaluation is any one apart from the user's arrays | simulation of the reference semantics by the value semantics of C53 (memory only grows; references of the tape stay apart from the user's), composed with the C53 evaluation theorem; refutations: scaled array functionals write through views into controls, repeated evaluations accumulate the scale, writes into returned arrays |
| C59 | derivatives of array tapes with adjoint values in memory (`AliasGrad.v`): `adj_value += val` writes into the array there, gradients are handed out as they are; seeds are floats; numpy's broadcasting in `+=` only for arrays of length one | simulation of the in-place sweep by the value sweep (every adjoint array lies in a buffer of its own, `AliasGradFacts.v`), histories (`AliasGradRun.v`), composed with the C53 gradient theorem; refutation: a user block for array sums that returns its adjoint input for both summands |
| C60 | ROLVector, ROLObjective and ROLSolver (`Rol.v`): vectors are lists of object identities, operations write objects in place; ROL is any finite decision tree over the callbacks; the control type is a record of what it implements; results of derivative and hessian are objects nobody else holds; constraints in C62; gradients are not mapped | simulation of the object memory by plain vectors (vectors share no object, `RolFacts.v`), composed with the C37 invariant; adjoint values of the last gradient survive updates; refutations by computation |
| C61 | the functional made by `MoolaOptimizationProblem` with `hessian` (`Moola.v`): an operator is the point it was made at, applying it is a call; hash and rf are arbitrary functions of the tape state | invariant on cache and tape state over the calls (`MoolaFacts.v`), composed with the solver theorems and C10; refutations by computation |
| C62 | ROLConstraint and the constraint part of ROLSolver (`RolCon.v`) on the memory of C60: the user's methods are functions of the values they are given, with exceptions; jacobian_action and the sums of MergedConstraints write objects in place; a vector per kind of constraint; the Riesz map is any function of values making new objects | C60's simulation extended by the constraint callbacks (vectors share no object), sums over constraints by induction (`RolConFacts.v`); refutations by computation |
| C63 | `PyFlow.v`: assignments, if, while over `py_eval` of C52; AdjFloat inherits float's comparisons, which read the value and record nothing | the assignments and compared expressions executed form a straight-line program that depends on the decisions only (`sym`, `FlowFacts.v`; induction on runs), C52 applied to it; over R compared values are continuous, so decisions are constant near points where no recorded float equals what it is compared with (`FlowGradR.v`); refuted for other decisions and at ties |
| C64 | FloatingType with _ad_floating_active (`Floating.v`): its use as a dependency records a block computing it and makes a new block variable; the rest of will_add_as_dependency happens to the old one | simulation of recording (C05's) extended by a table of floating objects whose own block variables are never used again (`FloatFacts.v`); refuted for Control of a floating object |

## 5. Simplifications (details at the definitions)

* One value type `V` for all objects on a tape (types are not tracked; `isinstance` checks are modelled only where a
  property is about them).
* Floating objects: their value is a total function of their arguments; only uses as arguments of wrapped functions; output blocks
  (`_ad_annotate_output_block`) are not modelled; `floating_type` is set but nothing in /repo reads it.
* User blocks are pure component functions of their inputs (`prepare_*` results folded in).
* `float.__pow__` returning a complex number and `NotImplemented` results are modelled as errors.
* Python expressions: ints and floats share the value type `V`, an int literal differs from a float literal only in its type
  tag; conversion operators of float (`int(x)`, `round`) are not modelled. Comparisons occur only as conditions of if and while
  (`PyFlow.v`), between two expressions; variables are numbered in the order of their first assignment, a variable not assigned yet is an EKey error.
* Arrays (C53; sharing of memory is the subject of C58): one-dimensional arrays of floats, whose entries are not changed in place and whose slices are copies (numpy
  makes views); indices are an int, a slice, a list of ints or a list of bools; array arithmetic is `+ - *` and `neg` on equal
  lengths or with a float, everything else on arrays is left out.
* Exported graph (C55): nodes, edges, labels and positions as lists; `id` of a live object is injective; colour and shape attributes are one flag.
* Python numbers are immutable, so `+=` on stored adjoint values is functional update.
* Overloaded types outside pyadjoint (and the scalar/list conversions of controls) are represented by their documented
  contract, the hypothesis `lawful` (SpecOpt.v); AdjFloat is shown to satisfy it, numpy_adjoint's ndarray not to.
* NumPy: `numpy.array` of differently shaped arrays raises ValueError (1.24 or newer); raw arrays as IPOPT bounds are
  not modelled; an AdjFloat bound counts as a float.
* Moola: hashes of the points of a run are assumed to be different for different points; its Hessian call is in C61.
* PETSc: `getSubVector` either shares memory with the vector or copies (both modelled); deleting an absent option has no
  effect. A plain `Exception` is `EUser 0`.
* Checkpointing: a schedule is an arbitrary list of actions that may change once the number of steps is known; a
  schedule that never ends, packages' disk storage, progress bars and garbage collection frequency are left out; sets of
  variables are iterated in insertion order (the code leaves the order open).
* timestepper: producing an item records nothing on the tape; a progress bar either returns its iterable or loops over it.
* Placeholders: a link leads to an ordinary variable (no chains); the variable wrapped by a placeholder shares its number.
