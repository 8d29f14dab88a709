# Formal model of omtools: design

Source: `/repo` (LSDOlab/omtools at the pinned commit), read as text, never run.
Proof assistant: Coq 8.16.1; sources in `rocq/theories`, logical prefix `Verif`.

## 1. Method

* Each Python function is mirrored branch by branch by a small total Gallina
  function; exceptions are values (`Raise e` of the `res` type in `PyBase.v`).
  Each definition cites the file and lines it models.
* Unbounded recursion / `while` loops take explicit fuel and return `None` when
  it runs out.  Theorems either show that every sufficiently large fuel gives a
  result, or (for non-termination) that no fuel does.
* Python objects are natural numbers (creation order).  Identity `is` is
  equality of numbers.
* `list(set(objects))` iterates in an order that depends on addresses: modelled
  by an oracle (`PyBase.oracle`) which may return *any* duplicate-free listing
  of the same elements, differently at every call.  Theorems quantify over all
  oracles.
* `list(set(ints))` is deterministic in CPython: modelled by an executable copy
  of CPython's open-addressing insertion (`PySet.v`).
* Arrays are `shape + row-major data function`; NumPy calls used by the
  components (`arange`, `repeat`, `tile`, `reshape`, `transpose`, `einsum`,
  `ravel_multi_index`, `meshgrid`, ...) are defined once in `NdArray.v`.
* Numbers are real numbers (Coq `R`).  Rounding is not modelled.
* A component is its `compute` function plus the coordinate-format partials
  (`rows`, `cols`, `vals`) it declares.  The specification
  `exact_jacobian` (file `JacSpec.v`) says: indices in range, no coordinate
  twice, and for every output/input pair the assembled entry is the limit of
  the difference quotient (`derivable_pt_lim` of the standard library).

## 2. Files

Models are in plain files, specifications in `Spec*.v`, `JacSpec.v` and
`JacOpen.v` (they mention no helper of the models), proofs and concrete cases
in `*Proofs.v`, `*Witness.v` and similar, property theorems alone in
`Properties_*.v`, each closed by `exact` and followed by `Print Assumptions`.

| models | of |
|---|---|
| `PyBase.v`, `PySet.v`, `NdIndex.v` | Python: exceptions, set order, ranges and slices |
| `NdArray.v`, `NdEinsum.v` | the NumPy calls the code makes |
| `Component.v` | how OpenMDAO reads what a component declares |
| `Names.v` | `utils/gen_hex_name.py` |
| `Graph.v` | `core/graph.py`, `core/variable.py` L214-290, `core/group.py` setup: register_nodes, pruning, forward edges, cost, branch sort, topological sort |
| `Replace.v` | `utils/replace_output_leaf_nodes.py` |
| `GroupApi.v` | Group, Variable and output methods as a state machine |
| `Assemble.v` | promotions, design variables, setup run again |
| `CreateGroup.v` | `create_group` blocks (`core/group.py` L397-422) |
| `Inherit.v` | the wrapper the metaclass puts around every setup of a class hierarchy (`core/group.py` L19-129) |
| `Run.v` | one sequential pass over the systems setup added |
| `Options.v` | `utils/options_dictionary.py` |
| `CompReorder.v` | reshape, transpose, reorder_axes, expand |
| `CompReduce.v` | sum, average |
| `CompProduct.v`, `CompTensor.v`, `CompRot.v` | matvec, matmat, inner, dot, outer, cross, rotmat |
| `CompEinsum.v` | einsum (dense derivatives) and einsum_new_api |
| `CompEinsumSparse.v` | einsum with sparse derivatives (`comps/einsum_comp_sparse_derivs.py`) |
| `CompElem.v` | arithmetic operators, elementary functions |
| `CompPoly.v` | `comps/linearpowercombination.py`, with a terms list |
| `CompDirect.v` | the three combination components added directly with their options; `utils/process_options.py` |
| `StructureData.v` | `utils/structure_data.py` for one-dimensional inputs |
| `CompExtremum.v`, `CompNorm.v` | max, min, pnorm |
| `CompCond.v` | if_else |
| `StdCalls.v` | all calls of `omtools/std` and the operators as one type, with recorded shape and component; `define` |
| `Indexing.v`, `Setitem.v` | `x[key]`, `out[key] = expr` and their components |
| `ShapeVal.v` | `utils/get_shape_val.py` |
| `Implicit.v` | implicit outputs and `comps/implicit_component.py` |
| `PyNumbers.v` | the kinds of numbers beside an expression, and which of them the options of the components accept |
| `MatStack.v` | matvec and matmat of a first operand with any number of axes |
| `CrossNeg.v` | cross along an axis counted from the end |
| `AxisForms.v`, `SpecAxisForms.v` | axes written as a number, a tuple or a list; NumPy's convention |
| `VarInit.v`, `SpecVarInit.v` | keyword arguments of `Variable` |
| `Conditional.v` | setup of `comps/conditional_component.py` |
| `InternalProblem.v` | the values its internal problem holds from call to call |
| `Nested.v` | a Group used as a subsystem of another: one pass over the inner group (group.py L83-116, L397-422) |
| `ImplicitModel.v` | an ImplicitComponent used as a subsystem: the internal model with inputs and output given, its residual (comps/implicit_component.py L164-200; the bracket: core/implicit_output.py L115-158). The solver's 100 halvings are replaced by the exact zero |

## 3. Plan per property

| id | model | proof |
|---|---|---|
| C01, C02 | `Graph.topological_sort` on the state left by `add_fwd_edges` | loop invariant: visits + pending stack entries of a node = number of its processed dependents; completeness by induction on rank |
| C03, C04, C07 | `remove_indirect_dependencies` over `PySet` order | descending removal removes exactly the listed positions; reachability preserved by induction on rank; refutation for 9+ dependencies by computation |
| C05, C06 | whole `setup` on states reachable through `GroupApi` | reachability facts of API histories + C01/C03 |
| C08, C09 | `setup` twice; fuel | root's visit counter; depth of graph |
| C10, C11, C14, C25, C65 | `GroupApi` | induction over call sequences; refutations by computation |
| C12, C13 | `Names.gen_hex_name` incl. float division | base-63 digit uniqueness; collision witness |
| C15 | `sort_dependency_branches` | stable insertion sort |
| C16 | `Run` | final environment satisfies all component equations, for any topological order |
| C17-C20 | `Indexing.getitem` vs. NumPy basic slicing spec | ravel/unravel, ranges |
| C21-C24 | `Indexing.setitem` | invariant over assignment sequences; refutations |
| C26 | `get_shape_val` | case analysis |
| C27, C28 | `replace_output_leaf_nodes` with Python's list-iterator semantics (heap of list objects) | invariant; refutation |
| C29-C35 | arithmetic components | real analysis |
| C36-C55 | tensor components | index arithmetic + real analysis |
| C56-C61, C74-C79 | implicit component | bisection invariant + intermediate value theorem |
| C62-C64 | `Options` | invariant over histories |
| C55, C80-C84 | `StdCalls.std` | case analysis over all calls |
| C85 | `Inherit.run_setup` | once the root is visited no pass adds a system |
| C86 | `CompPoly` | product over all inputs = product over the listed ones |
| C87 | all component models | the correct components' outputs are smooth functions of all inputs; their rates are read off the partials |
| C88 | `GroupApi`, `Run`, all components | induction along the order of setup; a pass over pairs (value, rate) solves the equations |
| C89 | the same | a backward pass solves the transposed equations; both expansions of the sum of sensitivity times rate |
| C90-C94 | `CompDirect`, `SpecDirect` | names read by the loops = inputs declared; product rule over any number of inputs; matrix = terms list |
| C95, C96 | `StructureData`, `SpecData` | flat position of an entry before and after the reshape |
| C97 | `Implicit`, `SpecRoot` | on the lines of slope slightly above and below the expected one the residual has opposite signs, so the only zero lies between them |
| C98 | `SpecDeriv`, `SpecTotals` | the equations are linear; columns add up |
| C99, C100 | `Assemble`, `SpecAssemble` | names and attributes of subsystems and independents never change |
| C101 | `Assemble` (`setup_once`) | visit counter and dependents of the root, between runs |
| C103 | `ImplicitAgain` | the root keeps old residuals; its visit counter |
| C104, C105 | `CreateGroup` | a run of setup leaves a state on which every later run ends and adds nothing; `GraphTick`: the start of the oracle does not matter |
| C107, C108 | `InternalProblem` | a pass depends only on the variables no component writes; induction over the calls |
| C109 | `Nested` | inner totals are columns of solutions, unique by C88's induction over the schedule; substitute into the outer equations |
| C111 | `ImplicitModel` | continuity of the only zero (C97's lemmas), then its derivative; entries off the diagonal vanish; substitute into the outer equations |
| C112 | `StdCalls.std` | call by call from the definitions; the positive direction of the partials from the correctness theorems; a broadcast that keeps the shape and the size only pads with ones; einsum: the derivative by the first operand is an einsum of the same operands with letters added, so it exists only if they fit; inner over axes: the same numbers name axes of the same extents in the identity tensor |
| C113 | `Component.assign_output`, `CompElem` | the reversed shapes by induction; equal sizes mean that only ones were put in front; the linear combination lemma of C29 |
| C114 | `Conditional.conditional_setup` | case analysis; collecting the inputs ends on acyclic graphs |
| C115 | `PyNumbers.expr_number`, `number_expr` | case analysis over the kinds of numbers |
| C116 | `MatStack.matvec_stack`, `matmat_stack` | the numbers of rows and columns declared agree only if the further axes hold one entry; then the proofs of C41 with the last extent for the second |
| C117 | `CrossNeg.cross_from_end` | lengths of slices; when the subscripts fit, the pattern is that of the axis 10-k; a row and its column of that pattern agree on all other axes, where the true Jacobian has an entry one |
| C118 | `AxisForms`: one call per function and form | the documented form by the theorems on C39, C42, C45, C47; the other forms by cases |
| C119 | `VarInit.variable` | induction on the keyword arguments |
| C110 | `StdCalls.std` | case analysis over all calls; splitting at an arrow and first occurrences are unique |
| C102 | the same as C88, `SpecMeaning` | induction on what an expression denotes; the chain rule implies that a component looks only at its inputs; meanings determine results |

## 4. Trusted base

* Coq's kernel.  `native_compute` is not used; `vm_compute` is used in some
  witnesses.
* The standard library's axioms listed in section 6, theorem by theorem.  No
  axiom is added and no other library is used.
* The model: that the definitions in the files of section 2 say what the Python
  code they cite does.  Nothing was executed, so this rests on reading.

What is modelled of Python, NumPy and OpenMDAO is in `PyBase.v`, `PySet.v`,
`NdIndex.v`, `NdArray.v`, `NdEinsum.v` and `Component.v`.  In particular:

* Numbers are exact reals: no rounding, overflow, NaN or integer dtypes.
  (Exception: `Options.v` has NaN.)  The elementary functions are the standard
  library's.  Division by zero and domain errors are kept out by hypotheses.
* `list(set(objects))` may come in any order, a different one at every call
  (oracle).  `list(set(ints))` follows CPython's hash table.
* An array is a shape and a row-major data function.  `einsum`, `tensordot`,
  broadcasting, `reshape`, `transpose`, `ravel_multi_index`, `unravel_index`
  and basic indexing are defined in the files named above.
  `ravel_multi_index` with no axes is taken to raise.
* Indexing an array with a list of index arrays (`partial[list]` in the sparse
  einsum) is read as NumPy before 1.23 does: the list counts as a tuple.
* OpenMDAO connects an output to an input of the same size whose shape is the
  same up to extents of one at either end (`SpecShapes.connectable`).
* OpenMDAO: declaring partials of one pair twice keeps the second declaration.
* OpenMDAO: a second variable of the same name raises; declared rows and
  columns outside the Jacobian raise; a dense partial may be set from any array
  of matching size; values for a sparse partial have the shape of `rows` or are
  scalar; an output may be assigned any array that broadcasts to it; outputs of
  shape `()` are accepted.  Scaling, units and parallelism are left out, and
  promotion beyond which patterns are passed on (`Assemble.v`).
* OpenMDAO: every `Problem.setup` drops the systems of the run before and calls
  `setup` of each system again; systems added outside of `Problem.setup` stay.
* The content an output vector held before `compute` is a parameter (`y0`) of
  the component that assembles indexed assignments.
* `Run.v` takes the meaning of an operation as a parameter.  The component
  theorems say what each operation means.
* Total derivatives: OpenMDAO solves the linear equations `SpecDeriv.solves`
  (forward) or `SpecAdjoint.adjoint` (reverse) with an exact linear solver.
* `Implicit.v` represents the internal problem by the function it computes and
  leaves out design variables, constraints and the n2 option.
* linearize sets values in the internal problem but does not run it before
  compute_totals (L238-247).  `InternalProblem.v` keeps the values its variables
  hold from call to call.  A value written with `prob[name] = v` reaches the
  components at once or when the model runs next; the theorems hold for both.

`utils/generate_example_scripts.py`: only the names of the scripts (`ExampleNames.v`), not their text.

Not modelled at all: `utils/units.py` (units through pint, used by no other module),
what `comps/conditional_component.py`
does after L88 of its setup, which it never reaches (C114), components no `std` function builds, examples, tests,
documentation.

Theorems about components assume, where the manifest says so, that the operands
have distinct names.  The same operand twice is property C67 (refuted).

## 5. Findings

Each is proved about the model by the theorems named in MANIFEST.json.

Ordering and setup
* C04, C07: a node with nine or more direct dependencies can lose the wrong ones
  when indirect dependencies are pruned, because positions are removed in set
  order.  The result is a wrong execution order or a TypeError.  The theorems about
  setup hold for `tidy` nodes (`SpecSetup.v`): at most eight direct dependencies
  (independent variables of the group included); or any number, with at most one
  redundant dependency and no independent variables (or none and one); or at
  most one redundant dependency, and either 5 independent variables and at most 32
  dependencies or 19 and at most 128.  The root's own dependencies are not limited.
  `PySetWide.placed_sharp`: 8, 32 and 128 cannot be raised. `C04_actual`: pruning a node is exact if and
  only if CPython lists the positions to be removed in ascending order.
* C09 note: a node depending on itself directly is pruned silently.
* C14: an input and an output of the same name are accepted. `C14_actual`: setup succeeds exactly when every
  output is given a value and no two systems get the same name.
* C25: an indexed assignment after `define` is accepted. `C25_actual`: from then on the variable is built
  as an indexed concatenation and the defined expression is no longer computed.
* C28: where a node uses the implicit output both directly and through the dependency
  listed right after it, the indirect use stays: removing the entry makes the running
  `for` loop skip the next one (`C28_actual`).
* C65: renaming the source of an indexed assignment breaks its connection.
* C85: `super().setup()` ends the model: systems defined after it, in any class, are
  dropped without an error.  (`InheritProofs.ex_no_setup`: a subclass without its own
  setup cannot be defined, KeyError.)
* C99: a subsystem that is not a Group is added as 'comp_' + name with everything
  promoted; the name and promotions given are ignored (group.py L91-108).
* C101: a second Problem.setup leaves every omtools group empty: the root of the graph
  keeps its visit counter, so nothing is sorted (group.py L77, graph.py L77).  C08 is
  the other side of this: groups made by create_group rely on it.
* C106: two example classes can share a script (`ExampleABC` and `ExampleAbc`; or classes of
  `ex_einsum.py` and `ex_einsum_new.py`); the later one overwrites the earlier.
* C103: an implicit component with a residual cannot be set up a second time.
* C107: linearize uses intermediate values of the last run of the internal model.  Right after
  apply_nonlinear at the same point (as Newton's method calls it) the derivatives are exact; after
  solve_nonlinear with a bracket the last run was half an interval of the last halving away.
* C105: an exception in a create_group block is replaced by the exception that setting up
  the half-finished group raises, if it does (group.py L420-421).
* C13: generated identifiers collide for very large counts (exact condition proved).

Options
* C62: NaN passes every numeric bound.  C64: an invalid default stays readable.
* C66: a list or set of types admits nothing.

Operators
* C31: multiplying by a constant array changes the array in place, so
  derivatives and later values are wrong.
* C32: only the first exponent of an array of exponents is used.
* C34: unsupported operands give an expression that cannot be built.
* C67: the same operand twice (`x + x`, `max(x, x)`, `dot(x, x)`) makes setup raise; only einsum allows it.
* C68: constant arrays on the left, or under `/`, do not work.
* C95, C96: structure_data cuts the coordinates of all points, one input after the other,
  into rows, so with two or more inputs the rows are not the grid points; the limits are
  those of all inputs together (`structure_data.py` L18-29).
* C92: PowerCombinationComp with fewer powers than names declares inputs whose partial is
  the output itself, though the output does not depend on them
  (`power_combination_comp.py` L56, L83-93).
* C94: LinearPowerCombinationComp does not call `get_names_list`, so a name given as a
  string becomes one input for each character (`linearpowercombination.py` L70, L85, L100).
* C90: `in_vals` has no default in LinearCombinationComp and PowerCombinationComp; the examples
  at the end of both files do not give it, so their setup raises.
* C86: LinearPowerCombinationComp has no derivative (0 * 0**-1) for an input that some
  term does not list, at zero: `x + y` at the origin.
* C69: sech and arcsin raise for two or more axes.

Array functions
* C38: expand ignores the order of the input letters.
* C40: average over two or more axes always raises in setup.
* C48: max, min and pnorm give the derivatives of the point computed last.
* C50: einsum with sparse derivatives raises in compute_partials when an operand
  without a letter of the output precedes one that has one (`'i,j->j'`), and in
  the case of C51.
* C51: einsum derivatives raise when a new operand follows a repeated one.
* C53: if_else with branches of several elements raises in setup.
* C54: the derivative of if_else is the value of the branch.
* C70: inner with a negative axis has a wrong derivative, except for the shapes listed in `C70_actual`.
* C55: matmat by a vector or one column records shape (m,1) for an output of shape (m,).
* C80: sum, average and inner of vectors do not compare the shapes of their operands.
* C81: define does not compare shapes.
* C82: matmat by a computed vector raises when it is built.
* C83: sum, average and pnorm raise in setup when every axis is listed.
* C84: the calls that return something that cannot be built (exact condition).
* C110: reshape does not compare the numbers of entries, inner not the extents of the axes, `x + A` not the shapes; the
  error comes when the model runs. matvec and matmat accept a first operand of rank 3 (C116), and
  einsum drops output letters that no operand has.
* C113: `x * A` with an array that broadcasts to x and has fewer entries has a value and no derivative: `value *= x**p`
  in compute_partials cannot enlarge A. `x + A` with as many entries in another shape is accepted and reshaped.
* C112: when built components compute. `x**0` (as a constant power) has no partial where x is 0: the code forms
  0 * 0**(-1), which is nan. A sum or norm over an axis named twice is built, its partials are declared, and compute always
  raises. `x * A` with a constant array has partials only when A has x's shape, ones in front allowed: with A of shape
  (n,1) for x of shape (n,) the value is delivered (as many entries) and the partials raise. sech and arcsin have partials only for rank 0 and 1.
* C115: the operators accept every `numbers.Number`, the components only `int` and `float` (OpenMDAO checks the declared
  types): `x * numpy.int64(3)` is accepted and raises TypeError in setup; `x / numpy.int64(3)` works, since `1 / n` is a
  `numpy.float64`. What Python's isinstance says about the kinds of numbers is in `PyNumbers.v` and trusted.
* C116: matvec and matmat look at the first two extents of the first operand only. With further axes setup raises (as many
  columns as entries, fewer rows), unless all further extents are one; then `a @ b` still raises unless the second is one too.
  That a stack of matrices times a vector is what `a @ b` of NumPy says is in `MatStack.v` and trusted.
* C117: cross along the axis -k slices its alphabet of ten letters from the end. For arrays with at most five axes setup
  always raises (wrong number of subscripts). With 6 to 9 axes and a large k the subscripts fit, and the partials are
  declared along the axis 10-k, a wrong one (OpenMDAO may then reject repeated coordinates). Only with ten axes, or for the
  first of eleven, the derivative is right.
* C118: sum and average record a shape for axes=z or axes=[z], but their components take tuples only, so the error comes
  when the model is set up; max and min the other way round (numbers only). dot rejects everything but a number in the
  call (except for vectors, where it is not looked at). pnorm takes numbers and tuples, inner takes both inside a tuple of two.
* C119: Variable(name=...) always raises NameError (core/variable.py L114 reads a local name of another function). The other
  keywords are kept; unknown keywords are silently ignored.
* C114: ConditionalComponent (comps/conditional_component.py, which no function builds) can never be set up: after its checks
  it calls `set` with three arguments, which raises TypeError.

Indexing
* C20: indexing a computed expression works only for its first entry.
* C71: a failed first `x[key]` makes every later one fail.
* C72: key entries that are neither int nor slice are skipped. `C72_actual`: the remaining entries move to the
  first axes but a slice keeps the stop it got from the axis it was written for, so entries can be lost.
* C23: after an overlap error the expression stays assigned. `C23_actual`: each entry holds the last expression
  assigned to it, and derivatives are wrong exactly for expressions that something is written over.
* C24: a negative integer key is accepted whatever its size, then setup raises.
* C73: a single key on a matrix indexes the flattened array.

Implicit components
* C57: the `maxiter` argument is ignored.
* C58: only the last bracket is kept, so several bracketed outputs cannot be solved.
* C74: two residuals with a common input cannot be set up.
* C75: the initial guess is dropped.
* C76: derivatives between coupled implicit outputs are missing.
* C77: linear solves ignore off-diagonal entries and add to the old vector.
* C78: bracketed and unbracketed outputs cannot be mixed.
* C79: a residual rejected with an error is kept as a root. `C79_actual` says when exactly; `C77_actual` gives the
  vector `solve_linear` leaves behind.

## 6. Print Assumptions

Generated by `tools/gen_assumptions.py` from the output of the `Print Assumptions` command beneath each theorem.  All axioms are the standard library's.

**No axioms (closed under the global context)**

* `Properties_Api.v`: `C01_group_setup_schedules`, `C09_calls_keep_graph_acyclic`, `C09_calls_terminate`, `C06_subsystem_order`, `C06_subsystem_order_plain`, `C10_group_undefined_output_rejected`, `C11_registered_at_most_once`, `C11_inputs_never_registered`, `C11_failed_register_changes_nothing`, `C11_register_effect`, `C14_equal_output_names_rejected`, `C14_equal_names_refuted`, `C14_actual`, `C16_run_computes_expressions`, `C25_define_after_definition_rejected`, `C25_assign_after_define_refuted`, `C25_actual`, `C27_define_leaves_no_cycle`, `C28_residual_uses_replaced_partial`, `C28_residual_uses_refuted`, `C28_actual`, `C65_renaming_keeps_connections`, `C65_renaming_indexed_source_refuted`
* `Properties_Assemble.v`: `C99_actual`, `C99_refuted`, `C100_design_variables`, `C101_actual`, `C101_refuted`
* `Properties_Block.v`: `C104_block_systems`, `C105_actual`, `C105_refuted`
* `Properties_Conditional.v`: `C114_refuted`
* `Properties_Einsum.v`: `C52_tuples_to_string`
* `Properties_Examples.v`: `C106_refuted`, `C106_files_refuted`, `C106_actual`, `C106_camel`, `C106_who`, `C106_letters`
* `Properties_Graph.v`: `C01_order_respects_dependencies`, `C02_scheduled_exactly_once`, `C03_pruning_keeps_order`, `C03_pruning_exact`, `C04_pruning_any_width_refuted`, `C04_actual`, `C05_indeps_run_first`, `C07_no_internal_error`, `C07_wide_nodes_refuted`, `C08_second_setup_adds_nothing`, `C09_cyclic_graphs_rejected`, `C09_forward_pass_terminates_iff_acyclic`, `C10_undefined_output_rejected`, `C15_branch_sort_stable_permutation`
* `Properties_Index.v`: `C18_rejected`, `C18_accepted`, `C19_reuse`, `C71_refuted`, `C71_actual`, `C72_refuted`, `C72_accepted`, `C72_alone`
* `Properties_Inherit.v`: `C85_refuted`, `C85_first_setup_decides`, `C85_super_first_drops_all`, `C85_own_setup`, `C85_setup_not_inherited`
* `Properties_Names.v`: `C12_names_unique`, `C12_names_wellformed`, `C13_names_unique_unbounded_refuted`, `C13_collisions_exact`
* `Properties_Options.v`: `C62_values_read_are_valid`, `C62_read_errors`, `C62_bounds_honoured`, `C62_nan_bounds_refuted`, `C63_failed_set_changes_nothing`, `C63_set_succeeds_iff_valid`, `C63_set_then_get`, `C63_update_stops_at_first_failure`, `C64_malformed_declaration_changes_nothing`, `C64_invalid_default_refuted`, `C66_listed_types_admit_nothing_refuted`, `C66_tuple_of_types_admits_instances`
* `Properties_Setitem.v`: `C21_disjoint`, `C21_accepted`, `C23_other_rejections`, `C24_bounds`, `C73_refuted`, `C73_actual`
* `Properties_VarInit.v`: `C119_refuted`, `C119_raises`, `C119_kept`

**`ClassicalDedekindReals.sig_forall_dec`**

* `Properties_Block.v`: `C103_actual`, `C103_refuted`
* `Properties_CrossNeg.v`: `C117_returns`, `C117_set_up`, `C117_small`
* `Properties_Direct.v`: `C90_values_needed`, `C92_linear_actual`
* `Properties_Einsum.v`: `C51_new_after_repeated_raises`
* `Properties_EinsumSparse.v`: `C50_dense_before_sparse_raises`, `C50_new_after_repeated_raises`
* `Properties_Implicit.v`: `C60_inputs`, `C60_terminates`, `C61_residual_roots`, `C74_refuted`, `C74_actual`, `C75_actual`, `C75_internal_start`, `C75_guess_recorded`, `C76_refuted`, `C76_actual`, `C78_refuted`, `C78_actual`, `C79_refuted`, `C79_actual`
* `Properties_Index.v`: `C20_refuted`
* `Properties_Internal.v`: `C107_actual`, `C108`, `C108_variables`
* `Properties_MatStack.v`: `C116_returns`, `C116_matvec_set_up`, `C116_matmat_set_up`
* `Properties_Nested.v`: `C109_values`
* `Properties_Product.v`: `C41_mismatched_sizes_rejected`, `C43_cross_rejects`
* `Properties_Reorder.v`: `C36_reshape_size_mismatch_raises`, `C36_reorder_axes_rejects`
* `Properties_Setitem.v`: `C24_negative_refuted`
* `Properties_ShapeVal.v`: `C26_int_shape`
* `Properties_Shapes.v`: `C81_actual`, `C81_refuted`
* `Properties_Tensor.v`: `C42_inner_vectors`, `C42_inner_needs_axes`

**`ClassicalDedekindReals.sig_forall_dec`, `FunctionalExtensionality.functional_extensionality_dep`**

* `Properties_AxisForms.v`: `C118_sum_refuted`, `C118_average_refuted`
* `Properties_Cond.v`: `C53_select`, `C53_shapes`, `C53_arrays_refuted`, `C54_refuted`, `C67_if_else_repeated_refuted`
* `Properties_CrossNeg.v`: `C117_refuted`, `C117_works`
* `Properties_Data.v`: `C95_one_input`, `C95_actual`, `C95_refuted`, `C96_actual`, `C96_refuted`
* `Properties_Direct.v`: `C90_linear`
* `Properties_Einsum.v`: `C49_einsum_dense`, `C51_repetitions_last`, `C51_actual`, `C51_repeated_operands_refuted`, `C52_einsum_new_api`
* `Properties_EinsumSparse.v`: `C50_sparse_distinct`, `C50_sparse_repetitions_last`, `C50_actual`, `C50_sparse_refuted`
* `Properties_Implicit.v`: `C57_actual`, `C58_refuted`, `C58_actual`, `C59_forward`, `C59_reverse`, `C75_refuted`, `C77_coupled_refuted`, `C77_repeated_refuted`, `C77_actual`
* `Properties_ImplicitModel.v`: `C111_values`
* `Properties_Index.v`: `C17_selects`, `C20_actual`, `C72_actual`
* `Properties_Internal.v`: `C107_after_run`
* `Properties_MatStack.v`: `C116_refuted`, `C116_matvec_works`, `C116_matmat_works`
* `Properties_Nested.v`: `C109_chain`, `C109_exists`, `C109`
* `Properties_Product.v`: `C41_matvec`, `C41_matmat`, `C41_matmat_vector`, `C42_vector_inner`, `C42_dot_vectors`, `C42_dot_tensors`, `C42_outer`, `C43_cross`
* `Properties_Reduce.v`: `C39_sum_all`, `C39_sum_elementwise`, `C39_sum_axes`, `C39_average_all`, `C39_average_elementwise`, `C39_average_axis`, `C40_average_two_axes_refuted`, `C40_average_no_axes_refuted`
* `Properties_Reorder.v`: `C36_reshape`, `C36_transpose`, `C36_reorder_axes`, `C37_expand_scalar`, `C37_expand_array`, `C38_expand_permuted_letters_wrong`, `C38_expand_letters_refuted`, `C38_expand_actual_meaning`
* `Properties_Root.v`: `C98_matrices`, `C98_residual`
* `Properties_Setitem.v`: `C22_assembles`, `C23_overlap_refuted`, `C23_actual`
* `Properties_ShapeVal.v`: `C26_agree`, `C26_other_shapes`
* `Properties_Shapes.v`: `C81_define`
* `Properties_Tensor.v`: `C42_inner`, `C70_value`, `C70_refuted`, `C70_actual`
* `Properties_Total.v`: `C87_parts`, `C87_assembled`, `C87_defined`, `C88_model_derivatives`, `C89_reverse`

**`ClassicalDedekindReals.sig_forall_dec`, `ClassicalDedekindReals.sig_not_dec`, `FunctionalExtensionality.functional_extensionality_dep`**

* `Properties_Implicit.v`: `C56_bracketed_root`, `C57_refuted`
* `Properties_ImplicitModel.v`: `C111_chain`, `C111_exists`, `C111`
* `Properties_Product.v`: `C44_rotmat`, `C44_other_axis_rejected`
* `Properties_Root.v`: `C97_bracketed`, `C97_several`

**`ClassicalDedekindReals.sig_forall_dec`, `ClassicalDedekindReals.sig_not_dec`, `Classical_Prop.classic`, `FunctionalExtensionality.functional_extensionality_dep`**

* `Properties_Accept.v`: `C110_accepted`, `C110_reshape_refuted`, `C110_inner_refuted`, `C110_array_refuted`
* `Properties_AxisForms.v`: `C118_extremum_refuted`, `C118_dot_refuted`, `C118_dot_vectors`, `C118_norm`, `C118_norm_works`, `C118_inner`, `C118_inner_list`, `C118_lists`, `C118_built`, `C118_documented`
* `Properties_Broadcast.v`: `C113_sums`, `C113_reshaped`, `C113_product_refuted`
* `Properties_Compute.v`: `C112_values`, `C112_partials`
* `Properties_Direct.v`: `C90_names_needed`, `C90_names_distinct`, `C91_power`, `C92_power_actual`, `C92_refuted`, `C93_matrix`, `C93_missing`, `C94_refuted`, `C94_one_character`
* `Properties_Elem.v`: `C29_expressions`, `C29_number_right`, `C29_number_left`, `C29_array_right`, `C30_product`, `C30_quotient`, `C30_number_right`, `C30_number_times`, `C30_number_over`, `C30_power`, `C30_negation`, `C31_multiplying_by_array_actual`, `C31_multiplying_by_array_refuted`, `C32_only_first_exponent`, `C32_exponent_array_refuted`, `C33_elementary`, `C34_unsupported_operands_refuted`, `C34_actual`, `C35_shapes_must_match`, `C35_division_by_number`, `C67_same_expression_twice_refuted`, `C68_constant_arrays_refuted`, `C68_actual`, `C69_higher_rank_refuted`
* `Properties_Extremum.v`: `C45_C46_elementwise`, `C45_C46_axis`, `C45_C46_all_entries`, `C45_rejected`, `C67_extremum_repeated_refuted`, `C47_orders`, `C47_all_entries`, `C47_along_axes`, `C48_axis_actual`, `C48_all_entries_actual`, `C48_axis_refuted`, `C48_all_entries_refuted`, `C48_norm_refuted`, `C48_axis_norm_actual`, `C48_not_computed_yet`
* `Properties_Internal.v`: `C107_refuted`
* `Properties_Meaning.v`: `C102_formulas`
* `Properties_Numbers.v`: `C115_refuted`, `C115_right`, `C115_left`, `C115_complex`
* `Properties_Poly.v`: `C86_combination_within`, `C86_polynomial_value`, `C86_missing_input_actual`, `C86_refuted`
* `Properties_Shapes.v`: `C55_recorded_shape`, `C55_one_column_refuted`, `C55_elementary_shape`, `C80_inputs`, `C80_vector_operand`, `C80_sum_actual`, `C80_inner_actual`, `C80_refuted`, `C82_with_val`, `C82_actual`, `C82_refuted`, `C83_no_axes`, `C83_every_axis_refuted`, `C83_norm_refuted`, `C84_which_build`, `C84_refuted`, `C67_operand_twice_refuted`
* `Properties_Total.v`: `C87_documented`
