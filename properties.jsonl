{"id": "C01", "title": "Execution order respects every dependency", "statement": "After Group.setup, the subsystem built for an expression is added after the subsystem of every expression it (transitively) depends on, so one sequential pass over the added subsystems never reads a value that is computed later.", "quantifier": "every acyclic expression graph, every order in which Python iterates its sets of nodes", "why_tests_cant": "Set iteration order depends on memory addresses, and graphs are unbounded; a test sees one graph and one order.", "anchors": ["omtools/core/group.py:_sort_expressions_and_build_components", "omtools/core/graph.py:topological_sort", "omtools/core/variable.py:add_fwd_edges"]}
{"id": "C02", "title": "Every used expression is scheduled exactly once", "statement": "The execution order computed by Group.setup contains each expression that some registered output depends on exactly once, and contains nothing else (expressions no output depends on construct no component).", "quantifier": "every acyclic expression graph and every set iteration order", "why_tests_cant": "Needs all graph shapes (diamonds of any depth) and all iteration orders.", "anchors": ["omtools/core/graph.py:topological_sort", "omtools/core/variable.py:register_nodes", "omtools/examples/ex_explicit.py:ExampleNoRegisteredOutput"]}
{"id": "C03", "title": "Removing redundant dependencies never changes what must run before what", "statement": "The clean-up pass that drops indirect dependencies keeps exactly the same 'must run before' relation between expressions, as long as every expression has at most eight direct dependencies, or at most one redundant one.", "quantifier": "every acyclic graph with at most eight dependencies, or one redundant dependency, per node; every set iteration order of nodes", "why_tests_cant": "The relation is transitive reachability in unbounded graphs that are mutated while being traversed.", "anchors": ["omtools/core/graph.py:remove_indirect_dependencies"]}
{"id": "C04", "title": "Removing redundant dependencies is safe for any number of dependencies", "statement": "The clean-up pass keeps the 'must run before' relation also for expressions with nine or more direct dependencies.", "quantifier": "every acyclic graph", "why_tests_cant": "The failure needs a particular CPython hash-table layout of the index set; small test graphs never reach it.", "anchors": ["omtools/core/graph.py:remove_indirect_dependencies"]}
{"id": "C05", "title": "Independent variables run first", "statement": "In the order computed by Group.setup, every independent variable is added before every expression, output and subsystem of the group.", "quantifier": "every group, regardless of when independent variables are created", "why_tests_cant": "Depends on the graph-wide effect of added edges surviving pruning and sorting in every order.", "anchors": ["omtools/core/group.py:_sort_expressions_and_build_components L44-49", "omtools/core/group.py:create_indep_var"]}
{"id": "C06", "title": "Subsystems run after what was registered before them and before what uses their outputs", "statement": "A subsystem added with add_subsystem is executed after every output registered or created before the call (unless that output is later defined from the results of the subsystem itself), and before every expression that uses an input declared after the call.", "quantifier": "every sequence of create/declare/register/add_subsystem calls", "why_tests_cant": "Ranges over all histories of API calls.", "anchors": ["omtools/core/group.py:add_subsystem", "omtools/core/group.py:declare_input", "omtools/core/group.py:register_output"]}
{"id": "C07", "title": "Group setup never trips over its own unused-node removal", "statement": "After pruning, every expression recorded in the group still has a dependent, so the removal loop for unused expressions (which would raise) is never entered.", "quantifier": "every acyclic graph whose nodes have at most eight dependencies, or at most one redundant one next to no or many independent variables", "why_tests_cant": "Dead code whose deadness is a global graph invariant.", "anchors": ["omtools/core/group.py:_sort_expressions_and_build_components L59-65"]}
{"id": "C08", "title": "Running setup a second time adds nothing", "statement": "When the sorting pass of setup runs again on a group whose graph was already sorted (as happens to every group made by create_group), no subsystem is added a second time.", "quantifier": "every graph", "why_tests_cant": "Depends on visit counters left over from the first pass, for all graphs.", "anchors": ["omtools/core/group.py:create_group", "omtools/core/graph.py:topological_sort"]}
{"id": "C09", "title": "Setup terminates on acyclic graphs and only on acyclic graphs", "statement": "The graph passes of Group.setup terminate on every acyclic graph; on a graph with a reachable cycle the forward-edge pass recurses without bound.", "quantifier": "every finite graph", "why_tests_cant": "Termination and non-termination are statements about unbounded executions.", "anchors": ["omtools/core/variable.py:add_fwd_edges", "omtools/core/variable.py:compute_dag_cost", "omtools/core/variable.py:register_nodes"]}
{"id": "C10", "title": "Undefined outputs are always rejected", "statement": "If an output created with create_output was never defined or assigned, Group.setup raises ValueError instead of building a model; if every created output is defined, no such error is raised.", "quantifier": "every group and history of definitions", "why_tests_cant": "Must hold for every place the undefined output may occupy in the order.", "anchors": ["omtools/core/group.py:_sort_expressions_and_build_components L80-84"]}
{"id": "C11", "title": "register_output accepts an expression at most once and never an input", "statement": "Along any sequence of calls, register_output succeeds on an expression at most once, never on a declared input, and a call that raises leaves the group's outputs and all names unchanged.", "quantifier": "every sequence of API calls, including failing ones", "why_tests_cant": "A history property.", "anchors": ["omtools/core/group.py:register_output"]}
{"id": "C12", "title": "Generated names are unique", "statement": "The first 976683582 expressions created in a process get pairwise different identifiers, each at least five characters long and made of characters OpenMDAO allows.", "quantifier": "every pair of object counts below 62*63^4", "why_tests_cant": "Nearly a billion names: no test enumerates the pairs.", "anchors": ["omtools/utils/gen_hex_name.py:gen_hex_name", "omtools/core/variable.py:Variable.__init__"]}
{"id": "C13", "title": "Generated names are unique without bound", "statement": "Any two expressions created in one process get different identifiers.", "quantifier": "all object counts", "why_tests_cant": "The first collision is at object number 976683582.", "anchors": ["omtools/utils/gen_hex_name.py:gen_hex_name"]}
{"id": "C14", "title": "Two outputs with the same user-given name are detected", "statement": "If two different expressions of a group carry the same user-given name, Group.setup reports a name collision.", "quantifier": "every group", "why_tests_cant": "The check is written, but against which identifiers it compares matters for all groups.", "anchors": ["omtools/core/variable.py:register_nodes"]}
{"id": "C15", "title": "Branch sorting is a stable reordering only", "statement": "Sorting dependency branches by cost permutes each expression's dependencies, puts them in non-decreasing cost order (non-increasing when reversed), keeps ties in place, and cannot change which orders are legal.", "quantifier": "every graph and cost assignment", "why_tests_cant": "All permutations and ties.", "anchors": ["omtools/core/variable.py:sort_dependency_branches", "omtools/core/variable.py:compute_dag_cost"]}
{"id": "C16", "title": "A model run computes what the expressions say", "statement": "Running the added subsystems once, in the order Group.setup added them, leaves in each registered output's variable the value of its expression tree evaluated on the group's inputs.", "quantifier": "every acyclic expression graph, every meaning of the operations, every set iteration order", "why_tests_cant": "The end-to-end composition of ordering, naming and component semantics.", "anchors": ["omtools/core/group.py:_sort_expressions_and_build_components", "omtools/core/graph.py:topological_sort"]}
{"id": "C17", "title": "Indexing an array selects the elements NumPy selects", "statement": "For an input, independent variable or created output, x[key] with an int, slice or tuple of them, when accepted, is an expression whose shape and elements are those of NumPy's x[key'] where key' replaces each integer i by the slice i:i+1.", "quantifier": "every shape, every key, every array value", "why_tests_cant": "Unbounded ranks, extents, steps and bounds.", "anchors": ["omtools/core/variable.py:Variable.__getitem__", "omtools/utils/slice_to_list.py:slice_to_list", "omtools/comps/decompose_comp.py:DecomposeComp"]}
{"id": "C18", "title": "Indexing with unsupported keys is rejected, never misread", "statement": "A key whose slices reach below zero or beyond the extent of an axis, or select nothing, raises an error; it never yields an expression reading other elements.", "quantifier": "every shape and key", "why_tests_cant": "All boundary combinations.", "anchors": ["omtools/core/variable.py:Variable.__getitem__", "omtools/utils/slice_to_list.py:slice_to_list"]}
{"id": "C19", "title": "Re-using a key returns the same expression", "statement": "Two accepted x[key] requests whose keys normalise to the same bounds return the same expression, requests with different bounds return different expressions, and earlier selections are never altered by later ones.", "quantifier": "every sequence of indexing operations on one array", "why_tests_cant": "A history property of a cache.", "anchors": ["omtools/core/variable.py:Variable.__getitem__"]}
{"id": "C20", "title": "Indexing a computed expression", "statement": "Indexing the result of an operation (for example (x+y)[0:3]) gives an expression with the shape and elements NumPy would give.", "quantifier": "every shape and key", "why_tests_cant": "Depends on an internal placeholder value not matching the declared shape.", "anchors": ["omtools/core/variable.py:Variable.__getitem__ L148,L199", "omtools/core/variable.py:ElementwiseAddition"]}
{"id": "C21", "title": "Accepted indexed assignments never overlap", "statement": "After any sequence of out[key] = expr calls that all succeeded, the element sets written by different expressions are pairwise disjoint and inside the output array (for non-negative keys).", "quantifier": "every sequence of indexed assignments", "why_tests_cant": "A history invariant over unbounded sequences of overlapping index sets.", "anchors": ["omtools/core/explicit_output.py:ExplicitOutput.__setitem__"]}
{"id": "C22", "title": "Indexed assignment delivers each value to its place", "statement": "When the component built for an index-assigned output runs, the element at each assigned position equals the corresponding element (in row-major order) of the assigned expression; positions nothing was assigned to keep the vector's previous content; and the declared derivative is exactly the 0/1 Jacobian of that map.", "quantifier": "every set of accepted assignments and all values", "why_tests_cant": "All shapes, keys and histories.", "anchors": ["omtools/core/explicit_output.py:ExplicitOutput.__setitem__", "omtools/comps/indexed_pass_through_comp.py:IndexedPassThroughComp"]}
{"id": "C23", "title": "A rejected indexed assignment has no effect", "statement": "If out[key] = expr raises, the output behaves afterwards as if the call had not happened.", "quantifier": "every state and key", "why_tests_cant": "Histories that include caught exceptions.", "anchors": ["omtools/core/explicit_output.py:ExplicitOutput.__setitem__ L149-157"]}
{"id": "C24", "title": "Indexed assignment out of bounds is rejected", "statement": "out[key] = expr raises whenever the key names a position outside the array, including negative integers.", "quantifier": "every shape and key", "why_tests_cant": "All boundary keys.", "anchors": ["omtools/core/explicit_output.py:ExplicitOutput.__setitem__"]}
{"id": "C25", "title": "An output is defined by one expression or by indexed assignment, never both", "statement": "Once define succeeded, every later define or indexed assignment on that output raises; once an indexed assignment succeeded, define raises.", "quantifier": "every sequence of define / indexed assignment calls", "why_tests_cant": "History property.", "anchors": ["omtools/core/explicit_output.py:ExplicitOutput.define", "omtools/core/explicit_output.py:ExplicitOutput.__setitem__"]}
{"id": "C26", "title": "Stored shape and value always agree", "statement": "For inputs, independent variables and outputs, the stored shape equals the shape of the stored value for every accepted (shape, val) pair, and mismatching pairs raise ValueError.", "quantifier": "every shape and every numeric, list or array value", "why_tests_cant": "Unbounded shapes.", "anchors": ["omtools/utils/get_shape_val.py:get_shape_val"]}
{"id": "C27", "title": "define never leaves a dependency cycle through the output", "statement": "After out.define(expr), out is not reachable from itself: every use of out inside expr has been replaced by an input of the same name, wherever it occurs; nothing else in the graph changed.", "quantifier": "every acyclic expression graph mentioning out anywhere, every set iteration order", "why_tests_cant": "The replacement mutates lists while iterating over them; correctness depends on every possible layout.", "anchors": ["omtools/core/explicit_output.py:ExplicitOutput.define", "omtools/utils/replace_output_leaf_nodes.py:replace_output_leaf_nodes"]}
{"id": "C28", "title": "define_residual replaces every use of the output in the residual", "statement": "After define_residual, no node of the residual expression's graph depends on the implicit output object itself.", "quantifier": "every residual graph and set iteration order", "why_tests_cant": "Order of a Python set decides.", "anchors": ["omtools/core/implicit_output.py:ImplicitOutput.define_residual", "omtools/utils/replace_output_leaf_nodes.py:replace_output_leaf_nodes"]}
{"id": "C29", "title": "Sums and differences: value and derivative", "statement": "x+y, x-y, x+c, c+x, x-c, c-x (c a number, or an array on the right) compute the elementwise value, and the declared derivative is the true Jacobian.", "quantifier": "all shapes, all real inputs and constants", "why_tests_cant": "Continuous domain.", "anchors": ["omtools/core/variable.py:ElementwiseAddition", "omtools/core/variable.py:ElementwiseSubtraction", "omtools/comps/linearcombination_comp.py:LinearCombinationComp"]}
{"id": "C30", "title": "Products, quotients and powers: value and derivative", "statement": "x*y, x/y, c*x, x*c, c/x, x/c, -x and x**c (c a number) compute the elementwise value and the declared derivative is the true Jacobian wherever the operation is differentiable.", "quantifier": "all shapes, all real inputs in the domain, integer exponents and (on positive bases) real exponents", "why_tests_cant": "Continuous domain with singular points.", "anchors": ["omtools/core/variable.py:ElementwiseMultiplication", "omtools/core/variable.py:ElementwiseDivision", "omtools/core/variable.py:ElementwisePower", "omtools/comps/arithmetic_comps/power_combination_comp.py:PowerCombinationComp"]}
{"id": "C31", "title": "Multiplying by a constant array keeps values and derivatives right", "statement": "x*A with a constant array A computes A*x on every run and reports derivative A, no matter how often values and derivatives are evaluated, and does not modify A.", "quantifier": "every sequence of runs and derivative evaluations", "why_tests_cant": "Aliasing shows only along histories.", "anchors": ["omtools/comps/arithmetic_comps/power_combination_comp.py:compute_partials L80-84", "omtools/core/variable.py:ElementwiseMultiplication"]}
{"id": "C32", "title": "Raising to a constant array is elementwise", "statement": "x**P with a constant array P of x's shape computes x_i**P_i for every element.", "quantifier": "all shapes and exponent arrays", "why_tests_cant": "Tests use constant exponent arrays, which hide the defect.", "anchors": ["omtools/core/variable.py:ElementwisePower", "omtools/utils/process_options.py:get_scalars_list"]}
{"id": "C33", "title": "Elementary functions: derivative is the true derivative", "statement": "For each of sin, cos, tan, sec, cosec, cotan, sinh, cosh, tanh, sech, cosech, cotanh, arcsin, arccos, arctan, exp, log, log10, the declared derivative is the derivative of the computed function at every interior point of its domain, elementwise for every shape (for sech and arcsin: of rank one).", "quantifier": "all real points of the domain, all lengths", "why_tests_cant": "Continuous domain.", "anchors": ["omtools/comps/sincomp.py", "omtools/comps/coseccomp.py", "omtools/comps/cotanhcomp.py", "omtools/comps/sechcomp.py"]}
{"id": "C34", "title": "Expressions built from unsupported operands are rejected", "statement": "Combining an expression with something that is neither an expression, a number nor an array, or raising it to the power of an expression, raises an error instead of silently yielding an expression that computes nothing.", "quantifier": "all operand kinds", "why_tests_cant": "All operand kinds, both operand orders.", "anchors": ["omtools/core/variable.py:ElementwiseAddition", "omtools/core/variable.py:ElementwisePower"]}
{"id": "C35", "title": "Operand shapes must match, division by the constant zero is rejected", "statement": "An elementwise operation on two expressions is accepted iff their shapes are equal, and its shape is that shape; x/0 raises ValueError and x/c is accepted for every nonzero number c.", "quantifier": "all shapes and constants", "why_tests_cant": "Unbounded shapes.", "anchors": ["omtools/core/variable.py:ElementwiseAddition", "omtools/core/variable.py:ElementwiseDivision"]}
{"id": "C36", "title": "reshape, transpose and reorder_axes move elements correctly with exact derivatives", "statement": "reshape keeps row-major content, transpose reverses all axes, reorder_axes('in->out') permutes axes as written; each declared derivative is the exact 0/1 Jacobian.", "quantifier": "every rank, shape, axis permutation and value", "why_tests_cant": "Unbounded ranks.", "anchors": ["omtools/comps/reshape_comp.py", "omtools/comps/transpose_comp.py", "omtools/comps/reorder_axes_comp.py", "omtools/utils/reorder_axes_utils.py"]}
{"id": "C37", "title": "expand broadcasts a scalar or array with exact derivatives", "statement": "expand of a scalar fills the shape; expand of an array with 'ij->iajb'-style indices whose input letters occur in output order repeats it along the new axes; the declared derivative is the exact Jacobian.", "quantifier": "every shape up to rank ten and every choice of new axes", "why_tests_cant": "All shapes and axis subsets.", "anchors": ["omtools/std/expand.py:expand", "omtools/comps/array_expansion_comp.py", "omtools/comps/scalar_expansion_comp.py", "omtools/utils/decompose_shape_tuple.py"]}
{"id": "C38", "title": "expand honours the index letters", "statement": "expand(x, shape, indices) places x[i,j,...] at every output position whose letters read i,j,..., also when the output lists the input's letters in another order, or raises.", "quantifier": "every index string", "why_tests_cant": "Needs permuted letters on square arrays.", "anchors": ["omtools/std/expand.py:expand"]}
{"id": "C39", "title": "sum and average are exact, with exact derivatives", "statement": "sum/average of one or several arrays, over all elements, elementwise, or over a set of axes, compute the mathematical sum/average and declare the exact Jacobian.", "quantifier": "every shape, axis set, number of operands and value", "why_tests_cant": "Unbounded shapes.", "anchors": ["omtools/std/sum.py", "omtools/comps/single_tensor_sum_comp.py", "omtools/comps/multiple_tensor_sum_comp.py", "omtools/comps/single_tensor_average_comp.py", "omtools/comps/multiple_tensor_average_comp.py"]}
{"id": "C40", "title": "average over several axes works", "statement": "average(x, axes=A) with two or more axes returns the average over those axes.", "quantifier": "every shape and axis tuple of length at least two", "why_tests_cant": "Tests only use one axis.", "anchors": ["omtools/comps/single_tensor_average_comp.py", "omtools/comps/multiple_tensor_average_comp.py"]}
{"id": "C41", "title": "Matrix products are exact, with exact derivatives", "statement": "matvec and matmat compute the matrix product and declare the exact sparse Jacobian with respect to both factors.", "quantifier": "all matrix sizes and values", "why_tests_cant": "Unbounded sizes.", "anchors": ["omtools/comps/matvec_comp.py", "omtools/comps/matmat_comp.py"]}
{"id": "C42", "title": "Inner, dot and outer products are exact, with exact derivatives", "statement": "Vector and tensor inner, dot and outer products compute the mathematical product and declare the exact Jacobian with respect to both factors (non-negative axes).", "quantifier": "all shapes, contracted axes and values", "why_tests_cant": "Unbounded ranks and axis choices.", "anchors": ["omtools/comps/vector_inner_product_comp.py", "omtools/comps/tensor_dot_product_comp.py", "omtools/comps/tensor_inner_product_comp.py", "omtools/comps/vector_outer_product_comp.py", "omtools/comps/tensor_outer_product_comp.py"]}
{"id": "C43", "title": "The cross product is exact, with exact derivatives", "statement": "cross along a non-negative axis of extent three computes the 3-vector cross product of corresponding lines and declares the exact sparse Jacobian.", "quantifier": "all shapes, axes and values", "why_tests_cant": "Unbounded ranks.", "anchors": ["omtools/comps/cross_product_comp.py", "omtools/std/cross.py"]}
{"id": "C44", "title": "rotmat yields rotations about the named axis", "statement": "rotmat(a, axis) is for every angle an orthogonal matrix of determinant one that fixes the named axis and turns the other two by a (right-handed), and the declared derivative is the true derivative.", "quantifier": "all angles, array shapes and axes", "why_tests_cant": "Continuous domain.", "anchors": ["omtools/comps/rotation_matrix_comp.py"]}
{"id": "C45", "title": "Smooth maximum and minimum bound the true extremum", "statement": "max returns a value between the true maximum and the true maximum plus ln(n)/rho; min a value between the true minimum minus ln(n)/rho and the true minimum (n operands or n elements along the axis, rho > 0).", "quantifier": "all operand lists, shapes, axes, rho and values", "why_tests_cant": "Continuous domain, unbounded n.", "anchors": ["omtools/comps/elementwise_max_comp.py", "omtools/comps/axiswise_max_comp.py", "omtools/comps/scalar_extremum_comp.py"]}
{"id": "C46", "title": "Smooth maximum and minimum declare exact derivatives", "statement": "The derivatives declared by max and min for the elementwise, axis-wise and single-array forms are the true derivatives of the returned smooth extremum; they are non-negative and sum to one over the competing elements.", "quantifier": "all operand lists, shapes, axes, rho and values", "why_tests_cant": "Continuous domain; the function is only piecewise given by its formula.", "anchors": ["omtools/comps/elementwise_max_comp.py", "omtools/comps/elementwise_min_comp.py", "omtools/comps/axiswise_max_comp.py", "omtools/comps/axiswise_min_comp.py", "omtools/comps/scalar_extremum_comp.py"]}
{"id": "C47", "title": "p-norms: accepted orders, value and derivative", "statement": "pnorm rejects every order that is not a positive even integer; for accepted orders it computes (sum x_i^p)^(1/p) (over all elements or along axes) and declares its true derivative wherever the norm is nonzero.", "quantifier": "all orders, shapes, axes and values with nonzero norm", "why_tests_cant": "Continuous domain.", "anchors": ["omtools/std/pnorm.py", "omtools/comps/vectorized_pnorm_comp.py", "omtools/comps/vectorized_axiswise_pnorm_comp.py"]}
{"id": "C48", "title": "Derivatives refer to the point they are asked at", "statement": "The derivatives returned for a point depend on that point only, not on the point at which the value was last computed.", "quantifier": "every sequence of evaluations and linearisations", "why_tests_cant": "A history property: cached values.", "anchors": ["omtools/comps/vectorized_pnorm_comp.py", "omtools/comps/axiswise_max_comp.py"]}
{"id": "C49", "title": "einsum: value, shape and dense derivative", "statement": "einsum computes the Einstein sum its subscripts denote, the reported shape is the shape of that sum, and the dense derivative is the exact Jacobian, when no operand is repeated.", "quantifier": "all subscript strings, operand counts, shapes and values", "why_tests_cant": "Unbounded operand lists and ranks.", "anchors": ["omtools/std/einsum.py", "omtools/comps/einsum_comp_dense_derivs.py", "omtools/utils/einsum_utils.py"]}
{"id": "C50", "title": "einsum: sparse derivative pattern covers the Jacobian", "statement": "With partial_format='sparse' every nonzero entry of the Jacobian is inside the declared sparsity pattern and each declared entry has the exact value.", "quantifier": "all subscripts, shapes, values", "why_tests_cant": "Unbounded.", "anchors": ["omtools/comps/einsum_comp_sparse_derivs.py"]}
{"id": "C51", "title": "einsum works when operands repeat", "statement": "einsum with the same expression used for several operands computes the exact value and derivative.", "quantifier": "all operand lists", "why_tests_cant": "Position of the repeated operand matters.", "anchors": ["omtools/comps/einsum_comp_dense_derivs.py"]}
{"id": "C52", "title": "The tuple form of einsum means the same as the string form", "statement": "einsum_new_api's translation of axis names to letters is injective, so the generated string denotes the same contraction as the tuples, and parsing that string gives back the generated list.", "quantifier": "all tuple lists with at most 26 distinct axis names", "why_tests_cant": "Unbounded lists.", "anchors": ["omtools/utils/einsum_utils.py:new_einsum_subscripts_to_string_and_list", "omtools/utils/einsum_utils.py:einsum_subscripts_tolist"]}
{"id": "C53", "title": "if_else selects the right branch", "statement": "if_else returns expr_false when the condition is negative and expr_true otherwise, leaving the other branch without influence on the value.", "quantifier": "all scalar values", "why_tests_cant": "Continuous domain.", "anchors": ["omtools/std/if_else.py"]}
{"id": "C54", "title": "if_else declares the derivative of the selected branch", "statement": "The derivative of if_else with respect to the selected branch is one and with respect to the other zero.", "quantifier": "all values with nonzero condition", "why_tests_cant": "Needs values different from one.", "anchors": ["omtools/std/if_else.py:ConditionalComponent.compute_partials"]}
{"id": "C55", "title": "Declared shape of an operation equals the shape its component produces", "statement": "For every std operation the shape recorded on the returned expression equals the shape of the output its component declares.", "quantifier": "all operations and operand shapes they accept", "why_tests_cant": "Unbounded shapes.", "anchors": ["omtools/std/*.py", "omtools/comps/*.py"]}
{"id": "C56", "title": "Bracketed implicit outputs converge to a root", "statement": "If the residual is continuous, elementwise in the implicit output, and has opposite signs at the two bracket ends, the value returned by the bracketed solve is within |x2-x1|/2^101 of an exact root, for every element of the array.", "quantifier": "all continuous residuals, brackets and array sizes", "why_tests_cant": "Continuous domain.", "anchors": ["omtools/comps/implicit_component.py:ImplicitComponent.solve_nonlinear"]}
{"id": "C57", "title": "The solver uses the requested iteration limit", "statement": "The maxiter argument given to ImplicitComponent limits the number of bisection steps.", "quantifier": "all maxiter values", "why_tests_cant": "Argument is silently ignored.", "anchors": ["omtools/comps/implicit_component.py:ImplicitComponent.__init__"]}
{"id": "C58", "title": "Several bracketed outputs keep their own brackets", "statement": "With several bracketed implicit outputs in one component, each is solved inside its own bracket.", "quantifier": "every sequence of define_residual_bracketed calls", "why_tests_cant": "A history property; tests define one bracketed output.", "anchors": ["omtools/core/implicit_output.py:ImplicitOutput.define_residual_bracketed L157"]}
{"id": "C59", "title": "Linear solves of implicit components are exact for elementwise residuals", "statement": "solve_linear returns the solution of the linearised system when every residual element depends on its own output element only (diagonal Jacobian), in both modes, starting from zeroed vectors.", "quantifier": "all sizes and values with nonzero diagonal", "why_tests_cant": "Continuous domain.", "anchors": ["omtools/comps/implicit_component.py:ImplicitComponent.solve_linear"]}
{"id": "C60", "title": "Implicit components see exactly the inputs of their residuals", "statement": "The inputs an ImplicitComponent declares for a residual are exactly the declared inputs without a producing subsystem that the residual depends on other than through variables carrying the residual's own name.", "quantifier": "every residual graph", "why_tests_cant": "Unbounded graphs.", "anchors": ["omtools/utils/collect_input_exprs.py", "omtools/comps/implicit_component.py:_build_problem"]}
{"id": "C61", "title": "Only residuals are kept as roots of an implicit component", "statement": "After an ImplicitComponent is set up, its internal model's roots are exactly the expressions given as residuals.", "quantifier": "every group history in which no call raises (with caught exceptions: C79)", "why_tests_cant": "Histories.", "anchors": ["omtools/comps/implicit_component.py:_remove_nonresiduals"]}
{"id": "C62", "title": "An options dictionary never returns a value that violates its declaration", "statement": "Along any history in which no declaration raised, every value read from an OptionsDictionary satisfies the values/types/bounds/check declared for it.", "quantifier": "every sequence of declare / set / update / undeclare / get", "why_tests_cant": "History invariant.", "anchors": ["omtools/utils/options_dictionary.py:OptionsDictionary"]}
{"id": "C63", "title": "Failed option assignments change nothing", "statement": "Setting an undeclared, read-only or invalid option raises and leaves the dictionary unchanged; a successful set is returned by the next get and affects no other option.", "quantifier": "every state and value", "why_tests_cant": "All states.", "anchors": ["omtools/utils/options_dictionary.py:__setitem__"]}
{"id": "C64", "title": "A declaration with an invalid default leaves no trace", "statement": "If declare raises because the default is invalid, the option does not become readable with that default.", "quantifier": "every declaration", "why_tests_cant": "Histories with caught exceptions.", "anchors": ["omtools/utils/options_dictionary.py:declare"]}
{"id": "C65", "title": "Renaming an expression never disconnects it", "statement": "Registering an expression under a user name after it was used does not change what reads it: every component built later refers to the new name.", "quantifier": "every order of use and registration", "why_tests_cant": "Histories.", "anchors": ["omtools/core/group.py:register_output L345", "omtools/core/explicit_output.py:ExplicitOutput.__setitem__ L149", "omtools/core/variable.py:__getitem__ L208"]}
{"id": "C66", "title": "Listed option types admit their instances", "statement": "An option declared with types given as one type, a tuple, a list or a set of types accepts every instance of the listed types.", "quantifier": "every types argument and value", "why_tests_cant": "All forms of the argument; the failing ones raise TypeError only at set time.", "anchors": ["omtools/utils/options_dictionary.py:_assert_valid", "omtools/utils/options_dictionary.py:declare"]}
{"id": "C67", "title": "An expression can be combined with itself", "statement": "x+x, x-x, x*x and x/x build and compute the elementwise value; so does every function of omtools/std given one expression twice.", "quantifier": "all shapes and names", "why_tests_cant": "Needs a model that is set up, not just built; the failure is in OpenMDAO's add_input.", "anchors": ["omtools/core/variable.py:ElementwiseAddition", "omtools/core/variable.py:ElementwiseMultiplication", "omtools/comps/linearcombination_comp.py:setup", "omtools/comps/array_explicit_component.py"]}
{"id": "C68", "title": "Constant arrays can stand on either side of +, -, * and under /", "statement": "A op x with a constant array A, and x/A, give one expression of x's shape.", "quantifier": "all arrays, shapes and operators", "why_tests_cant": "All operand kinds in both orders.", "anchors": ["omtools/core/variable.py:Variable.__radd__", "omtools/core/variable.py:ElementwiseDivision"]}
{"id": "C69", "title": "Every elementary function has derivatives for arrays of any rank", "statement": "Each elementary function delivers its derivative for inputs with two or more axes.", "quantifier": "all functions, shapes and values", "why_tests_cant": "Unbounded ranks.", "anchors": ["omtools/comps/sechcomp.py", "omtools/comps/arcsincomp.py"]}
{"id": "C70", "title": "inner accepts negative axes", "statement": "inner along axes counted from the end computes the same value and the same exact Jacobian as along the axes they name.", "quantifier": "all shapes, axes of either sign, values", "why_tests_cant": "The same axis number means different axes of the operand and of the identity tensor of twice the rank.", "anchors": ["omtools/comps/tensor_inner_product_comp.py:compute_partials", "omtools/std/inner.py"]}
{"id": "C71", "title": "A rejected x[key] leaves later requests unaffected", "statement": "If x[key] raises, every later x[key'] is answered as if the rejected request had not been made.", "quantifier": "every array, every history of requests including rejected ones", "why_tests_cant": "Needs a caught exception followed by further use of the same object.", "anchors": ["omtools/core/variable.py:Variable.__getitem__ L146-150"]}
{"id": "C72", "title": "Keys with entries that are neither int nor slice are rejected", "statement": "x[key] with a tuple containing None, Ellipsis, a string or an array raises an error; such an entry is never ignored.", "quantifier": "every array and key", "why_tests_cant": "All kinds of key entries in all positions.", "anchors": ["omtools/core/variable.py:Variable.__getitem__ L159-176"]}
{"id": "C73", "title": "A single int or slice indexes the first axis of an output", "statement": "For an output with two or more axes, out[key] = expr with a single integer or slice assigns the rows NumPy's out[key] selects, or raises.", "quantifier": "every shape of rank two or more, every key", "why_tests_cant": "All ranks and keys; the wrong reading is silent.", "anchors": ["omtools/core/explicit_output.py:ExplicitOutput.__setitem__ L121-131"]}
{"id": "C74", "title": "Residuals of one implicit component can share an input", "statement": "An implicit component in which several residuals depend on the same declared input is set up with that input declared once.", "quantifier": "every group history, any number of residuals", "why_tests_cant": "Needs all dependency graphs with several residuals.", "anchors": ["omtools/comps/implicit_component.py:_build_problem L69-79"]}
{"id": "C75", "title": "The initial guess of an implicit output is used", "statement": "The val given to create_implicit_output is the starting value of that output in the component.", "quantifier": "every group history and value", "why_tests_cant": "All values and histories.", "anchors": ["omtools/comps/implicit_component.py:_build_problem L62-66", "omtools/core/implicit_output.py:ImplicitOutput.define_residual L111"]}
{"id": "C76", "title": "linearize covers couplings between implicit outputs", "statement": "For every residual and every other implicit output of the component the residual depends on, the partial derivative is declared and stored by linearize.", "quantifier": "every residual graph", "why_tests_cant": "Needs all graphs coupling several implicit outputs.", "anchors": ["omtools/comps/implicit_component.py:ImplicitComponent.linearize", "omtools/comps/implicit_component.py:_build_problem"]}
{"id": "C77", "title": "Linear solves are exact whatever the Jacobian and the vectors held before", "statement": "solve_linear stores the solution of the linearised system for every invertible Jacobian, also when the result vector is not zero beforehand.", "quantifier": "all invertible Jacobians and previous contents", "why_tests_cant": "Continuous domain.", "anchors": ["omtools/comps/implicit_component.py:ImplicitComponent.solve_linear"]}
{"id": "C78", "title": "Bracketed and unbracketed outputs can be mixed in one component", "statement": "A component with both kinds of implicit outputs is set up.", "quantifier": "every group history", "why_tests_cant": "All sequences of calls.", "anchors": ["omtools/comps/implicit_component.py:_build_problem L104-111", "omtools/core/implicit_output.py"]}
{"id": "C79", "title": "A rejected residual leaves the component unaffected", "statement": "If define_residual raises, the component is set up as if the call had not been made.", "quantifier": "every group history with caught exceptions", "why_tests_cant": "Needs a caught exception followed by further use of the same component.", "anchors": ["omtools/core/implicit_output.py:ImplicitOutput.define_residual L93", "omtools/comps/implicit_component.py:_remove_nonresiduals"]}
{"id": "C80", "title": "The inputs of a component have the shapes of the operands", "statement": "The component of a call declares for every operand an input of that operand's shape, or at least of a shape OpenMDAO connects to it.", "quantifier": "every function of omtools/std and every operator, all operand shapes", "why_tests_cant": "All shapes; the functions that take the shape from one operand do not check the others.", "anchors": ["omtools/std/sum.py", "omtools/std/average.py", "omtools/std/inner.py", "omtools/std/matmat.py"]}
{"id": "C81", "title": "An output defined by an expression has its declared shape", "statement": "output.define(expr) either raises or makes the output an array of the shape declared for it, equal to expr.", "quantifier": "every declared shape and expression", "why_tests_cant": "All pairs of shapes.", "anchors": ["omtools/core/explicit_output.py:ExplicitOutput.define", "omtools/comps/pass_through_comp.py"]}
{"id": "C82", "title": "matmat multiplies a matrix by any vector", "statement": "matmat of an (m,n) matrix and a vector of n entries can be built whether the vector is an input or computed from other expressions.", "quantifier": "all m, n and both kinds of operand", "why_tests_cant": "Tests use declared inputs, whose val attribute has the right size.", "anchors": ["omtools/std/matmat.py L39-49", "omtools/core/variable.py L131-140"]}
{"id": "C83", "title": "Reducing over every axis gives one number", "statement": "sum, average and pnorm along all axes of an array give the same number as without axes.", "quantifier": "all shapes and all ways to list the axes", "why_tests_cant": "All ranks.", "anchors": ["omtools/comps/single_tensor_sum_comp.py:setup", "omtools/comps/multiple_tensor_sum_comp.py:setup", "omtools/comps/vectorized_axiswise_pnorm_comp.py:setup"]}
{"id": "C84", "title": "What a call returns can be built", "statement": "If a function of omtools/std or an operator returns an expression, building and setting up its component does not raise.", "quantifier": "every function, all operands", "why_tests_cant": "Errors at setup are far from the call that causes them; all combinations of arguments.", "anchors": ["omtools/std", "omtools/core/variable.py"]}
{"id": "C85", "title": "A subclass adds to the model of its parent", "statement": "If the setup of a Group subclass calls super().setup(), the model has the systems of the calls of both classes, as if all calls were made in one setup.", "quantifier": "every class hierarchy and every place of the super().setup() calls", "why_tests_cant": "All hierarchies; each test defines one class.", "anchors": ["omtools/core/group.py:_post_setup L19-122", "omtools/core/group.py:_ComponentBuilder L125-128"]}
{"id": "C86", "title": "LinearPowerCombinationComp computes the combination and its derivatives", "statement": "Built from a terms list, the component takes the inputs named in the terms, and its output is the constant plus the sum of the coefficients times the products of powers; the partials are the derivatives wherever these exist.", "quantifier": "all lists of terms, constants, shapes and input values", "why_tests_cant": "All real powers, values and numbers of terms; a derivative that is not a number shows at special values only.", "anchors": ["omtools/comps/linearpowercombination.py:LinearPowerCombinationComp"]}
{"id": "C87", "title": "Every component obeys the chain rule", "statement": "For every documented call, indexing, indexed assignment and definition: however the inputs move (differentiably, through points where the operation is differentiable), every entry of the output moves with the declared partials applied to the rates of the inputs; the declared inputs are the operands, in order.", "quantifier": "every function of omtools/std, every shape, every curve of inputs", "why_tests_cant": "Correct partials one entry at a time do not give the derivative when all inputs move at once; tests compare partials at random points.", "anchors": ["omtools/std", "omtools/comps", "omtools/core/variable.py"]}
{"id": "C88", "title": "The declared partials determine the derivatives of every model", "statement": "For every history of API calls that defines a model: the linear equations set up by the declared partials of all its components have exactly one solution, and it is the derivative of every variable, in particular of the value of every expression tree, with respect to what is given from outside.", "quantifier": "every history, every components obeying the chain rule, every parameter", "why_tests_cant": "All models and all points; check_partials compares components one by one.", "anchors": ["omtools/core/group.py:_post_setup", "omtools/core/graph.py", "omtools/comps"]}
{"id": "C89", "title": "Derivatives in reverse", "statement": "For every history of API calls that defines a model: the transposed linear equations have a solution for any weights, and every solution, applied to the rates of what is given from outside, is the derivative of the weighted sum of all variables.", "quantifier": "every history, every components obeying the chain rule, all weights", "why_tests_cant": "Forward and reverse modes are only compared numerically, for single models.", "anchors": ["omtools/core/group.py:_post_setup", "omtools/core/graph.py", "omtools/comps"]}
{"id": "C90", "title": "LinearCombinationComp computes any linear combination", "statement": "Added directly, with coefficients given as a dict, a list or one number, and names as a list or one string, the component's output is the constant plus the sum of coefficient times input, and its partials are the derivatives; initial values for all inputs are required.", "quantifier": "any number of inputs, all coefficients, constants (numbers or arrays), shapes and input values", "why_tests_cant": "All numbers of inputs and all forms of the options; the operators only use one or two inputs.", "anchors": ["omtools/comps/linearcombination_comp.py:LinearCombinationComp", "omtools/utils/process_options.py"]}
{"id": "C91", "title": "PowerCombinationComp computes any product of powers", "statement": "Added directly, with powers given as a dict, a list or one number, and names as a list or one string, the component's output is the coefficient times the product of the powers of the inputs, and its partials are the derivatives wherever the powers are smooth.", "quantifier": "any number of inputs, all real powers, coefficients, shapes and input values", "why_tests_cant": "All numbers of inputs, powers and points; the operators only use one or two inputs.", "anchors": ["omtools/comps/arithmetic_comps/power_combination_comp.py:PowerCombinationComp", "omtools/utils/process_options.py"]}
{"id": "C92", "title": "Fewer numbers than names", "statement": "When fewer coefficients or powers than names are given and setup accepts them, the partials are still the derivatives of what is computed.", "quantifier": "all lists of names, shorter lists of numbers, shapes and input values", "why_tests_cant": "zip drops names silently; a wrong partial shows only for an input that nobody uses.", "anchors": ["omtools/comps/linearcombination_comp.py:LinearCombinationComp", "omtools/comps/arithmetic_comps/power_combination_comp.py:PowerCombinationComp.compute_partials"]}
{"id": "C93", "title": "LinearPowerCombinationComp with a matrix of powers", "statement": "Given names, a matrix with one row of powers for each term and one column for each input, and coefficients, the component computes the constant plus the sum of coefficient times product of powers, and its partials are the derivatives wherever the powers are smooth.", "quantifier": "all names, matrices, coefficients, constants, shapes and input values", "why_tests_cant": "All dimensions and real powers.", "anchors": ["omtools/comps/linearpowercombination.py:LinearPowerCombinationComp"]}
{"id": "C94", "title": "One name may be given as a string", "statement": "The option in_names takes a string for a single input of that name (as its declared types say).", "quantifier": "all names", "why_tests_cant": "Names of one letter, as in examples, behave as expected.", "anchors": ["omtools/comps/linearpowercombination.py:LinearPowerCombinationComp.setup", "omtools/utils/process_options.py:get_names_list"]}
{"id": "C95", "title": "structure_data lists the grid points", "statement": "Row r of the returned training inputs is the grid point (one coordinate from each input) of entry r of the flattened outputs.", "quantifier": "any number of inputs of any lengths and values, outputs of the grid's size (times ny)", "why_tests_cant": "A wrong order of axes shows only with several inputs, and shapes are right all the same.", "anchors": ["omtools/utils/structure_data.py:structure_data"]}
{"id": "C96", "title": "structure_data returns the range of every input", "statement": "The limits returned for an input are the least and the greatest of its values.", "quantifier": "any number of inputs of any lengths and values", "why_tests_cant": "Inputs with one common range hide the difference.", "anchors": ["omtools/utils/structure_data.py:structure_data"]}
{"id": "C97", "title": "Derivatives of an implicit output are those of the solution", "statement": "When the inputs of an implicit component move, the solution of its residuals moves with the rate that solve_linear returns for the derivatives of the residuals (linearize); in reverse mode, with the rate that the returned sensitivities give. The solution need not be assumed to be differentiable.", "quantifier": "all histories, shapes, brackets, elementwise residuals with a single zero in the bracket and a non-zero derivative there, movements of the inputs", "why_tests_cant": "A derivative is a limit and the solution has no formula; a check by differences has errors of the size of the tolerance.", "anchors": ["omtools/comps/implicit_component.py:ImplicitComponent.linearize", "omtools/comps/implicit_component.py:ImplicitComponent.solve_linear", "omtools/comps/implicit_component.py:ImplicitComponent.solve_nonlinear"]}
{"id": "C98", "title": "The matrices of total derivatives give every movement", "statement": "Solving the equations of a model once for each entry of each given variable yields matrices which, multiplied by the rates of the given variables, are the rates of all variables of the model. In particular the matrices linearize asks for are the derivatives of the residual in the inputs and in the output.", "quantifier": "all histories without self-reference, all components that obey the chain rule, all movements of any number of given and independent variables", "why_tests_cant": "Arbitrarily many variables, shapes and components.", "anchors": ["omtools/core/group.py:Group", "omtools/comps/implicit_component.py:ImplicitComponent.linearize"]}
{"id": "C99", "title": "A subsystem is added with the name and promotions asked for", "statement": "add_subsystem(name, system, promotes, promotes_inputs, promotes_outputs) makes setup add the system to the OpenMDAO group once, under that name and with those promotions.", "quantifier": "all histories of calls", "why_tests_cant": "Every kind of system and every combination of the keywords, in any model.", "anchors": ["omtools/core/group.py:_post_setup", "omtools/core/group.py:Group.add_subsystem", "omtools/core/subsystem.py:Subsystem.initialize"]}
{"id": "C100", "title": "Design variables are the independent variables marked as such", "statement": "Setup declares as design variables exactly the variables made by create_indep_var with dv=True, each once, under the name of the variable a component of the group has as output.", "quantifier": "all histories of calls", "why_tests_cant": "Any number of independent variables, in models of any form and order.", "anchors": ["omtools/core/group.py:_post_setup", "omtools/core/group.py:Group.create_indep_var", "omtools/core/indep.py:Indep.initialize"]}
{"id": "C101", "title": "A model can be set up again", "statement": "When OpenMDAO runs setup again on a group that has been set up, as every further Problem.setup does, the same systems are added as the first time.", "quantifier": "all histories of calls, any number of runs", "why_tests_cant": "Depends on counters kept in the objects of the graph between runs; no test sets a problem up twice.", "anchors": ["omtools/core/group.py:_post_setup", "omtools/core/group.py:Group.__init__", "omtools/core/graph.py:topological_sort"]}
{"id": "C102", "title": "A model computes the user's formulas and their derivatives", "statement": "After one pass every variable holds the value of the expression the user wrote for it, each call, index and indexed assignment read with its documented meaning; and the total derivatives obtained from the declared partials are the derivatives of that expression.", "quantifier": "all histories of calls, all shapes and keys, all values in the domains of the calls", "why_tests_cant": "Joins the graph (naming, order, connections by name) with the values and derivatives of every component; tests evaluate a few models at a few points.", "anchors": ["omtools/core/group.py:_post_setup", "omtools/core/output.py:ExplicitOutput", "omtools/core/variable.py:__getitem__", "omtools/std", "omtools/comps"]}
{"id": "C103", "title": "An implicit component can be set up again", "statement": "When OpenMDAO runs setup again on an implicit component that has been set up, as every further Problem.setup does, and the user's setup makes the same calls, it succeeds again.", "quantifier": "all components and calls, any number of runs", "why_tests_cant": "Depends on what the component and its internal group keep between runs; no test sets a problem up twice.", "anchors": ["omtools/comps/implicit_component.py:_post_setup", "omtools/comps/implicit_component.py:ImplicitComponent.__init__", "omtools/core/graph.py:topological_sort"]}
{"id": "C104", "title": "A group made by create_group has the systems its block describes", "statement": "After a create_group block that ends normally the child group has exactly the systems setup builds from the calls made in the block, and still exactly these after any number of further Problem.setup.", "quantifier": "all blocks with an acyclic graph, any number of runs of setup", "why_tests_cant": "setup runs once at the end of the block and once more for every Problem.setup; that the later runs add nothing depends on counters kept in the graph.", "anchors": ["omtools/core/group.py:Group.create_group", "omtools/core/group.py:_post_setup"]}
{"id": "C105", "title": "An exception in a create_group block reaches the caller", "statement": "If a call in a create_group block raises, the exception that leaves the with statement is that one.", "quantifier": "all blocks and exceptions", "why_tests_cant": "Needs an exception in a block whose group is half finished; tests only run valid models.", "anchors": ["omtools/core/group.py:Group.create_group"]}
{"id": "C106", "title": "Every example class has its own script", "statement": "generate_example_scripts writes every class called Example... or Error... of the example files to a script of its own: no script is overwritten by that of another class.", "quantifier": "all directories of example files and all class names", "why_tests_cant": "Needs two classes whose names coincide after camel_to_snake, or two files one of whose names begins the other; the repository happens to have neither.", "anchors": ["omtools/utils/generate_example_scripts.py:camel_to_snake", "omtools/utils/generate_example_scripts.py:get_example_file_name", "omtools/utils/generate_example_scripts.py:export_examples"]}
{"id": "C107", "title": "linearize stores the derivatives of the residuals", "statement": "After linearize the partial derivatives an implicit component holds are those of its residuals, as functions of its inputs and outputs, at the inputs and outputs passed to linearize.", "quantifier": "all internal models whose components obey the chain rule, all sequences of calls before, all inputs and outputs", "why_tests_cant": "Depends on which call last ran the internal model; the checks of the partials run the model first.", "anchors": ["omtools/comps/implicit_component.py:ImplicitComponent.linearize", "omtools/comps/implicit_component.py:ImplicitComponent._set_values"]}
{"id": "C108", "title": "The residuals do not depend on earlier calls", "statement": "The residuals apply_nonlinear and run compute depend only on the inputs and outputs passed to them, not on the calls made on the component before; and run with a trial value gives what apply_nonlinear gives with that value in outputs.", "quantifier": "all internal models, all sequences of apply_nonlinear, run and linearize before, all inputs and outputs", "why_tests_cant": "The internal problem keeps the values of all its variables between calls; tests make one call on fresh components.", "anchors": ["omtools/comps/implicit_component.py:ImplicitComponent._set_values", "omtools/comps/implicit_component.py:ImplicitComponent.run", "omtools/comps/implicit_component.py:ImplicitComponent.apply_nonlinear"]}
{"id": "C109", "title": "Derivatives of models with nested groups", "statement": "A Group used as a subsystem of a Group computes its outputs by a pass over its own components, and the derivatives of all variables of both groups follow from the partials of all components: where every component obeys the chain rule, the linear equations of the components of all groups together have a solution and it is the derivative of every variable.", "quantifier": "all models with groups as subsystems, to any depth, all components and all values", "why_tests_cant": "Needs components in two groups and derivatives through both; tests of nested groups compare values of a few models.", "anchors": ["omtools/core/group.py:Group.add_subsystem", "omtools/core/group.py:Group.create_group", "omtools/core/subsystem.py:Subsystem"]}
{"id": "C110", "title": "Operands that do not fit are rejected by the call", "statement": "An operator or function of omtools.std called with operands whose shapes, axes or subscripts do not fit its operation raises at the call; an accepted call can be computed.", "quantifier": "all calls, all shapes, axes and subscripts", "why_tests_cant": "There is one test of a rejected call for each kind of mistake its author thought of; what is accepted is a set of operands.", "anchors": ["omtools/core/variable.py:Variable.__add__", "omtools/std/reshape.py:reshape", "omtools/std/inner.py:inner", "omtools/std/expand.py:expand", "omtools/std/einsum.py:einsum", "omtools/std/reorder_axes.py:reorder_axes", "omtools/utils/einsum_utils.py:compute_einsum_shape"]}
{"id": "C111", "title": "Derivatives of models with implicit components", "statement": "An ImplicitComponent used as a subsystem gives its output the value at which its residual is zero, and the derivatives of all variables of the model, of its groups and of the internal models of its implicit components follow from the partials of all components: the linear equations of all of them together, with residuals that do not move, have a solution and it is the derivative of every variable.", "quantifier": "all models with groups and implicit components as subsystems, all internal models, all values at which the equation has one zero in the bracket and its derivative in the output is not zero", "why_tests_cant": "Needs an implicit component inside a model and derivatives through both; the tests of implicit components check values of a few equations.", "anchors": ["omtools/comps/implicit_component.py:ImplicitComponent.solve_nonlinear", "omtools/comps/implicit_component.py:ImplicitComponent.linearize", "omtools/comps/implicit_component.py:ImplicitComponent.solve_linear", "omtools/core/implicit_output.py:ImplicitOutput.define_residual_bracketed", "omtools/core/group.py:Group.add_subsystem"]}
{"id": "C112", "title": "Which components compute their value and their derivatives", "statement": "Once a call has returned and its component has been set up, compute delivers a value for all inputs, except: division by an entry that is zero; a power that is not a number; a constant array that neither broadcasts to the operand nor has as many entries; a sum or norm over an axis named twice; the extremum of no entries; inner over axes named twice or of different extents; outer of more than 26 axes; rotmat about another axis than x, y, z; reshape to another number of entries; if_else whose condition, or branch taken, has not exactly one entry; einsum whose operands have axes of different extents for one subscript, or whose output repeats a subscript or has one of no operand. compute_partials delivers the partials for all inputs, except: sech and arcsin of arrays with more than one axis; a product or quotient with a constant array unless that array has the shape of the operand (ones in front allowed); a power whose derivative is not a number, among them x**0 at 0; a norm that is zero or over an axis named twice; if_else whose condition has not exactly one entry or whose branch taken has not the shape () or (n,), n the number of entries of the first branch; einsum whose operands come in an order that C50, C51 rule out; and the exceptions above for division by a variable, extrema, inner, rotmat and einsum.", "quantifier": "all calls (einsum: arrays without axes of extent one, strings with an explicit output), all shapes, axes and constants, all input values", "why_tests_cant": "The exceptions are sets of shapes and input values; a test tries one shape and one value.", "anchors": ["omtools/comps/arithmetic_comps/power_combination_comp.py:PowerCombinationComp.compute_partials", "omtools/comps/single_tensor_sum_comp.py:SingleTensorSumComp.compute", "omtools/comps/vectorized_axiswise_pnorm_comp.py:VectorizedAxisWisePnormComp.compute_partials", "omtools/comps/reshape_comp.py:ReshapeComp.compute", "omtools/std/if_else.py:if_else"]}
{"id": "C113", "title": "Constant arrays of another shape follow NumPy's broadcasting", "statement": "x + A, x - A and x * A with a constant array A whose shape broadcasts to that of x (axes compared from the last one on, extent one repeated) compute what NumPy computes, with the exact derivative.", "quantifier": "all shapes of x, all arrays whose shape broadcasts to it, all values", "why_tests_cant": "A rule about pairs of shapes; the examples use arrays of the shape of x.", "anchors": ["omtools/comps/linearcombination_comp.py:LinearCombinationComp.compute", "omtools/comps/arithmetic_comps/power_combination_comp.py:PowerCombinationComp.compute_partials", "omtools/core/variable.py:ElementwiseAddition.initialize", "omtools/core/variable.py:ElementwiseMultiplication.initialize"]}
{"id": "C114", "title": "A conditional component can be set up", "statement": "ConditionalComponent, given a condition and two branches that are expressions (not inputs) of the same shape, sets up its inputs, its output and its partials.", "quantifier": "all sequences of calls that make the expressions, all choices of the three expressions", "why_tests_cant": "The component is used by no test and no function; one try does not show that every choice of expressions fails.", "anchors": ["omtools/comps/conditional_component.py:ConditionalComponent.setup", "omtools/utils/collect_input_exprs.py:collect_input_exprs"]}
{"id": "C115", "title": "Every kind of number can be combined with an expression", "statement": "x + n, x - n, x * n, x / n, x ** n and the reflected forms mean the same for every Python or NumPy number n that stands for the same real number: an expression whose component can be built.", "quantifier": "all operators, all shapes, all numbers of the kinds bool, int, float, complex, Fraction, Decimal, numpy.float64, numpy.int64", "why_tests_cant": "The operators accept every numbers.Number, the options of the components only int and float; the tests use literals.", "anchors": ["omtools/core/variable.py:ElementwiseMultiplication.initialize", "omtools/core/variable.py:Variable.__rmul__", "omtools/comps/linearcombination_comp.py:LinearCombinationComp.initialize", "omtools/comps/arithmetic_comps/power_combination_comp.py:PowerCombinationComp.array_initialize", "omtools/utils/process_options.py:scalar_types"]}
{"id": "C116", "title": "matvec and matmat accept matrices and nothing else", "statement": "matvec(A, x) and matmat(A, B) raise at the call unless A is a matrix whose second extent is the first extent of x or B; a call that returns can be set up and computed and means the product.", "quantifier": "all shapes with any number of axes, all entries", "why_tests_cant": "The checks look at the first two extents only, and the tests pass matrices; arrays with more axes fail later, in setup or in compute, depending on the other extents.", "anchors": ["omtools/std/matvec.py:matvec", "omtools/std/matmat.py:matmat", "omtools/comps/matvec_comp.py:MatVecComp.setup", "omtools/comps/matvec_comp.py:MatVecComp.compute", "omtools/comps/matmat_comp.py:MatMatComp.setup"]}
{"id": "C117", "title": "cross accepts an axis counted from the end", "statement": "cross(a, b, axis) with a negative axis, counted from the end as everywhere in NumPy, is the cross product along that axis, with exact derivatives.", "quantifier": "all shapes, all negative axes with extent three, all entries", "why_tests_cant": "The tests use axes counted from the start; the subscripts are sliced from an alphabet of ten letters, so what happens depends on the number of axes.", "anchors": ["omtools/std/cross.py:cross", "omtools/comps/cross_product_comp.py:CrossProductComp.setup", "omtools/comps/cross_product_comp.py:CrossProductComp.compute_partials"]}
{"id": "C118", "title": "An axis may be written as a number or as a tuple", "statement": "In sum, average, pnorm, max, min, dot and inner the axis z and the tuple (z,) mean the same, as in NumPy: the call returns the same expression, and its component can be built.", "quantifier": "all functions with an axis argument, all shapes, all axes, all forms", "why_tests_cant": "Each test uses the form its function is documented with; a wrong form passes the call and fails when the model is set up.", "anchors": ["omtools/std/sum.py:sum", "omtools/std/average.py:average", "omtools/std/pnorm.py:pnorm", "omtools/std/max.py:max", "omtools/std/min.py:min", "omtools/std/dot.py:dot", "omtools/std/inner.py:inner"]}
{"id": "C119", "title": "An expression keeps the keyword arguments it is created with", "statement": "Variable(name=..., shape=..., val=..., units=...) returns an expression with each field as given, and the default (a generated name, shape (1,), no units) where it is not given.", "quantifier": "all combinations of keyword arguments in any order, all values", "why_tests_cant": "No test creates a Variable with a name; the code path reads an undefined name.", "anchors": ["omtools/core/variable.py:Variable.__init__", "omtools/core/variable.py:Variable.initialize"]}
