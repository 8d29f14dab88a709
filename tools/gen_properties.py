"""Writes ../properties.jsonl.  One entry per property; keep ids stable."""
import json, os

P = []


def p(id, title, statement, quantifier, why, anchors):
    P.append(dict(id=id, title=title, statement=statement,
                  quantifier=quantifier, why_tests_cant=why, anchors=anchors))


G = "omtools/core/group.py"
V = "omtools/core/variable.py"
GR = "omtools/core/graph.py"
EO = "omtools/core/explicit_output.py"
IO = "omtools/core/implicit_output.py"
IC = "omtools/comps/implicit_component.py"

# ---------------------------------------------------------------- ordering
p("C01", "Execution order respects every dependency",
  "After Group.setup, the subsystem built for an expression is added after the subsystem of every expression it (transitively) depends on, so one sequential pass over the added subsystems never reads a value that is computed later.",
  "every acyclic expression graph, every order in which Python iterates its sets of nodes",
  "Set iteration order depends on memory addresses, and graphs are unbounded; a test sees one graph and one order.",
  [f"{G}:_sort_expressions_and_build_components", f"{GR}:topological_sort", f"{V}:add_fwd_edges"])
p("C02", "Every used expression is scheduled exactly once",
  "The execution order computed by Group.setup contains each expression that some registered output depends on exactly once, and contains nothing else (expressions no output depends on construct no component).",
  "every acyclic expression graph and every set iteration order",
  "Needs all graph shapes (diamonds of any depth) and all iteration orders.",
  [f"{GR}:topological_sort", f"{V}:register_nodes", "omtools/examples/ex_explicit.py:ExampleNoRegisteredOutput"])
p("C03", "Removing redundant dependencies never changes what must run before what",
  "The clean-up pass that drops indirect dependencies keeps exactly the same 'must run before' relation between expressions, as long as every expression has at most eight direct dependencies, or at most one redundant one.",
  "every acyclic graph with at most eight dependencies, or one redundant dependency, per node; every set iteration order of nodes",
  "The relation is transitive reachability in unbounded graphs that are mutated while being traversed.",
  [f"{GR}:remove_indirect_dependencies"])
p("C04", "Removing redundant dependencies is safe for any number of dependencies",
  "The clean-up pass keeps the 'must run before' relation also for expressions with nine or more direct dependencies.",
  "every acyclic graph",
  "The failure needs a particular CPython hash-table layout of the index set; small test graphs never reach it.",
  [f"{GR}:remove_indirect_dependencies"])
p("C05", "Independent variables run first",
  "In the order computed by Group.setup, every independent variable is added before every expression, output and subsystem of the group.",
  "every group, regardless of when independent variables are created",
  "Depends on the graph-wide effect of added edges surviving pruning and sorting in every order.",
  [f"{G}:_sort_expressions_and_build_components L44-49", f"{G}:create_indep_var"])
p("C06", "Subsystems run after what was registered before them and before what uses their outputs",
  "A subsystem added with add_subsystem is executed after every output registered or created before the call (unless that output is later defined from the results of the subsystem itself), and before every expression that uses an input declared after the call.",
  "every sequence of create/declare/register/add_subsystem calls",
  "Ranges over all histories of API calls.",
  [f"{G}:add_subsystem", f"{G}:declare_input", f"{G}:register_output"])
p("C07", "Group setup never trips over its own unused-node removal",
  "After pruning, every expression recorded in the group still has a dependent, so the removal loop for unused expressions (which would raise) is never entered.",
  "every acyclic graph whose nodes have at most eight dependencies, or at most one redundant one next to no or many independent variables",
  "Dead code whose deadness is a global graph invariant.",
  [f"{G}:_sort_expressions_and_build_components L59-65"])
p("C08", "Running setup a second time adds nothing",
  "When the sorting pass of setup runs again on a group whose graph was already sorted (as happens to every group made by create_group), no subsystem is added a second time.",
  "every graph",
  "Depends on visit counters left over from the first pass, for all graphs.",
  [f"{G}:create_group", f"{GR}:topological_sort"])
p("C09", "Setup terminates on acyclic graphs and only on acyclic graphs",
  "The graph passes of Group.setup terminate on every acyclic graph; on a graph with a reachable cycle the forward-edge pass recurses without bound.",
  "every finite graph",
  "Termination and non-termination are statements about unbounded executions.",
  [f"{V}:add_fwd_edges", f"{V}:compute_dag_cost", f"{V}:register_nodes"])
p("C10", "Undefined outputs are always rejected",
  "If an output created with create_output was never defined or assigned, Group.setup raises ValueError instead of building a model; if every created output is defined, no such error is raised.",
  "every group and history of definitions",
  "Must hold for every place the undefined output may occupy in the order.",
  [f"{G}:_sort_expressions_and_build_components L80-84"])
p("C11", "register_output accepts an expression at most once and never an input",
  "Along any sequence of calls, register_output succeeds on an expression at most once, never on a declared input, and a call that raises leaves the group's outputs and all names unchanged.",
  "every sequence of API calls, including failing ones",
  "A history property.",
  [f"{G}:register_output"])
p("C12", "Generated names are unique",
  "The first 976683582 expressions created in a process get pairwise different identifiers, each at least five characters long and made of characters OpenMDAO allows.",
  "every pair of object counts below 62*63^4",
  "Nearly a billion names: no test enumerates the pairs.",
  ["omtools/utils/gen_hex_name.py:gen_hex_name", f"{V}:Variable.__init__"])
p("C13", "Generated names are unique without bound",
  "Any two expressions created in one process get different identifiers.",
  "all object counts",
  "The first collision is at object number 976683582.",
  ["omtools/utils/gen_hex_name.py:gen_hex_name"])
p("C14", "Two outputs with the same user-given name are detected",
  "If two different expressions of a group carry the same user-given name, Group.setup reports a name collision.",
  "every group",
  "The check is written, but against which identifiers it compares matters for all groups.",
  [f"{V}:register_nodes"])
p("C15", "Branch sorting is a stable reordering only",
  "Sorting dependency branches by cost permutes each expression's dependencies, puts them in non-decreasing cost order (non-increasing when reversed), keeps ties in place, and cannot change which orders are legal.",
  "every graph and cost assignment",
  "All permutations and ties.",
  [f"{V}:sort_dependency_branches", f"{V}:compute_dag_cost"])
p("C16", "A model run computes what the expressions say",
  "Running the added subsystems once, in the order Group.setup added them, leaves in each registered output's variable the value of its expression tree evaluated on the group's inputs.",
  "every acyclic expression graph, every meaning of the operations, every set iteration order",
  "The end-to-end composition of ordering, naming and component semantics.",
  [f"{G}:_sort_expressions_and_build_components", f"{GR}:topological_sort"])

# ---------------------------------------------------------------- indexing
p("C17", "Indexing an array selects the elements NumPy selects",
  "For an input, independent variable or created output, x[key] with an int, slice or tuple of them, when accepted, is an expression whose shape and elements are those of NumPy's x[key'] where key' replaces each integer i by the slice i:i+1.",
  "every shape, every key, every array value",
  "Unbounded ranks, extents, steps and bounds.",
  [f"{V}:Variable.__getitem__", "omtools/utils/slice_to_list.py:slice_to_list", "omtools/comps/decompose_comp.py:DecomposeComp"])
p("C18", "Indexing with unsupported keys is rejected, never misread",
  "A key whose slices reach below zero or beyond the extent of an axis, or select nothing, raises an error; it never yields an expression reading other elements.",
  "every shape and key",
  "All boundary combinations.",
  [f"{V}:Variable.__getitem__", "omtools/utils/slice_to_list.py:slice_to_list"])
p("C19", "Re-using a key returns the same expression",
  "Two accepted x[key] requests whose keys normalise to the same bounds return the same expression, requests with different bounds return different expressions, and earlier selections are never altered by later ones.",
  "every sequence of indexing operations on one array",
  "A history property of a cache.",
  [f"{V}:Variable.__getitem__"])
p("C20", "Indexing a computed expression",
  "Indexing the result of an operation (for example (x+y)[0:3]) gives an expression with the shape and elements NumPy would give.",
  "every shape and key",
  "Depends on an internal placeholder value not matching the declared shape.",
  [f"{V}:Variable.__getitem__ L148,L199", f"{V}:ElementwiseAddition"])
p("C21", "Accepted indexed assignments never overlap",
  "After any sequence of out[key] = expr calls that all succeeded, the element sets written by different expressions are pairwise disjoint and inside the output array (for non-negative keys).",
  "every sequence of indexed assignments",
  "A history invariant over unbounded sequences of overlapping index sets.",
  [f"{EO}:ExplicitOutput.__setitem__"])
p("C22", "Indexed assignment delivers each value to its place",
  "When the component built for an index-assigned output runs, the element at each assigned position equals the corresponding element (in row-major order) of the assigned expression; positions nothing was assigned to keep the vector's previous content; and the declared derivative is exactly the 0/1 Jacobian of that map.",
  "every set of accepted assignments and all values",
  "All shapes, keys and histories.",
  [f"{EO}:ExplicitOutput.__setitem__", "omtools/comps/indexed_pass_through_comp.py:IndexedPassThroughComp"])
p("C23", "A rejected indexed assignment has no effect",
  "If out[key] = expr raises, the output behaves afterwards as if the call had not happened.",
  "every state and key",
  "Histories that include caught exceptions.",
  [f"{EO}:ExplicitOutput.__setitem__ L149-157"])
p("C24", "Indexed assignment out of bounds is rejected",
  "out[key] = expr raises whenever the key names a position outside the array, including negative integers.",
  "every shape and key",
  "All boundary keys.",
  [f"{EO}:ExplicitOutput.__setitem__"])
p("C25", "An output is defined by one expression or by indexed assignment, never both",
  "Once define succeeded, every later define or indexed assignment on that output raises; once an indexed assignment succeeded, define raises.",
  "every sequence of define / indexed assignment calls",
  "History property.",
  [f"{EO}:ExplicitOutput.define", f"{EO}:ExplicitOutput.__setitem__"])
p("C26", "Stored shape and value always agree",
  "For inputs, independent variables and outputs, the stored shape equals the shape of the stored value for every accepted (shape, val) pair, and mismatching pairs raise ValueError.",
  "every shape and every numeric, list or array value",
  "Unbounded shapes.",
  ["omtools/utils/get_shape_val.py:get_shape_val"])
p("C27", "define never leaves a dependency cycle through the output",
  "After out.define(expr), out is not reachable from itself: every use of out inside expr has been replaced by an input of the same name, wherever it occurs; nothing else in the graph changed.",
  "every acyclic expression graph mentioning out anywhere, every set iteration order",
  "The replacement mutates lists while iterating over them; correctness depends on every possible layout.",
  [f"{EO}:ExplicitOutput.define", "omtools/utils/replace_output_leaf_nodes.py:replace_output_leaf_nodes"])
p("C28", "define_residual replaces every use of the output in the residual",
  "After define_residual, no node of the residual expression's graph depends on the implicit output object itself.",
  "every residual graph and set iteration order",
  "Order of a Python set decides.",
  [f"{IO}:ImplicitOutput.define_residual", "omtools/utils/replace_output_leaf_nodes.py:replace_output_leaf_nodes"])

# ---------------------------------------------------------------- arithmetic
p("C29", "Sums and differences: value and derivative",
  "x+y, x-y, x+c, c+x, x-c, c-x (c a number, or an array on the right) compute the elementwise value, and the declared derivative is the true Jacobian.",
  "all shapes, all real inputs and constants",
  "Continuous domain.",
  [f"{V}:ElementwiseAddition", f"{V}:ElementwiseSubtraction", "omtools/comps/linearcombination_comp.py:LinearCombinationComp"])
p("C30", "Products, quotients and powers: value and derivative",
  "x*y, x/y, c*x, x*c, c/x, x/c, -x and x**c (c a number) compute the elementwise value and the declared derivative is the true Jacobian wherever the operation is differentiable.",
  "all shapes, all real inputs in the domain, integer exponents and (on positive bases) real exponents",
  "Continuous domain with singular points.",
  [f"{V}:ElementwiseMultiplication", f"{V}:ElementwiseDivision", f"{V}:ElementwisePower", "omtools/comps/arithmetic_comps/power_combination_comp.py:PowerCombinationComp"])
p("C31", "Multiplying by a constant array keeps values and derivatives right",
  "x*A with a constant array A computes A*x on every run and reports derivative A, no matter how often values and derivatives are evaluated, and does not modify A.",
  "every sequence of runs and derivative evaluations",
  "Aliasing shows only along histories.",
  ["omtools/comps/arithmetic_comps/power_combination_comp.py:compute_partials L80-84", f"{V}:ElementwiseMultiplication"])
p("C32", "Raising to a constant array is elementwise",
  "x**P with a constant array P of x's shape computes x_i**P_i for every element.",
  "all shapes and exponent arrays",
  "Tests use constant exponent arrays, which hide the defect.",
  [f"{V}:ElementwisePower", "omtools/utils/process_options.py:get_scalars_list"])
p("C33", "Elementary functions: derivative is the true derivative",
  "For each of sin, cos, tan, sec, cosec, cotan, sinh, cosh, tanh, sech, cosech, cotanh, arcsin, arccos, arctan, exp, log, log10, the declared derivative is the derivative of the computed function at every interior point of its domain, elementwise for every shape (for sech and arcsin: of rank one).",
  "all real points of the domain, all lengths",
  "Continuous domain.",
  ["omtools/comps/sincomp.py", "omtools/comps/coseccomp.py", "omtools/comps/cotanhcomp.py", "omtools/comps/sechcomp.py"])
p("C34", "Expressions built from unsupported operands are rejected",
  "Combining an expression with something that is neither an expression, a number nor an array, or raising it to the power of an expression, raises an error instead of silently yielding an expression that computes nothing.",
  "all operand kinds",
  "All operand kinds, both operand orders.",
  [f"{V}:ElementwiseAddition", f"{V}:ElementwisePower"])
p("C35", "Operand shapes must match, division by the constant zero is rejected",
  "An elementwise operation on two expressions is accepted iff their shapes are equal, and its shape is that shape; x/0 raises ValueError and x/c is accepted for every nonzero number c.",
  "all shapes and constants",
  "Unbounded shapes.",
  [f"{V}:ElementwiseAddition", f"{V}:ElementwiseDivision"])

# ---------------------------------------------------------------- tensor ops
p("C36", "reshape, transpose and reorder_axes move elements correctly with exact derivatives",
  "reshape keeps row-major content, transpose reverses all axes, reorder_axes('in->out') permutes axes as written; each declared derivative is the exact 0/1 Jacobian.",
  "every rank, shape, axis permutation and value",
  "Unbounded ranks.",
  ["omtools/comps/reshape_comp.py", "omtools/comps/transpose_comp.py", "omtools/comps/reorder_axes_comp.py", "omtools/utils/reorder_axes_utils.py"])
p("C37", "expand broadcasts a scalar or array with exact derivatives",
  "expand of a scalar fills the shape; expand of an array with 'ij->iajb'-style indices whose input letters occur in output order repeats it along the new axes; the declared derivative is the exact Jacobian.",
  "every shape up to rank ten and every choice of new axes",
  "All shapes and axis subsets.",
  ["omtools/std/expand.py:expand", "omtools/comps/array_expansion_comp.py", "omtools/comps/scalar_expansion_comp.py", "omtools/utils/decompose_shape_tuple.py"])
p("C38", "expand honours the index letters",
  "expand(x, shape, indices) places x[i,j,...] at every output position whose letters read i,j,..., also when the output lists the input's letters in another order, or raises.",
  "every index string",
  "Needs permuted letters on square arrays.",
  ["omtools/std/expand.py:expand"])
p("C39", "sum and average are exact, with exact derivatives",
  "sum/average of one or several arrays, over all elements, elementwise, or over a set of axes, compute the mathematical sum/average and declare the exact Jacobian.",
  "every shape, axis set, number of operands and value",
  "Unbounded shapes.",
  ["omtools/std/sum.py", "omtools/comps/single_tensor_sum_comp.py", "omtools/comps/multiple_tensor_sum_comp.py", "omtools/comps/single_tensor_average_comp.py", "omtools/comps/multiple_tensor_average_comp.py"])
p("C40", "average over several axes works",
  "average(x, axes=A) with two or more axes returns the average over those axes.",
  "every shape and axis tuple of length at least two",
  "Tests only use one axis.",
  ["omtools/comps/single_tensor_average_comp.py", "omtools/comps/multiple_tensor_average_comp.py"])
p("C41", "Matrix products are exact, with exact derivatives",
  "matvec and matmat compute the matrix product and declare the exact sparse Jacobian with respect to both factors.",
  "all matrix sizes and values",
  "Unbounded sizes.",
  ["omtools/comps/matvec_comp.py", "omtools/comps/matmat_comp.py"])
p("C42", "Inner, dot and outer products are exact, with exact derivatives",
  "Vector and tensor inner, dot and outer products compute the mathematical product and declare the exact Jacobian with respect to both factors (non-negative axes).",
  "all shapes, contracted axes and values",
  "Unbounded ranks and axis choices.",
  ["omtools/comps/vector_inner_product_comp.py", "omtools/comps/tensor_dot_product_comp.py", "omtools/comps/tensor_inner_product_comp.py", "omtools/comps/vector_outer_product_comp.py", "omtools/comps/tensor_outer_product_comp.py"])
p("C43", "The cross product is exact, with exact derivatives",
  "cross along a non-negative axis of extent three computes the 3-vector cross product of corresponding lines and declares the exact sparse Jacobian.",
  "all shapes, axes and values",
  "Unbounded ranks.",
  ["omtools/comps/cross_product_comp.py", "omtools/std/cross.py"])
p("C44", "rotmat yields rotations about the named axis",
  "rotmat(a, axis) is for every angle an orthogonal matrix of determinant one that fixes the named axis and turns the other two by a (right-handed), and the declared derivative is the true derivative.",
  "all angles, array shapes and axes",
  "Continuous domain.",
  ["omtools/comps/rotation_matrix_comp.py"])
p("C45", "Smooth maximum and minimum bound the true extremum",
  "max returns a value between the true maximum and the true maximum plus ln(n)/rho; min a value between the true minimum minus ln(n)/rho and the true minimum (n operands or n elements along the axis, rho > 0).",
  "all operand lists, shapes, axes, rho and values",
  "Continuous domain, unbounded n.",
  ["omtools/comps/elementwise_max_comp.py", "omtools/comps/axiswise_max_comp.py", "omtools/comps/scalar_extremum_comp.py"])
p("C46", "Smooth maximum and minimum declare exact derivatives",
  "The derivatives declared by max and min for the elementwise, axis-wise and single-array forms are the true derivatives of the returned smooth extremum; they are non-negative and sum to one over the competing elements.",
  "all operand lists, shapes, axes, rho and values",
  "Continuous domain; the function is only piecewise given by its formula.",
  ["omtools/comps/elementwise_max_comp.py", "omtools/comps/elementwise_min_comp.py", "omtools/comps/axiswise_max_comp.py", "omtools/comps/axiswise_min_comp.py", "omtools/comps/scalar_extremum_comp.py"])
p("C47", "p-norms: accepted orders, value and derivative",
  "pnorm rejects every order that is not a positive even integer; for accepted orders it computes (sum x_i^p)^(1/p) (over all elements or along axes) and declares its true derivative wherever the norm is nonzero.",
  "all orders, shapes, axes and values with nonzero norm",
  "Continuous domain.",
  ["omtools/std/pnorm.py", "omtools/comps/vectorized_pnorm_comp.py", "omtools/comps/vectorized_axiswise_pnorm_comp.py"])
p("C48", "Derivatives refer to the point they are asked at",
  "The derivatives returned for a point depend on that point only, not on the point at which the value was last computed.",
  "every sequence of evaluations and linearisations",
  "A history property: cached values.",
  ["omtools/comps/vectorized_pnorm_comp.py", "omtools/comps/axiswise_max_comp.py"])
p("C49", "einsum: value, shape and dense derivative",
  "einsum computes the Einstein sum its subscripts denote, the reported shape is the shape of that sum, and the dense derivative is the exact Jacobian, when no operand is repeated.",
  "all subscript strings, operand counts, shapes and values",
  "Unbounded operand lists and ranks.",
  ["omtools/std/einsum.py", "omtools/comps/einsum_comp_dense_derivs.py", "omtools/utils/einsum_utils.py"])
p("C50", "einsum: sparse derivative pattern covers the Jacobian",
  "With partial_format='sparse' every nonzero entry of the Jacobian is inside the declared sparsity pattern and each declared entry has the exact value.",
  "all subscripts, shapes, values",
  "Unbounded.",
  ["omtools/comps/einsum_comp_sparse_derivs.py"])
p("C51", "einsum works when operands repeat",
  "einsum with the same expression used for several operands computes the exact value and derivative.",
  "all operand lists",
  "Position of the repeated operand matters.",
  ["omtools/comps/einsum_comp_dense_derivs.py"])
p("C52", "The tuple form of einsum means the same as the string form",
  "einsum_new_api's translation of axis names to letters is injective, so the generated string denotes the same contraction as the tuples, and parsing that string gives back the generated list.",
  "all tuple lists with at most 26 distinct axis names",
  "Unbounded lists.",
  ["omtools/utils/einsum_utils.py:new_einsum_subscripts_to_string_and_list", "omtools/utils/einsum_utils.py:einsum_subscripts_tolist"])
p("C53", "if_else selects the right branch",
  "if_else returns expr_false when the condition is negative and expr_true otherwise, leaving the other branch without influence on the value.",
  "all scalar values",
  "Continuous domain.",
  ["omtools/std/if_else.py"])
p("C54", "if_else declares the derivative of the selected branch",
  "The derivative of if_else with respect to the selected branch is one and with respect to the other zero.",
  "all values with nonzero condition",
  "Needs values different from one.",
  ["omtools/std/if_else.py:ConditionalComponent.compute_partials"])
p("C55", "Declared shape of an operation equals the shape its component produces",
  "For every std operation the shape recorded on the returned expression equals the shape of the output its component declares.",
  "all operations and operand shapes they accept",
  "Unbounded shapes.",
  ["omtools/std/*.py", "omtools/comps/*.py"])

# ---------------------------------------------------------------- implicit
p("C56", "Bracketed implicit outputs converge to a root",
  "If the residual is continuous, elementwise in the implicit output, and has opposite signs at the two bracket ends, the value returned by the bracketed solve is within |x2-x1|/2^101 of an exact root, for every element of the array.",
  "all continuous residuals, brackets and array sizes",
  "Continuous domain.",
  [f"{IC}:ImplicitComponent.solve_nonlinear"])
p("C57", "The solver uses the requested iteration limit",
  "The maxiter argument given to ImplicitComponent limits the number of bisection steps.",
  "all maxiter values",
  "Argument is silently ignored.",
  [f"{IC}:ImplicitComponent.__init__"])
p("C58", "Several bracketed outputs keep their own brackets",
  "With several bracketed implicit outputs in one component, each is solved inside its own bracket.",
  "every sequence of define_residual_bracketed calls",
  "A history property; tests define one bracketed output.",
  [f"{IO}:ImplicitOutput.define_residual_bracketed L157"])
p("C59", "Linear solves of implicit components are exact for elementwise residuals",
  "solve_linear returns the solution of the linearised system when every residual element depends on its own output element only (diagonal Jacobian), in both modes, starting from zeroed vectors.",
  "all sizes and values with nonzero diagonal",
  "Continuous domain.",
  [f"{IC}:ImplicitComponent.solve_linear"])
p("C60", "Implicit components see exactly the inputs of their residuals",
  "The inputs an ImplicitComponent declares for a residual are exactly the declared inputs without a producing subsystem that the residual depends on other than through variables carrying the residual's own name.",
  "every residual graph",
  "Unbounded graphs.",
  ["omtools/utils/collect_input_exprs.py", f"{IC}:_build_problem"])
p("C61", "Only residuals are kept as roots of an implicit component",
  "After an ImplicitComponent is set up, its internal model's roots are exactly the expressions given as residuals.",
  "every group history in which no call raises (with caught exceptions: C79)",
  "Histories.",
  [f"{IC}:_remove_nonresiduals"])

# ---------------------------------------------------------------- options
p("C62", "An options dictionary never returns a value that violates its declaration",
  "Along any history in which no declaration raised, every value read from an OptionsDictionary satisfies the values/types/bounds/check declared for it.",
  "every sequence of declare / set / update / undeclare / get",
  "History invariant.",
  ["omtools/utils/options_dictionary.py:OptionsDictionary"])
p("C63", "Failed option assignments change nothing",
  "Setting an undeclared, read-only or invalid option raises and leaves the dictionary unchanged; a successful set is returned by the next get and affects no other option.",
  "every state and value",
  "All states.",
  ["omtools/utils/options_dictionary.py:__setitem__"])
p("C64", "A declaration with an invalid default leaves no trace",
  "If declare raises because the default is invalid, the option does not become readable with that default.",
  "every declaration",
  "Histories with caught exceptions.",
  ["omtools/utils/options_dictionary.py:declare"])
p("C65", "Renaming an expression never disconnects it",
  "Registering an expression under a user name after it was used does not change what reads it: every component built later refers to the new name.",
  "every order of use and registration",
  "Histories.",
  [f"{G}:register_output L345", f"{EO}:ExplicitOutput.__setitem__ L149", f"{V}:__getitem__ L208"])
p("C66", "Listed option types admit their instances",
  "An option declared with types given as one type, a tuple, a list or a set of types accepts every instance of the listed types.",
  "every types argument and value",
  "All forms of the argument; the failing ones raise TypeError only at set time.",
  ["omtools/utils/options_dictionary.py:_assert_valid", "omtools/utils/options_dictionary.py:declare"])

# ---------------------------------------------------------------- operators, more
p("C67", "An expression can be combined with itself",
  "x+x, x-x, x*x and x/x build and compute the elementwise value; so does every function of omtools/std given one expression twice.",
  "all shapes and names",
  "Needs a model that is set up, not just built; the failure is in OpenMDAO's add_input.",
  [f"{V}:ElementwiseAddition", f"{V}:ElementwiseMultiplication", "omtools/comps/linearcombination_comp.py:setup", "omtools/comps/array_explicit_component.py"])
p("C68", "Constant arrays can stand on either side of +, -, * and under /",
  "A op x with a constant array A, and x/A, give one expression of x's shape.",
  "all arrays, shapes and operators",
  "All operand kinds in both orders.",
  [f"{V}:Variable.__radd__", f"{V}:ElementwiseDivision"])
p("C69", "Every elementary function has derivatives for arrays of any rank",
  "Each elementary function delivers its derivative for inputs with two or more axes.",
  "all functions, shapes and values",
  "Unbounded ranks.",
  ["omtools/comps/sechcomp.py", "omtools/comps/arcsincomp.py"])

p("C70", "inner accepts negative axes",
  "inner along axes counted from the end computes the same value and the same exact Jacobian as along the axes they name.",
  "all shapes, axes of either sign, values",
  "The same axis number means different axes of the operand and of the identity tensor of twice the rank.",
  ["omtools/comps/tensor_inner_product_comp.py:compute_partials", "omtools/std/inner.py"])

# ---------------------------------------------------------------- indexing, more
p("C71", "A rejected x[key] leaves later requests unaffected",
  "If x[key] raises, every later x[key'] is answered as if the rejected request had not been made.",
  "every array, every history of requests including rejected ones",
  "Needs a caught exception followed by further use of the same object.",
  [f"{V}:Variable.__getitem__ L146-150"])
p("C72", "Keys with entries that are neither int nor slice are rejected",
  "x[key] with a tuple containing None, Ellipsis, a string or an array raises an error; such an entry is never ignored.",
  "every array and key",
  "All kinds of key entries in all positions.",
  [f"{V}:Variable.__getitem__ L159-176"])

p("C73", "A single int or slice indexes the first axis of an output",
  "For an output with two or more axes, out[key] = expr with a single integer or slice assigns the rows NumPy's out[key] selects, or raises.",
  "every shape of rank two or more, every key",
  "All ranks and keys; the wrong reading is silent.",
  [f"{EO}:ExplicitOutput.__setitem__ L121-131"])

# ---------------------------------------------------------------- implicit components, more
p("C74", "Residuals of one implicit component can share an input",
  "An implicit component in which several residuals depend on the same declared input is set up with that input declared once.",
  "every group history, any number of residuals",
  "Needs all dependency graphs with several residuals.",
  [f"{IC}:_build_problem L69-79"])
p("C75", "The initial guess of an implicit output is used",
  "The val given to create_implicit_output is the starting value of that output in the component.",
  "every group history and value",
  "All values and histories.",
  [f"{IC}:_build_problem L62-66", "omtools/core/implicit_output.py:ImplicitOutput.define_residual L111"])
p("C76", "linearize covers couplings between implicit outputs",
  "For every residual and every other implicit output of the component the residual depends on, the partial derivative is declared and stored by linearize.",
  "every residual graph",
  "Needs all graphs coupling several implicit outputs.",
  [f"{IC}:ImplicitComponent.linearize", f"{IC}:_build_problem"])
p("C77", "Linear solves are exact whatever the Jacobian and the vectors held before",
  "solve_linear stores the solution of the linearised system for every invertible Jacobian, also when the result vector is not zero beforehand.",
  "all invertible Jacobians and previous contents",
  "Continuous domain.",
  [f"{IC}:ImplicitComponent.solve_linear"])
p("C78", "Bracketed and unbracketed outputs can be mixed in one component",
  "A component with both kinds of implicit outputs is set up.",
  "every group history",
  "All sequences of calls.",
  [f"{IC}:_build_problem L104-111", "omtools/core/implicit_output.py"])
p("C79", "A rejected residual leaves the component unaffected",
  "If define_residual raises, the component is set up as if the call had not been made.",
  "every group history with caught exceptions",
  "Needs a caught exception followed by further use of the same component.",
  ["omtools/core/implicit_output.py:ImplicitOutput.define_residual L93", f"{IC}:_remove_nonresiduals"])

# ---------------------------------------------------------------- calls of std
p("C80", "The inputs of a component have the shapes of the operands",
  "The component of a call declares for every operand an input of that operand's shape, or at least of a shape OpenMDAO connects to it.",
  "every function of omtools/std and every operator, all operand shapes",
  "All shapes; the functions that take the shape from one operand do not check the others.",
  ["omtools/std/sum.py", "omtools/std/average.py", "omtools/std/inner.py", "omtools/std/matmat.py"])
p("C81", "An output defined by an expression has its declared shape",
  "output.define(expr) either raises or makes the output an array of the shape declared for it, equal to expr.",
  "every declared shape and expression",
  "All pairs of shapes.",
  [f"{EO}:ExplicitOutput.define", "omtools/comps/pass_through_comp.py"])
p("C82", "matmat multiplies a matrix by any vector",
  "matmat of an (m,n) matrix and a vector of n entries can be built whether the vector is an input or computed from other expressions.",
  "all m, n and both kinds of operand",
  "Tests use declared inputs, whose val attribute has the right size.",
  ["omtools/std/matmat.py L39-49", "omtools/core/variable.py L131-140"])
p("C83", "Reducing over every axis gives one number",
  "sum, average and pnorm along all axes of an array give the same number as without axes.",
  "all shapes and all ways to list the axes",
  "All ranks.",
  ["omtools/comps/single_tensor_sum_comp.py:setup", "omtools/comps/multiple_tensor_sum_comp.py:setup", "omtools/comps/vectorized_axiswise_pnorm_comp.py:setup"])
p("C84", "What a call returns can be built",
  "If a function of omtools/std or an operator returns an expression, building and setting up its component does not raise.",
  "every function, all operands",
  "Errors at setup are far from the call that causes them; all combinations of arguments.",
  ["omtools/std", f"{V}"])

# ---------------------------------------------------------------- inheritance, polynomials
p("C85", "A subclass adds to the model of its parent",
  "If the setup of a Group subclass calls super().setup(), the model has the systems of the calls of both classes, as if all calls were made in one setup.",
  "every class hierarchy and every place of the super().setup() calls",
  "All hierarchies; each test defines one class.",
  ["omtools/core/group.py:_post_setup L19-122", "omtools/core/group.py:_ComponentBuilder L125-128"])
p("C86", "LinearPowerCombinationComp computes the combination and its derivatives",
  "Built from a terms list, the component takes the inputs named in the terms, and its output is the constant plus the sum of the coefficients times the products of powers; the partials are the derivatives wherever these exist.",
  "all lists of terms, constants, shapes and input values",
  "All real powers, values and numbers of terms; a derivative that is not a number shows at special values only.",
  ["omtools/comps/linearpowercombination.py:LinearPowerCombinationComp"])

# ---------------------------------------------------------------- derivatives of models
p("C87", "Every component obeys the chain rule",
  "For every documented call, indexing, indexed assignment and definition: however the inputs move (differentiably, through points where the operation is differentiable), every entry of the output moves with the declared partials applied to the rates of the inputs; the declared inputs are the operands, in order.",
  "every function of omtools/std, every shape, every curve of inputs",
  "Correct partials one entry at a time do not give the derivative when all inputs move at once; tests compare partials at random points.",
  ["omtools/std", "omtools/comps", f"{V}"])
p("C88", "The declared partials determine the derivatives of every model",
  "For every history of API calls that defines a model: the linear equations set up by the declared partials of all its components have exactly one solution, and it is the derivative of every variable, in particular of the value of every expression tree, with respect to what is given from outside.",
  "every history, every components obeying the chain rule, every parameter",
  "All models and all points; check_partials compares components one by one.",
  ["omtools/core/group.py:_post_setup", "omtools/core/graph.py", "omtools/comps"])
p("C89", "Derivatives in reverse",
  "For every history of API calls that defines a model: the transposed linear equations have a solution for any weights, and every solution, applied to the rates of what is given from outside, is the derivative of the weighted sum of all variables.",
  "every history, every components obeying the chain rule, all weights",
  "Forward and reverse modes are only compared numerically, for single models.",
  ["omtools/core/group.py:_post_setup", "omtools/core/graph.py", "omtools/comps"])

# ---------------------------------------------------------------- combinations added directly
p("C90", "LinearCombinationComp computes any linear combination",
  "Added directly, with coefficients given as a dict, a list or one number, and names as a list or one string, the component's output is the constant plus the sum of coefficient times input, and its partials are the derivatives; initial values for all inputs are required.",
  "any number of inputs, all coefficients, constants (numbers or arrays), shapes and input values",
  "All numbers of inputs and all forms of the options; the operators only use one or two inputs.",
  ["omtools/comps/linearcombination_comp.py:LinearCombinationComp", "omtools/utils/process_options.py"])
p("C91", "PowerCombinationComp computes any product of powers",
  "Added directly, with powers given as a dict, a list or one number, and names as a list or one string, the component's output is the coefficient times the product of the powers of the inputs, and its partials are the derivatives wherever the powers are smooth.",
  "any number of inputs, all real powers, coefficients, shapes and input values",
  "All numbers of inputs, powers and points; the operators only use one or two inputs.",
  ["omtools/comps/arithmetic_comps/power_combination_comp.py:PowerCombinationComp", "omtools/utils/process_options.py"])
p("C92", "Fewer numbers than names",
  "When fewer coefficients or powers than names are given and setup accepts them, the partials are still the derivatives of what is computed.",
  "all lists of names, shorter lists of numbers, shapes and input values",
  "zip drops names silently; a wrong partial shows only for an input that nobody uses.",
  ["omtools/comps/linearcombination_comp.py:LinearCombinationComp", "omtools/comps/arithmetic_comps/power_combination_comp.py:PowerCombinationComp.compute_partials"])
p("C93", "LinearPowerCombinationComp with a matrix of powers",
  "Given names, a matrix with one row of powers for each term and one column for each input, and coefficients, the component computes the constant plus the sum of coefficient times product of powers, and its partials are the derivatives wherever the powers are smooth.",
  "all names, matrices, coefficients, constants, shapes and input values",
  "All dimensions and real powers.",
  ["omtools/comps/linearpowercombination.py:LinearPowerCombinationComp"])
p("C94", "One name may be given as a string",
  "The option in_names takes a string for a single input of that name (as its declared types say).",
  "all names",
  "Names of one letter, as in examples, behave as expected.",
  ["omtools/comps/linearpowercombination.py:LinearPowerCombinationComp.setup", "omtools/utils/process_options.py:get_names_list"])

# ---------------------------------------------------------------- training data
p("C95", "structure_data lists the grid points",
  "Row r of the returned training inputs is the grid point (one coordinate from each input) of entry r of the flattened outputs.",
  "any number of inputs of any lengths and values, outputs of the grid's size (times ny)",
  "A wrong order of axes shows only with several inputs, and shapes are right all the same.",
  ["omtools/utils/structure_data.py:structure_data"])
p("C96", "structure_data returns the range of every input",
  "The limits returned for an input are the least and the greatest of its values.",
  "any number of inputs of any lengths and values",
  "Inputs with one common range hide the difference.",
  ["omtools/utils/structure_data.py:structure_data"])

# ---------------------------------------------------------------- derivatives of implicit outputs
p("C97", "Derivatives of an implicit output are those of the solution",
  "When the inputs of an implicit component move, the solution of its residuals moves with the rate that solve_linear returns for the derivatives of the residuals (linearize); in reverse mode, with the rate that the returned sensitivities give. The solution need not be assumed to be differentiable.",
  "all histories, shapes, brackets, elementwise residuals with a single zero in the bracket and a non-zero derivative there, movements of the inputs",
  "A derivative is a limit and the solution has no formula; a check by differences has errors of the size of the tolerance.",
  ["omtools/comps/implicit_component.py:ImplicitComponent.linearize", "omtools/comps/implicit_component.py:ImplicitComponent.solve_linear", "omtools/comps/implicit_component.py:ImplicitComponent.solve_nonlinear"])
p("C98", "The matrices of total derivatives give every movement",
  "Solving the equations of a model once for each entry of each given variable yields matrices which, multiplied by the rates of the given variables, are the rates of all variables of the model. In particular the matrices linearize asks for are the derivatives of the residual in the inputs and in the output.",
  "all histories without self-reference, all components that obey the chain rule, all movements of any number of given and independent variables",
  "Arbitrarily many variables, shapes and components.",
  ["omtools/core/group.py:Group", "omtools/comps/implicit_component.py:ImplicitComponent.linearize"])

p("C99", "A subsystem is added with the name and promotions asked for",
  "add_subsystem(name, system, promotes, promotes_inputs, promotes_outputs) makes setup add the system to the OpenMDAO group once, under that name and with those promotions.",
  "all histories of calls",
  "Every kind of system and every combination of the keywords, in any model.",
  ["omtools/core/group.py:_post_setup", "omtools/core/group.py:Group.add_subsystem", "omtools/core/subsystem.py:Subsystem.initialize"])
p("C100", "Design variables are the independent variables marked as such",
  "Setup declares as design variables exactly the variables made by create_indep_var with dv=True, each once, under the name of the variable a component of the group has as output.",
  "all histories of calls",
  "Any number of independent variables, in models of any form and order.",
  ["omtools/core/group.py:_post_setup", "omtools/core/group.py:Group.create_indep_var", "omtools/core/indep.py:Indep.initialize"])
p("C101", "A model can be set up again",
  "When OpenMDAO runs setup again on a group that has been set up, as every further Problem.setup does, the same systems are added as the first time.",
  "all histories of calls, any number of runs",
  "Depends on counters kept in the objects of the graph between runs; no test sets a problem up twice.",
  ["omtools/core/group.py:_post_setup", "omtools/core/group.py:Group.__init__", "omtools/core/graph.py:topological_sort"])

p("C102", "A model computes the user's formulas and their derivatives",
  "After one pass every variable holds the value of the expression the user wrote for it, each call, index and indexed assignment read with its documented meaning; and the total derivatives obtained from the declared partials are the derivatives of that expression.",
  "all histories of calls, all shapes and keys, all values in the domains of the calls",
  "Joins the graph (naming, order, connections by name) with the values and derivatives of every component; tests evaluate a few models at a few points.",
  ["omtools/core/group.py:_post_setup", "omtools/core/output.py:ExplicitOutput", "omtools/core/variable.py:__getitem__", "omtools/std", "omtools/comps"])

p("C103", "An implicit component can be set up again",
  "When OpenMDAO runs setup again on an implicit component that has been set up, as every further Problem.setup does, and the user's setup makes the same calls, it succeeds again.",
  "all components and calls, any number of runs",
  "Depends on what the component and its internal group keep between runs; no test sets a problem up twice.",
  ["omtools/comps/implicit_component.py:_post_setup", "omtools/comps/implicit_component.py:ImplicitComponent.__init__", "omtools/core/graph.py:topological_sort"])
p("C104", "A group made by create_group has the systems its block describes",
  "After a create_group block that ends normally the child group has exactly the systems setup builds from the calls made in the block, and still exactly these after any number of further Problem.setup.",
  "all blocks with an acyclic graph, any number of runs of setup",
  "setup runs once at the end of the block and once more for every Problem.setup; that the later runs add nothing depends on counters kept in the graph.",
  ["omtools/core/group.py:Group.create_group", "omtools/core/group.py:_post_setup"])
p("C105", "An exception in a create_group block reaches the caller",
  "If a call in a create_group block raises, the exception that leaves the with statement is that one.",
  "all blocks and exceptions",
  "Needs an exception in a block whose group is half finished; tests only run valid models.",
  ["omtools/core/group.py:Group.create_group"])

p("C106", "Every example class has its own script",
  "generate_example_scripts writes every class called Example... or Error... of the example files to a script "
  "of its own: no script is overwritten by that of another class.",
  "all directories of example files and all class names",
  "Needs two classes whose names coincide after camel_to_snake, or two files one of whose names begins the other; "
  "the repository happens to have neither.",
  ["omtools/utils/generate_example_scripts.py:camel_to_snake", "omtools/utils/generate_example_scripts.py:get_example_file_name",
   "omtools/utils/generate_example_scripts.py:export_examples"])

p("C107", "linearize stores the derivatives of the residuals",
  "After linearize the partial derivatives an implicit component holds are those of its residuals, as functions of its "
  "inputs and outputs, at the inputs and outputs passed to linearize.",
  "all internal models whose components obey the chain rule, all sequences of calls before, all inputs and outputs",
  "Depends on which call last ran the internal model; the checks of the partials run the model first.",
  ["omtools/comps/implicit_component.py:ImplicitComponent.linearize", "omtools/comps/implicit_component.py:ImplicitComponent._set_values"])
p("C108", "The residuals do not depend on earlier calls",
  "The residuals apply_nonlinear and run compute depend only on the inputs and outputs passed to them, not on the calls made "
  "on the component before; and run with a trial value gives what apply_nonlinear gives with that value in outputs.",
  "all internal models, all sequences of apply_nonlinear, run and linearize before, all inputs and outputs",
  "The internal problem keeps the values of all its variables between calls; tests make one call on fresh components.",
  ["omtools/comps/implicit_component.py:ImplicitComponent._set_values", "omtools/comps/implicit_component.py:ImplicitComponent.run",
   "omtools/comps/implicit_component.py:ImplicitComponent.apply_nonlinear"])

p("C109", "Derivatives of models with nested groups",
  "A Group used as a subsystem of a Group computes its outputs by a pass over its own components, and the derivatives of all "
  "variables of both groups follow from the partials of all components: where every component obeys the chain rule, the linear "
  "equations of the components of all groups together have a solution and it is the derivative of every variable.",
  "all models with groups as subsystems, to any depth, all components and all values",
  "Needs components in two groups and derivatives through both; tests of nested groups compare values of a few models.",
  ["omtools/core/group.py:Group.add_subsystem", "omtools/core/group.py:Group.create_group",
   "omtools/core/subsystem.py:Subsystem"])

p("C110", "Operands that do not fit are rejected by the call",
  "An operator or function of omtools.std called with operands whose shapes, axes or subscripts do not fit its operation raises at "
  "the call; an accepted call can be computed.",
  "all calls, all shapes, axes and subscripts",
  "There is one test of a rejected call for each kind of mistake its author thought of; what is accepted is a set of operands.",
  ["omtools/core/variable.py:Variable.__add__", "omtools/std/reshape.py:reshape", "omtools/std/inner.py:inner",
   "omtools/std/expand.py:expand", "omtools/std/einsum.py:einsum", "omtools/std/reorder_axes.py:reorder_axes",
   "omtools/utils/einsum_utils.py:compute_einsum_shape"])

p("C111", "Derivatives of models with implicit components",
  "An ImplicitComponent used as a subsystem gives its output the value at which its residual is zero, and the derivatives of all "
  "variables of the model, of its groups and of the internal models of its implicit components follow from the partials of all "
  "components: the linear equations of all of them together, with residuals that do not move, have a solution and it is the "
  "derivative of every variable.",
  "all models with groups and implicit components as subsystems, all internal models, all values at which the equation has one "
  "zero in the bracket and its derivative in the output is not zero",
  "Needs an implicit component inside a model and derivatives through both; the tests of implicit components check values of a few "
  "equations.",
  ["omtools/comps/implicit_component.py:ImplicitComponent.solve_nonlinear",
   "omtools/comps/implicit_component.py:ImplicitComponent.linearize",
   "omtools/comps/implicit_component.py:ImplicitComponent.solve_linear",
   "omtools/core/implicit_output.py:ImplicitOutput.define_residual_bracketed", "omtools/core/group.py:Group.add_subsystem"])

p("C112", "Which components compute their value and their derivatives",
  "Once a call has returned and its component has been set up, compute delivers a value for all inputs, except: division by an "
  "entry that is zero; a power that is not a number; a constant array that neither broadcasts to the operand nor has as many entries; a sum or norm over an axis "
  "named twice; the extremum of no entries; inner over axes named twice or of different extents; outer of more than 26 axes; rotmat "
  "about another axis than x, y, z; reshape to another number of entries; if_else whose condition, or branch taken, has not exactly one entry; "
  "einsum whose operands have axes of different extents for one subscript, or whose output repeats a subscript or has one of no operand. "
  "compute_partials delivers the partials for all inputs, except: sech and arcsin of arrays with more than one axis; a product "
  "or quotient with a constant array unless that array has the shape of the operand (ones in front allowed); a power whose derivative is not a number, "
  "among them x**0 at 0; a norm that is zero or over an axis named twice; if_else whose condition has not exactly one entry or "
  "whose branch taken has not the shape () or (n,), n the number of entries of the first branch; einsum whose operands come in an order that C50, C51 rule out; and the exceptions above for division by a "
  "variable, extrema, inner, rotmat and einsum.",
  "all calls (einsum: arrays without axes of extent one, strings with an explicit output), all shapes, axes and constants, all input values",
  "The exceptions are sets of shapes and input values; a test tries one shape and one value.",
  ["omtools/comps/arithmetic_comps/power_combination_comp.py:PowerCombinationComp.compute_partials",
   "omtools/comps/single_tensor_sum_comp.py:SingleTensorSumComp.compute",
   "omtools/comps/vectorized_axiswise_pnorm_comp.py:VectorizedAxisWisePnormComp.compute_partials",
   "omtools/comps/reshape_comp.py:ReshapeComp.compute", "omtools/std/if_else.py:if_else"])

p("C113", "Constant arrays of another shape follow NumPy's broadcasting",
  "x + A, x - A and x * A with a constant array A whose shape broadcasts to that of x (axes compared from the last one on, extent one "
  "repeated) compute what NumPy computes, with the exact derivative.",
  "all shapes of x, all arrays whose shape broadcasts to it, all values",
  "A rule about pairs of shapes; the examples use arrays of the shape of x.",
  ["omtools/comps/linearcombination_comp.py:LinearCombinationComp.compute",
   "omtools/comps/arithmetic_comps/power_combination_comp.py:PowerCombinationComp.compute_partials",
   "omtools/core/variable.py:ElementwiseAddition.initialize", "omtools/core/variable.py:ElementwiseMultiplication.initialize"])

p("C114", "A conditional component can be set up",
  "ConditionalComponent, given a condition and two branches that are expressions (not inputs) of the same shape, sets up its inputs, "
  "its output and its partials.",
  "all sequences of calls that make the expressions, all choices of the three expressions",
  "The component is used by no test and no function; one try does not show that every choice of expressions fails.",
  ["omtools/comps/conditional_component.py:ConditionalComponent.setup",
   "omtools/utils/collect_input_exprs.py:collect_input_exprs"])

p("C115", "Every kind of number can be combined with an expression",
  "x + n, x - n, x * n, x / n, x ** n and the reflected forms mean the same for every Python or NumPy number n that stands for the same real "
  "number: an expression whose component can be built.",
  "all operators, all shapes, all numbers of the kinds bool, int, float, complex, Fraction, Decimal, numpy.float64, numpy.int64",
  "The operators accept every numbers.Number, the options of the components only int and float; the tests use literals.",
  ["omtools/core/variable.py:ElementwiseMultiplication.initialize", "omtools/core/variable.py:Variable.__rmul__",
   "omtools/comps/linearcombination_comp.py:LinearCombinationComp.initialize",
   "omtools/comps/arithmetic_comps/power_combination_comp.py:PowerCombinationComp.array_initialize",
   "omtools/utils/process_options.py:scalar_types"])

p("C116", "matvec and matmat accept matrices and nothing else",
  "matvec(A, x) and matmat(A, B) raise at the call unless A is a matrix whose second extent is the first extent of x or B; a call that returns can be "
  "set up and computed and means the product.",
  "all shapes with any number of axes, all entries",
  "The checks look at the first two extents only, and the tests pass matrices; arrays with more axes fail later, in setup or in compute, depending on the other extents.",
  ["omtools/std/matvec.py:matvec", "omtools/std/matmat.py:matmat", "omtools/comps/matvec_comp.py:MatVecComp.setup",
   "omtools/comps/matvec_comp.py:MatVecComp.compute", "omtools/comps/matmat_comp.py:MatMatComp.setup"])

p("C117", "cross accepts an axis counted from the end",
  "cross(a, b, axis) with a negative axis, counted from the end as everywhere in NumPy, is the cross product along that axis, with exact derivatives.",
  "all shapes, all negative axes with extent three, all entries",
  "The tests use axes counted from the start; the subscripts are sliced from an alphabet of ten letters, so what happens depends on the number of axes.",
  ["omtools/std/cross.py:cross", "omtools/comps/cross_product_comp.py:CrossProductComp.setup",
   "omtools/comps/cross_product_comp.py:CrossProductComp.compute_partials"])

p("C118", "An axis may be written as a number or as a tuple",
  "In sum, average, pnorm, max, min, dot and inner the axis z and the tuple (z,) mean the same, as in NumPy: the call returns the same expression, and its component can be built.",
  "all functions with an axis argument, all shapes, all axes, all forms",
  "Each test uses the form its function is documented with; a wrong form passes the call and fails when the model is set up.",
  ["omtools/std/sum.py:sum", "omtools/std/average.py:average", "omtools/std/pnorm.py:pnorm", "omtools/std/max.py:max",
   "omtools/std/min.py:min", "omtools/std/dot.py:dot", "omtools/std/inner.py:inner"])

p("C119", "An expression keeps the keyword arguments it is created with",
  "Variable(name=..., shape=..., val=..., units=...) returns an expression with each field as given, and the default (a generated name, shape (1,), no units) where it is not given.",
  "all combinations of keyword arguments in any order, all values",
  "No test creates a Variable with a name; the code path reads an undefined name.",
  ["omtools/core/variable.py:Variable.__init__", "omtools/core/variable.py:Variable.initialize"])

out = os.path.join(os.path.dirname(os.path.abspath(__file__)), "..", "properties.jsonl")
with open(out, "w") as f:
    for q in P:
        f.write(json.dumps(q) + "\n")
print(len(P))
