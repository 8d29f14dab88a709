"""Writes MANIFEST.json: one claim per property."""
import json
import os

CLAIMS = []


def claim(prop, status, theorems, note=""):
    CLAIMS.append({"property": prop, "status": status,
                   "theorems": theorems, "note": note})


# --- graph ---------------------------------------------------------------
claim("C01", "proved", ["C01_order_respects_dependencies",
                        "C01_group_setup_schedules"],
      "Nodes below the root are tidy: at most eight direct dependencies "
      "(independent variables of the group included), or at most one redundant "
      "dependency, with no or many independent variables (SpecSetup.v); see C04 for why.")
claim("C02", "proved", ["C02_scheduled_exactly_once",
                        "C01_group_setup_schedules"], "Same scope as C01.")
claim("C03", "proved", ["C03_pruning_keeps_order", "C03_pruning_exact"])
claim("C04", "partial", ["C04_pruning_any_width_refuted", "C04_actual"],
      "REFUTED: nine direct dependencies suffice for a wrong execution order. "
      "C04_actual: up to 128 dependencies, pruning a node removes exactly the "
      "redundant ones if and only if CPython lists their positions in "
      "ascending order.")
claim("C05", "proved", ["C05_indeps_run_first",
                        "C01_group_setup_schedules"])
claim("C06", "proved", ["C06_subsystem_order", "C06_subsystem_order_plain"],
      "Exempt: an output defined after the subsystem was added by an "
      "expression that depends on the subsystem.")
claim("C07", "proved", ["C07_no_internal_error", "C07_wide_nodes_refuted"],
      "Tidy nodes as in C01. The second theorem shows that some condition is needed: nine dependencies suffice.")
claim("C08", "proved", ["C08_second_setup_adds_nothing"])
claim("C09", "proved", ["C09_cyclic_graphs_rejected",
                        "C09_forward_pass_terminates_iff_acyclic",
                        "C09_calls_keep_graph_acyclic",
                        "C09_calls_terminate",
                        "C01_order_respects_dependencies"])
claim("C10", "proved", ["C10_undefined_output_rejected",
                        "C10_group_undefined_output_rejected",
                        "C01_group_setup_schedules"],
      "RuntimeError instead of ValueError is possible only when two systems "
      "also have the same name.")
claim("C11", "proved", ["C11_registered_at_most_once",
                        "C11_inputs_never_registered",
                        "C11_failed_register_changes_nothing",
                        "C11_register_effect"])
claim("C14", "partial", ["C14_equal_output_names_rejected",
                         "C14_equal_names_refuted", "C14_actual"],
      "REFUTED for an input and an output of the same name; two outputs of "
      "the same name are rejected. C14_actual: setup succeeds exactly when "
      "every output is given a value and no two systems get the same name; "
      "names of inputs play no part.")
claim("C16", "proved", ["C16_run_computes_expressions"],
      "Meaning of each operation is a parameter; the component properties "
      "supply it. Conditions on names are in SpecRun.names_ok.")
claim("C25", "partial", ["C25_define_after_definition_rejected",
                         "C25_assign_after_define_refuted", "C25_actual"],
      "REFUTED for an indexed assignment after define: it is accepted and what "
      "was given to define is lost; the other three orders are proved.")
claim("C27", "proved", ["C27_define_leaves_no_cycle"])
claim("C28", "partial", ["C28_residual_uses_replaced_partial",
                         "C28_residual_uses_refuted", "C28_actual"],
      "REFUTED when a node depends on the output both directly and through "
      "another dependency; proved otherwise. C28_actual says, for every acyclic "
      "graph, which uses are replaced: all but those below an entry listed right "
      "after the output.")
claim("C65", "partial", ["C65_renaming_keeps_connections",
                         "C65_renaming_indexed_source_refuted"],
      "REFUTED for sources of indexed assignments; proved for every other "
      "use.")
claim("C15", "proved", ["C15_branch_sort_stable_permutation"])
# --- names ---------------------------------------------------------------
claim("C12", "proved", ["C12_names_unique", "C12_names_wellformed"])
claim("C13", "partial", ["C13_names_unique_unbounded_refuted",
                         "C13_collisions_exact"],
      "REFUTED in general: the exact collision condition is proved instead.")

# --- options -------------------------------------------------------------
claim("C62", "proved", ["C62_values_read_are_valid", "C62_read_errors",
                        "C62_bounds_honoured", "C62_nan_bounds_refuted"],
      "Bounds mean 'not exceeded'; the last theorem shows that NaN passes "
      "every numeric bound.")
claim("C63", "proved", ["C63_failed_set_changes_nothing",
                        "C63_set_succeeds_iff_valid", "C63_set_then_get",
                        "C63_update_stops_at_first_failure"])
claim("C64", "partial", ["C64_invalid_default_refuted",
                         "C64_malformed_declaration_changes_nothing"],
      "REFUTED: an invalid default always stays readable; malformed "
      "declarations do leave no trace.")
claim("C66", "partial", ["C66_listed_types_admit_nothing_refuted",
                         "C66_tuple_of_types_admits_instances"],
      "REFUTED for a list or set of types; proved for tuples.")

# --- reordering ----------------------------------------------------------
claim("C36", "proved", ["C36_reshape", "C36_reshape_size_mismatch_raises",
                        "C36_transpose", "C36_reorder_axes",
                        "C36_reorder_axes_rejects"])
claim("C37", "proved", ["C37_expand_scalar", "C37_expand_array"])
claim("C38", "partial", ["C38_expand_permuted_letters_wrong",
                         "C38_expand_letters_refuted",
                         "C38_expand_actual_meaning"],
      "REFUTED: the order of the input letters is ignored; the last theorem "
      "says what expand computes instead.")

# --- reductions ----------------------------------------------------------
claim("C39", "proved", ["C39_sum_all", "C39_sum_elementwise", "C39_sum_axes",
                        "C39_average_all", "C39_average_elementwise",
                        "C39_average_axis"],
      "Axis sets leave at least one axis; averages over several axes are C40.")
claim("C40", "partial", ["C40_average_two_axes_refuted",
                         "C40_average_no_axes_refuted"],
      "REFUTED: two or more axes always raise in setup.")

# --- products ------------------------------------------------------------
claim("C41", "proved", ["C41_matvec", "C41_matmat", "C41_matmat_vector",
                        "C41_mismatched_sizes_rejected"],
      "Operands of distinct names; first operand of rank two.")
claim("C42", "proved", ["C42_vector_inner", "C42_dot_vectors",
                        "C42_dot_tensors", "C42_outer", "C42_inner",
                        "C42_inner_vectors", "C42_inner_needs_axes"],
      "Operands of distinct names; outer up to total rank 26; negative axes of "
      "inner: C70.")
claim("C43", "proved", ["C43_cross", "C43_cross_rejects"],
      "Rank up to 11 (the component's alphabet has ten letters).")
claim("C44", "proved", ["C44_rotmat", "C44_other_axis_rejected"])

# --- einsum --------------------------------------------------------------
claim("C49", "proved", ["C49_einsum_dense"],
      "Distinct operand names, explicit output; every operand rank at most "
      "the number of letters the subscripts leave unused.")
claim("C50", "partial", ["C50_sparse_distinct", "C50_sparse_repetitions_last",
                         "C50_dense_before_sparse_raises",
                         "C50_new_after_repeated_raises", "C50_sparse_refuted", "C50_actual"],
      "REFUTED: compute_partials raises when an operand without a letter of the "
      "output precedes one that has such a letter (the list of index patterns "
      "is addressed by the wrong counter), and when a new operand follows a "
      "repeated one; proved exact when such operands and repetitions come last, "
      "for positive extents and enough unused letters. C50_actual: these orders "
      "are exact and all others have no derivative.")
claim("C51", "partial", ["C51_repeated_operands_refuted",
                         "C51_new_after_repeated_raises",
                         "C51_repetitions_last", "C51_actual"],
      "REFUTED: compute_partials raises as soon as a new operand follows a "
      "repeated one; proved exact when the repetitions come last. C51_actual: "
      "there is no third case.")
claim("C52", "proved", ["C52_tuples_to_string", "C52_einsum_new_api"])

# --- operators and elementary functions -----------------------------------
claim("C29", "proved", ["C29_expressions", "C29_number_right",
                        "C29_number_left", "C29_array_right"],
      "Two expressions of distinct names (equal names: C67).")
claim("C30", "proved", ["C30_product", "C30_quotient", "C30_number_right",
                        "C30_number_times", "C30_number_over", "C30_power",
                        "C30_negation"],
      "Two expressions of distinct names (equal names: C67).")
claim("C31", "partial", ["C31_multiplying_by_array_refuted",
                         "C31_multiplying_by_array_actual"],
      "REFUTED: compute_partials multiplies the constant array in place; the "
      "first derivative is already wrong, later values too.")
claim("C32", "partial", ["C32_exponent_array_refuted",
                         "C32_only_first_exponent"],
      "REFUTED: only the first exponent of a one-dimensional array is used.")
claim("C33", "proved", ["C33_elementary"],
      "Any shape; sech and arcsin for rank one (others: C69).")
claim("C34", "partial", ["C34_unsupported_operands_refuted", "C34_actual"],
      "REFUTED: an expression without a build function results; only the "
      "reflected forms raise.")
claim("C35", "proved", ["C35_shapes_must_match", "C35_division_by_number"])
claim("C67", "partial", ["C67_same_expression_twice_refuted",
                         "C67_extremum_repeated_refuted",
                         "C67_if_else_repeated_refuted",
                         "C67_operand_twice_refuted"],
      "REFUTED: the component declares the same input twice, so setup raises.")
claim("C68", "partial", ["C68_constant_arrays_refuted", "C68_actual"],
      "REFUTED: an array on the left gives an array of expressions; x/A raises "
      "unless A has one entry.")
claim("C69", "partial", ["C69_higher_rank_refuted", "C33_elementary"],
      "REFUTED: sech and arcsin raise for two or more axes.  C33_elementary: "
      "the other functions are right for every rank, these two for one axis.")

claim("C45", "proved", ["C45_C46_elementwise", "C45_C46_axis",
                        "C45_C46_all_entries", "C45_rejected"],
      "Distinct operand names (equal names: C67); up to twelve axes; the "
      "reduced extent is positive.")
claim("C46", "proved", ["C45_C46_elementwise", "C45_C46_axis",
                        "C45_C46_all_entries"],
      "Derivatives asked at the point just computed (otherwise C48).")
claim("C47", "proved", ["C47_orders", "C47_all_entries", "C47_along_axes"],
      "Integer orders; at least one axis left; up to 26 axes; derivatives "
      "asked at the point just computed (otherwise C48).")
claim("C48", "partial", ["C48_axis_refuted", "C48_all_entries_refuted",
                         "C48_norm_refuted", "C48_axis_actual",
                         "C48_all_entries_actual", "C48_axis_norm_actual",
                         "C48_not_computed_yet"],
      "REFUTED: axis-wise and single-array extremum return the derivatives "
      "of the point computed last; the p-norm mixes the kept norm with the "
      "current point, which is right exactly when no norm changed.")

claim("C53", "partial", ["C53_select", "C53_shapes", "C53_arrays_refuted"],
      "REFUTED for branches of several elements: setup raises.  Proved for "
      "one-element operands of distinct names.")
claim("C54", "partial", ["C54_refuted"],
      "REFUTED: the derivative declared for the selected branch is its value; "
      "it is right exactly when that value is one.")
claim("C70", "partial", ["C70_value", "C70_refuted", "C70_actual"],
      "REFUTED: the value is right, the derivative with a negative axis wrong. "
      "C70_actual: for axis lists of one sign each, the shapes for which it is "
      "right nevertheless; lists that mix signs are not covered.")

claim("C17", "proved", ["C17_selects"],
      "int and slice entries; after any earlier requests.")
claim("C18", "proved", ["C18_rejected", "C18_accepted"],
      "C18_accepted: when no earlier request was made or one succeeded "
      "(otherwise C71).  Other entries: C72.")
claim("C19", "proved", ["C19_reuse"])
claim("C20", "partial", ["C20_refuted", "C20_actual"],
      "REFUTED: the placeholder value has one element.  Only keys selecting "
      "exactly the first entry of a vector work.")
claim("C71", "partial", ["C71_refuted", "C71_actual"],
      "REFUTED: when the first request fails inside NumPy, every later one "
      "raises too.")
claim("C72", "partial", ["C72_refuted", "C72_actual", "C72_accepted", "C72_alone"],
      "REFUTED: other entries of a tuple are dropped, and a slice without an "
      "end takes the extent of the axis numbered by its place in the tuple as "
      "written.  Proved for keys that are not tuples.")

claim("C21", "proved", ["C21_disjoint", "C21_accepted"],
      "Tuple keys, and single entries on one axis; no negative integer on its "
      "own (C24), no earlier overlap error (C23).")
claim("C22", "proved", ["C22_assembles"], "As C21.")
claim("C23", "partial", ["C23_overlap_refuted", "C23_actual", "C23_other_rejections"],
      "REFUTED: after an overlap error the expression is assigned all the "
      "same, and the declared derivatives are wrong.  C23_actual: each entry "
      "holds the last expression assigned to it, accepted or reported, and the "
      "derivatives are right exactly for the expressions nothing is written "
      "over.  Other errors only leave a dependency behind.")
claim("C24", "partial", ["C24_bounds", "C24_negative_refuted"],
      "REFUTED for a negative integer on its own: accepted whatever its size, "
      "then setup raises.  Proved for all other keys.")
claim("C73", "partial", ["C73_refuted", "C73_actual"],
      "REFUTED: a single entry indexes the flattened array, counting along the "
      "first axis.")
claim("C26", "proved", ["C26_agree", "C26_int_shape", "C26_other_shapes"],
      "Shapes given as tuples; an int or a list is accepted with numbers only "
      "and stored as it is.")

claim("C56", "proved", ["C56_bracketed_root"],
      "Exact reals; the component has one residual (with several: C58, C78).")
claim("C57", "partial", ["C57_refuted", "C57_actual"],
      "REFUTED: the argument is ignored; always 100 steps.")
claim("C58", "partial", ["C58_refuted", "C58_actual"],
      "REFUTED: only the last bracket is kept; the solve raises for every "
      "component with a bracketed and a second output.")
claim("C59", "proved", ["C59_forward", "C59_reverse"])
claim("C60", "proved", ["C60_inputs", "C60_terminates"],
      "For every component that is set up without an exception; terminates "
      "on every acyclic graph.")
claim("C61", "proved", ["C61_residual_roots"])
claim("C74", "partial", ["C74_refuted", "C74_actual"],
      "REFUTED: the input is added twice, which raises; whenever setup "
      "succeeds no input is shared.")
claim("C75", "partial", ["C75_refuted", "C75_actual", "C75_internal_start",
                         "C75_guess_recorded"],
      "REFUTED: the starting value is the val attribute of the residual "
      "expression.  The internal problem starts at the val given to "
      "create_implicit_output, or at one when every residual is bracketed.")
claim("C76", "partial", ["C76_refuted", "C76_actual"],
      "REFUTED: only derivatives with respect to the residual's own output "
      "and to declared inputs are stored.")
claim("C77", "partial", ["C77_coupled_refuted", "C77_repeated_refuted", "C77_actual"],
      "REFUTED: off-diagonal entries are ignored and the result is added to "
      "what the vector held.  The diagonal case is C59.")
claim("C78", "partial", ["C78_refuted", "C78_actual"],
      "REFUTED: setup raises KeyError.")
claim("C79", "partial", ["C79_refuted", "C79_actual"],
      "REFUTED: the rejected expression stays marked as a residual and setup "
      "raises KeyError.  Histories without exceptions: C61.")

claim("C55", "partial", ["C55_recorded_shape", "C55_one_column_refuted", "C55_elementary_shape"],
      "REFUTED for matmat by a vector or a one-column matrix: the recorded shape is (m,1), "
      "the component's output (m,). Proved for every other call of omtools/std and every operator.")
claim("C80", "partial", ["C80_inputs", "C80_vector_operand", "C80_sum_actual", "C80_inner_actual",
                         "C80_refuted"],
      "REFUTED: sum and average declare all inputs with the shape of the last operand, inner of two "
      "vectors with that of the first, without checking. Proved for every other call (vector operands "
      "of matmat connect, if_else when val has the shape of the expression).")
claim("C81", "partial", ["C81_define", "C81_actual", "C81_refuted"],
      "REFUTED: define does not compare shapes; the component's output has the shape of the expression. "
      "Proved for equal shapes: value and derivative of the pass-through component.")
claim("C82", "partial", ["C82_with_val", "C82_actual", "C82_refuted"],
      "REFUTED: building raises for a vector operand whose val has another size, which is the case for "
      "every computed vector of more than one entry.")
claim("C83", "partial", ["C83_no_axes", "C83_every_axis_refuted", "C83_norm_refuted"],
      "REFUTED: setup raises when every axis is listed.")
claim("C84", "partial", ["C84_which_build", "C84_refuted"],
      "REFUTED; the exact condition is proved for every call except einsum in the sparse format and "
      "reorder_axes with strings that are not letters around one arrow.")

claim("C85", "partial", ["C85_refuted", "C85_first_setup_decides", "C85_super_first_drops_all",
                         "C85_own_setup", "C85_setup_not_inherited"],
      "REFUTED: the wrapper of the first setup that ends adds the systems, and nothing defined later "
      "is added, without an error. What is added is characterised for every hierarchy.")
claim("C86", "partial", ["C86_combination_within", "C86_polynomial_value", "C86_missing_input_actual",
                         "C86_refuted"],
      "REFUTED where an input has power zero in some term (because the term does not list it) and an "
      "entry zero: the partial is 0 * 0**-1. Value and derivatives proved wherever every power, these "
      "zeros included, is smooth. Giving in_names, powers and coeffs directly: C93.")

claim("C87", "proved", ["C87_documented", "C87_parts", "C87_assembled", "C87_defined"],
      "The documented calls are listed in SpecStd.v with the hypotheses of the theorems about each "
      "operation; calls refuted elsewhere are not among them. Each meaning determines the result "
      "(determined), so none is vague.")
claim("C88", "proved", ["C88_model_derivatives"],
      "Hypotheses as for C16 (tidy nodes, no self reference, names as OpenMDAO requires), "
      "sizes of connected variables agree, every component obeys the chain rule where it is evaluated "
      "(C87). Explicit models only.")
claim("C89", "proved", ["C89_reverse"],
      "Hypotheses as for C88. The systems are those setup adds; the given variables listed are exactly "
      "those read and written by no system.")

claim("C90", "proved", ["C90_linear", "C90_values_needed", "C90_names_needed", "C90_names_distinct"],
      "in_vals has no default: without it setup raises (the example at the end of the file does), with "
      "fewer values than names compute raises.")
claim("C91", "proved", ["C91_power"],
      "For numbers as coefficient (arrays: C31). in_vals is required as for C90.")
claim("C92", "partial", ["C92_linear_actual", "C92_power_actual", "C92_refuted"],
      "REFUTED for PowerCombinationComp: the partial with respect to an input without a power is the "
      "output itself, not zero. LinearCombinationComp leaves such names out.")
claim("C93", "proved", ["C93_matrix", "C93_missing"],
      "Powers of zero included: they are smooth away from zero only, as C86 says.")
claim("C94", "partial", ["C94_refuted", "C94_one_character"],
      "REFUTED for LinearPowerCombinationComp, which iterates over the string: one input for each "
      "character. The other two components treat the string as one name (C90, C91).")

claim("C95", "partial", ["C95_one_input", "C95_actual", "C95_refuted"],
      "REFUTED for two or more inputs of any lengths: the array of coordinates is cut into rows without "
      "transposing it. C95_actual says what every entry is; one input is right.")
claim("C96", "partial", ["C96_actual", "C96_refuted"],
      "REFUTED: all inputs get the least and greatest value of all inputs together (a known kludge, L24).")

claim("C97", "proved", ["C97_bracketed", "C97_several"],
      "For residuals whose entries depend on their own output entry only; coupled residuals are C59, C76 "
      "(refuted). Values of the derivatives of the residual: C98.")
claim("C98", "proved", ["C98_matrices", "C98_residual"],
      "C98_residual is for any model the group methods build, read as internal model of an implicit output "
      "(a variable that no system writes).")

claim("C99", "partial", ["C99_actual", "C99_refuted"],
      "REFUTED for systems that are not Groups: they are added as 'comp_' + name with all variables promoted, "
      "whatever was asked. Groups get what was asked (C99_actual).")
claim("C100", "proved", ["C100_design_variables"],
      "Hypotheses as for C01.")
claim("C101", "partial", ["C101_actual", "C101_refuted"],
      "REFUTED: after the first setup no later one adds any system, because the root of the graph counts as "
      "visited already. C101_actual: whatever calls are made, a later setup that ends adds nothing.")

claim("C102", "proved", ["C102_formulas"],
      "Hypotheses as for C88, with shapes instead of sizes, and every component the one its call, key or "
      "assignments build. denotes reads an expression with the meanings of SpecStd, SpecIndex and SpecSetitem: "
      "what it denotes is what the pass computes, and where every call is documented and gets operands in "
      "its domain every expression denotes something. The derivative along any differentiable curve of the "
      "given values is what the equations of the declared partials give; for components of the user's own "
      "subsystems the chain rule is assumed. Examples in MeaningExample.v (meaning_case).")

claim("C103", "partial", ["C103_actual", "C103_refuted"],
      "REFUTED: the second setup of any component with a residual raises. The internal group keeps the old "
      "residuals, so with the same calls the output is declared twice; and its own second setup adds no system, "
      "so no value can be given to any variable. C103_actual: whatever calls are made, no later setup succeeds. "
      "Design variables and constraints of the internal problem are left out (they could only add failures).")
claim("C104", "proved", ["C104_block_systems"],
      "OpenMDAO is taken to keep systems added outside of Problem.setup. The list is what group_setup computes "
      "for the state after the block, so the theorems about setup apply. Acyclicity: see C09.")
claim("C105", "partial", ["C105_actual", "C105_refuted"],
      "REFUTED: the finally clause runs setup of the half-finished group, whose own exception replaces the first, "
      "for instance ValueError (output not defined) for TypeError. C105_actual: which exception leaves the block.")

claim("C106", "partial", ["C106_refuted", "C106_files_refuted", "C106_actual", "C106_camel", "C106_who", "C106_letters"],
      "REFUTED: ExampleABC and ExampleAbc of one file share a script, and so do ExampleNewSum of ex_einsum.py and ExampleSum of "
      "ex_einsum_new.py; the later class overwrites the earlier. C106_actual, C106_camel: nothing is overwritten if no file name "
      "followed by '_' begins another and names differ in more than case and underscores, or are in camel case. "
      "C106_who, C106_letters: which names get which script. ASCII names; the text of the scripts is not modelled.")
claim("C107", "partial", ["C107_refuted", "C107_actual", "C107_after_run"],
      "REFUTED: linearize does not run the internal model. For the residual exp(exp(y)), apply_nonlinear at y = 0 and then linearize at "
      "y = 1 stores a wrong derivative. C107_actual: the values at which it computes (variables computed by the model are those of the "
      "last run). C107_after_run: if the last call that ran the model had the same inputs and outputs, the matrices exist and are the "
      "derivatives of every variable of the model, so also of the residuals. The model of the component is a history of Group calls "
      "in which the outputs are inputs (what define_residual turns them into); both readings of prob[name] = value are covered.")
claim("C108", "proved", ["C108", "C108_variables"],
      "For variables given that no component of the internal model writes; C108_variables: they are the inputs and outputs of the "
      "component, once each.")
claim("C109", "proved", ["C109", "C109_chain", "C109_exists", "C109_values"],
      "For groups whose inputs are promoted and whose promoted inputs are not among their outputs. C109_chain and C109_exists make "
      "a group a component that obeys the chain rule, so they apply again to a group of groups. How OpenMDAO connects promoted "
      "variables of equal names is trusted, not modelled.")
claim("C110", "partial", ["C110_accepted", "C110_reshape_refuted", "C110_inner_refuted", "C110_array_refuted"],
      "REFUTED: reshape to another number of entries, inner over axes of different extents and x + A with an array of more entries "
      "are accepted, and the component can never compute. C110_accepted: the exact condition under which each of the 21 calls "
      "returns an expression (einsum strings in NumPy's explicit form; matvec and matmat with a first operand of rank at most 2; see C116).")
claim("C111", "proved", ["C111", "C111_chain", "C111_exists", "C111_values"],
      "For implicit components with one output given by define_residual_bracketed whose residual entries each depend on their own "
      "entry of the output (otherwise the division in solve_linear is not the inverse). The output is the exact zero: the 100 halvings "
      "come within 2^-101 of the bracket's length of it (C97). The partials are the totals at the solution; a linearize without a "
      "run before it uses stale values (C107).")
claim("C112", "proved", ["C112_values", "C112_partials"],
      "Exact conditions (if and only if), call by call, for compute and for compute_partials. Not covered: einsum of arrays with axes of extent one (NumPy stretches them) or without '->'; "
      "for the partials also einsum strings that leave too few letters unused, sparse einsum of arrays without entries and constant factors of operands without entries. Values that NumPy reports as nan (log of a negative number, averages of nothing) count as delivered, "
      "except for powers.")
claim("C113", "partial", ["C113_sums", "C113_reshaped", "C113_product_refuted"],
      "REFUTED for products: x * A with an array of fewer entries than x has the right value, and computing the derivative always raises. "
      "Sums and differences proved, value and derivative, for every shape that broadcasts, and for every array with as many entries as x, "
      "which is taken in row-major order whatever its shape (NumPy would combine the axes). Other arrays never compute (C112).")
claim("C114", "partial", ["C114_refuted"],
      "REFUTED: setup always raises, because set() is called with three arguments. The theorem says which exception comes for which operands.")

claim("C115", "partial", ["C115_refuted", "C115_right", "C115_left", "C115_complex"],
      "REFUTED: x * numpy.int64(3), and any Fraction, Decimal or complex number, give an expression whose component cannot be built, because the options "
      "accept int and float only. C115_right, C115_left: exactly which kinds work (int, float, bool, numpy.float64; and x / n for a NumPy integer), and that "
      "they mean the real number they stand for. NumPy numbers on the left, where NumPy's own operator is asked first, are not covered.")

claim("C116", "partial", ["C116_refuted", "C116_returns", "C116_matvec_set_up", "C116_matvec_works", "C116_matmat_set_up", "C116_matmat_works"],
      "REFUTED: an array with three or more axes passes the check of the first two extents. The other theorems say exactly what follows, for arrays with entries: setup "
      "raises unless all further extents are one, and then compute raises unless the second extent is one as well; matrices, and columns with further axes of extent one, "
      "give the product with exact partials.")

claim("C117", "partial", ["C117_refuted", "C117_returns", "C117_set_up", "C117_small", "C117_works"],
      "REFUTED: a negative axis is accepted by the call, and setup raises for every array with at most five axes. C117_set_up, C117_works: exactly for which numbers of axes "
      "setup succeeds, and that the derivatives are then right only for arrays with ten axes and for the first axis of eleven (arrays with entries).")

claim("C118", "partial", ["C118_sum_refuted", "C118_average_refuted", "C118_extremum_refuted", "C118_dot_refuted", "C118_dot_vectors",
                          "C118_norm", "C118_norm_works", "C118_inner", "C118_inner_list", "C118_lists", "C118_built", "C118_documented"],
      "REFUTED for sum, average (tuples only), max, min and dot (numbers only): the other form is accepted by the call and cannot be built, or is rejected (dot). "
      "True for pnorm and for the members of inner's pair. What becomes of every form is stated exactly.")

claim("C119", "partial", ["C119_refuted", "C119_raises", "C119_kept"],
      "REFUTED: giving a name raises NameError (C119_raises: exactly then). Shape, val and units are kept, and fields not given have their defaults (C119_kept).")

CLAIMS.sort(key=lambda c: int(c["property"][1:]))
out = os.path.join(os.path.dirname(__file__), "..", "MANIFEST.json")
with open(out, "w") as f:
    f.write('{"claims": [\n')
    f.write(",\n".join(" " + json.dumps(c) for c in CLAIMS))
    f.write("\n]}\n")
