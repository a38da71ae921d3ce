{"claims": [
 {"property": "C01", "status": "proved", "theorems": ["C01_pattern_is_registered_set", "C01_overflow_aborts", "C01_registering_twice_changes_nothing"], "note": "all shapes, capacities and registration histories; lookup is exact, slots are a bijection onto 0..nValues-1, abort iff a row exceeds its capacity"},
 {"property": "C02", "status": "proved", "theorems": ["C02_lookup_total"], "note": "out-of-range accesses (UB) and non-termination (Loop) are explicit outcomes of the model and are excluded for every reachable pattern"},
 {"property": "C03", "status": "proved", "theorems": ["C03_matrix_is_a_map", "C03_unregistered_write_aborts"], "note": "refinement of every operation history to a function from positions to numbers, over any commutative ring; unregistered writes abort"},
 {"property": "C04", "status": "proved", "theorems": ["C04_symmetric_semantics", "C04_spec_symmetric"], "note": "refinement to a function on unordered positions, plus symmetry of that specification"},
 {"property": "C05", "status": "proved", "theorems": ["C05_product", "C05_transposed_product"], "note": "products equal the dense products, over any commutative ring"},
 {"property": "C06", "status": "partial", "theorems": ["C06_symmetric_product_refuted", "C06_symmetric_product_exact", "C06_symmetric_product_partial"], "note": "REFUTED as stated: components with |V[j]| <= 1e-20 are skipped (witness over exact rationals). C06_symmetric_product_exact says precisely what is computed; _partial is the claim for vectors whose skipped components are zero"},
 {"property": "C07", "status": "proved", "theorems": ["C07_entries_last_wins", "C07_text_round_trip"], "note": "last listed value wins, exact registered set, round trip relative to an abstract print/parse function g accepted by compare's tolerance"},
 {"property": "C08", "status": "proved", "theorems": ["C08_compare_iff", "C08_compare_refl"], "note": "exact characterisation of compare over the rationals (same shape, same pattern, all elements within th) and reflexivity"},
 {"property": "C09", "status": "partial", "theorems": ["C09_stream_flags_refuted", "C09_stream_flags_partial"], "note": "REFUTED: setf(old_flags) cannot clear the scientific flag. _partial: precision is restored; flags are restored iff the stream was already scientific"},
 {"property": "C10", "status": "partial", "theorems": ["C10_diagonal_partial", "C10_diagonal_reinit_refuted"], "note": "REFUTED for reinit (used for the blocks of a block matrix): no diagonals are registered. _partial: the constructor registers all of them"},
 {"property": "C11", "status": "partial", "theorems": ["C11_shared_pattern_partial", "C11_shared_pattern_unsafe", "C11_uncompressed_pattern_safe", "C11_shared_pattern_refuted"], "note": "REFUTED: setSparsityInfo with a compressed larger pattern keeps the old value array. _partial + _unsafe: safe iff the matrix held no values or the old array is large enough; always safe for patterns handed over before compression"},
 {"property": "C12", "status": "proved", "theorems": ["C12_number_of_offdiagonal_blocks", "C12_blocks_bijection", "C12_block_dimensions", "C12_bound_is_sharp"], "note": "bijection for every nb <= 362 plus the dimensions of every off-diagonal block; C12_bound_is_sharp shows that 363 blocks already alias"},
 {"property": "C13", "status": "proved", "theorems": ["C13_block_matrix_is_global_symmetric_matrix", "C13_capacity_condition"], "note": "refinement of every history of registrations and additions to one global symmetric matrix; unregistered additions abort"},
 {"property": "C14", "status": "partial", "theorems": ["C14_copy_partial", "C14_copy_total_rows_refuted"], "note": "REFUTED: the copying constructor adds the block sizes to the copied total, so nRows() is doubled. _partial: everything else is the same (blocks, patterns, zero values) and nRows is exactly twice the original"},
 {"property": "C15", "status": "proved", "theorems": ["C15_dof_table"], "note": "DofCollection model (Dof.cpp): any registration sequence for entities in 1..N; entity number 0 or > N is undefined behaviour in the model. 32 bit counters are modelled as unbounded."},
 {"property": "C16", "status": "proved", "theorems": ["C16_numbering"], "note": "Full initDofs / setConstrained / assignEquationNumbers sequence on a fresh storage; the pre() calls of the elements are an arbitrary list of registrations (types 0..7). Counters unbounded."},
 {"property": "C17", "status": "proved", "theorems": ["C17_fix_count"], "note": "Counter equals the number of distinct fixed DoFs."},
 {"property": "C18", "status": "partial", "theorems": ["C18_second_run_refuted", "C18_second_run_after_delete_partial", "C18_second_run_unconstrained_partial", "C18_mpc_doubled_refuted"], "note": "Refuted: _nConstrainedDofs is never reset by initDofs, so a second run stops at an assert (or CHECK); MPC collections register their equations again. Proved: with deleteSolutionData in between and no MPC collections, or without fixed DoFs, the second run reproduces the state."},
 {"property": "C19", "status": "proved", "theorems": ["C19_assembly_never_aborts", "C19_registered_positions", "C19_capacity_of_small_problems", "C19_capacity_limit"], "note": "Any sequence of assemblies of well-formed element matrices and MPC equations succeeds after initSolutionData; registered positions characterised exactly; the row capacity of 100 is a hypothesis (discharged for up to 100 equations, and shown to be needed). Element routines modelled: element.h/.cpp assembleK/C/M, SOLID81 assemble, PLANE41 assembleK, MPC loop."},
 {"property": "C20", "status": "proved", "theorems": ["C20_assembled_is_sum"], "note": "Holds for any number of preceding assemblies; meshes without repeated nodes."},
 {"property": "C21", "status": "partial", "theorems": ["C21_repeated_nodes_partial", "C21_repeated_nodes_refuted"], "note": "Violated: off-diagonal numbers of rows belonging to the same DoF are added once instead of twice. The exact assembled matrix is proved."},
 {"property": "C22", "status": "partial", "theorems": ["C22_damping_and_mass_partial", "C22_mass_refuted"], "note": "Violated: assembleM adds to the damping matrix. Proved: C is the sum of both, M stays zero."},
 {"property": "C23", "status": "partial", "theorems": ["C23_diagonal_partial", "C23_diagonal_refuted"], "note": "Violated for MPC multiplier rows and DoFs of nodes without elements; exact characterisation proved."},
 {"property": "C24", "status": "proved", "theorems": ["C24_linear_solution", "C24_never_undefined"], "note": "over any commutative ring and any exact solver: K*U=F+R in every row, prescribed values, free loads, MPC equations; with the Gauss solver every good problem ends in Ok or a reported error. Prescribed values with 0<|v|<=1e-20 are excluded (they are dropped in the product, C06)"},
 {"property": "C25", "status": "proved", "theorems": ["C25_gauss_solution", "C25_too_many_equations", "C25_dense_routine", "C25_rationals"], "note": "any ordered field with absolute value; out-of-range access, use of the uninitialised pivot index and division by zero are explicit outcomes and excluded; the solution is also unique"},
 {"property": "C26", "status": "partial", "theorems": ["C26_regular_rejected_refuted", "C26_nearly_singular_partial", "C26_singular_rejected"], "note": "refuted for entries below 1e-20; what failure does imply (a vector with component 1 that A maps below 1e-20 in every row) and rejection of all singular systems are proved"},
 {"property": "C27", "status": "proved", "theorems": ["C27_boundary_conditions"], "note": "all load and fix lists, any time factor, any previous contents; MPC rows untouched"},
 {"property": "C28", "status": "proved", "theorems": ["C28_time_moves_to_the_end", "C28_number_of_equal_steps"], "note": "exact rationals; all step requests, equilibrium calls anywhere in between, calls after the end included; number of equal steps given exactly"},
 {"property": "C29", "status": "partial", "theorems": ["C29_exact_number_of_steps_partial", "C29_ten_become_eleven_refuted", "C29_start_time_ignored_refuted"], "note": "holds for start time 0 in exact arithmetic; refuted in doubles with the default 10 steps (11 performed) and for start time <> 0 (current time starts at 0, not at the start time)"},
 {"property": "C30", "status": "partial", "theorems": ["C30_normalised_time_partial", "C30_negative_time_refuted", "C30_no_step_refuted"], "note": "holds for start <= 0 < end; refuted for start > 0 (negative normalised time) and end <= 0 (no step)"},
 {"property": "C31", "status": "partial", "theorems": ["C31_bookkeeping_partial", "C31_bookkeeping_at_the_end_partial", "C31_counted_twice_refuted"], "note": "holds while nextStep returns true and for the first call that returns false, fewer than 65535 iterations (uint16); refuted for a further call after the end"},
 {"property": "C32", "status": "partial", "theorems": ["C32_criterion_squared_partial", "C32_wrong_accuracy_refuted"], "note": "refuted: the mean increment is divided by the criterion and compared with the criterion again; proved instead: a load step is left in its first iteration with mean increment below the square of the criterion"},
 {"property": "C33", "status": "proved", "theorems": ["C33_full_boundary_conditions"], "note": "exact rationals, any elements (abstract internal state), any exact equation solver, end time > 0, end > start; every iteration is described by good_iter (assembled equations, increments, loads, fixes, MPC); loads at the end included"},
 {"property": "C34", "status": "partial", "theorems": ["C34_mpc_after_all_iterations_partial", "C34_equation_violated_refuted"], "note": "refuted for b <> 0 with more than one iteration; the exact value (number of iterations times b) is proved, hence the property for b = 0"},
 {"property": "C35", "status": "partial", "theorems": ["C35_equation_of_motion_partial", "C35_any_parameters_partial", "C35_wrong_velocity_refuted", "C35_prescribed_value_refuted"], "note": "Exact arithmetic, exact equation solver. With delta = 1/2 (the default) and zero prescribed values every step satisfies M u''+C u'+K u = F+R in all unknown rows and both Newmark formulas. For all other parameters: proved what is solved instead (K12^T Uc of prescribed values is missing; velocity uses delta and 1-delta exchanged); both refuted by runs of the model."},
 {"property": "C36", "status": "partial", "theorems": ["C36_number_of_steps_exact_partial", "C36_default_settings_refuted"], "note": "Exact arithmetic: exactly numberOfTimesteps steps, last at time1 (needs time0 < time1, at least one step). Refuted for doubles: the default settings (100 steps, 0..1) give 99 steps."},
 {"property": "C37", "status": "proved", "theorems": ["C37_every_array_has_one_owner", "C37_no_leak_no_double_free", "C37_allowed_calls_are_defined", "C37_result", "C37_others_unchanged", "C37_cause_of_dangling", "C37_view_shows_its_part", "C37_writing_to_a_view", "C37_copy_is_independent", "C37_separate_views"], "note": "All histories of dVec operations on a heap with explicit new/delete; bounds of views within 32 bits (see C71). Partly overlapping += sees its own results (Example vdemo_3)."},
 {"property": "C38", "status": "partial", "theorems": ["C38_same_size_partial", "C38_other_size_refuted"], "note": "Holds for assignments of the same size; an assignment of another size re-allocates and silently detaches the view (refuted)."},
 {"property": "C39", "status": "partial", "theorems": ["C39_dump_compare_partial", "C39_printed_digits_partial", "C39_dump_compare_refuted", "C39_small_load_refuted"], "note": "Holds when matrix numbers are below 1e6 and vector numbers are below 1e-3 or have at most 7 digits; refuted otherwise: vectors are printed with 7 digits but compared with 1e-10. Numbers are rationals, reading rounds to a nearest representable number."},
 {"property": "C40", "status": "proved", "theorems": ["C40_det", "C40_inverse", "C40_special_cases", "C40_inverse_small"], "note": "For every mathcomp fieldType and every size (determinant = mathcomp's Leibniz determinant; two-sided inverse); for sizes 1-3 also for every field. Exact arithmetic; the size 0 is excluded."},
 {"property": "C41", "status": "proved", "theorems": ["C41_packed", "C41_toMat", "C41_add"], "note": "With the uint16 arithmetic of comp/getLength/toMat; the bound is sharp (Example comp16_wraps: 362 rows)."},
 {"property": "C42", "status": "proved", "theorems": ["C42_BTDB", "C42_BTV", "C42_BV", "C42_symBV", "C42_AB", "C42_ATB"], "note": "Every commutative ring, every size, on flat arrays with the pointer walk of the code."},
 {"property": "C43", "status": "partial", "theorems": ["C43_same_when_zero_partial", "C43_accumulation_refuted"], "note": "Equal when the result is zero before the call; refuted otherwise: cblas_dgemv/dgemm are called with beta = 0 (overwrite) where the loops add."},
 {"property": "C44", "status": "proved", "theorems": ["C44_lines", "C44_every_file"], "note": "proved: read_lines of any mixture of terminators gives the lines; every byte string has this form (C44_every_file). The only condition, CR not followed by an empty line that ends with LF, is inherent (that is CR LF)."},
 {"property": "C45", "status": "proved", "theorems": ["C45_tokens_of_line", "C45_tokens_of_join", "C45_trim", "C45_trim_unique"], "note": "proved in both directions, with trimming characterised uniquely."},
 {"property": "C46", "status": "proved", "theorems": ["C46_long_enough", "C46_too_short"], "note": "proved: fields for long enough lines, exact behaviour for short ones in both modes."},
 {"property": "C47", "status": "partial", "theorems": ["C47_component", "C47_long_list_refuted"], "note": "partial: complete expansion for every list of fewer than 65536 numbers in rows of any width; with 65536 or more numbers the uint16 counter makes the read impossible (refuted for every such block, whatever follows)."},
 {"property": "C48", "status": "partial", "theorems": ["C48_equation_partial", "C48_other_numbers_refuted"], "note": "partial: read exactly for 0, 2 and 4 terms; for every other number of terms the loop `i < max(n_terms, 2)` with decreasing n_terms reads tokens outside the line (refuted for all of them, not just a witness)."},
 {"property": "C49", "status": "partial", "theorems": ["C49_renumbering_partial", "C49_permuted_refuted"], "note": "partial: proved for duplicate-free numberings where the largest number is not the number of nodes, and for 1..n in order; refuted for permutations of 1..n, which are returned unchanged while main.cpp stores positions in file order."},
 {"property": "C50", "status": "proved", "theorems": ["C50_dof_label_of_code", "C50_dof_code_of_label", "C50_dof_unknown", "C50_dof_enumerators", "C50_element_class", "C50_element_unknown", "C50_material", "C50_material_unknown", "C50_component", "C50_query_labels", "C50_dof_symbols"], "note": "proved for DoF types, elements, materials, components and query labels."},
 {"property": "C51", "status": "proved", "theorems": ["C51_partition_of_unity", "C51_nodal_values", "C51_derivatives"], "note": "proved for all local points; derivatives are Coquelicot's is_derive."},
 {"property": "C52", "status": "proved", "theorems": ["C52_line", "C52_quad", "C52_hexahedron", "C52_integral_unique"], "note": "proved: for every polynomial with exponents below 2k in each variable the table sum differs from the iterated Riemann integral by at most 1e-15 times the sum of the absolute coefficients."},
 {"property": "C53", "status": "proved", "theorems": ["C53_quad", "C53_hexahedron", "C53_chain_rule"], "note": "proved for every element and every local point with nonzero Jacobian; plus the chain rule."},
 {"property": "C54", "status": "proved", "theorems": ["C54_line", "C54_quad", "C54_parallelepiped", "C54_any_hexahedron", "C54_units"], "note": "proved: LINE and QUAD exactly (QUAD up to the printed weight sum), parallelepipeds for every order, any hexahedron from order 2 with an explicit error bound."},
 {"property": "C55", "status": "proved", "theorems": ["C55_force", "C55_stress", "C55_rigid_motion"], "note": "proved over the reals for every bar of nonzero length; forces, stress, rigid motions."},
 {"property": "C56", "status": "proved", "theorems": ["C56_volume", "C56_strains_and_stresses", "C56_virtual_work", "C56_all_nodal_values", "C56_rigid_motion", "C56_positive"], "note": "proved over the reals for every tetrahedron of nonzero volume: strains, stresses, the stiffness matrix as virtual work, rigid motions, positivity, and that every vector of nodal values is covered."},
 {"property": "C57", "status": "proved", "theorems": ["C57_equilibrium"], "note": "proved for elements without initial strains and stresses."},
 {"property": "C58", "status": "proved", "theorems": ["C58_flux", "C58_matrix", "C58_all_nodal_values"], "note": "proved; the matrix has the opposite sign of the usual conduction matrix (see C77)."},
 {"property": "C59", "status": "proved", "theorems": ["C59_area", "C59_strains_and_stresses", "C59_virtual_work", "C59_rigid_motion", "C59_all_nodal_values"], "note": "proved for plane strain (rigid motions for both states)."},
 {"property": "C60", "status": "proved", "theorems": ["C60_stiffness"], "note": "proved for all normals except those along (0,1,1) (see C79)."},
 {"property": "C61", "status": "proved", "theorems": ["C61_stress_is_energy_gradient", "C61_reference_state", "C61_pressure_is_mean_stress"], "note": "all three material laws, any differentiable curve of strains with positive determinant: d(W_iso + p(J-1)) = 1/2 S:dC; S = p*I at rest; S:C = 3pJ (the pressure unknown is the mean true stress)"},
 {"property": "C62", "status": "proved", "theorems": ["C62_material_tangent", "C62_tangent_of_components"], "note": "getDdDp_UP is the derivative of getS_UP along every curve of strains and pressures, for all six components and for every selection of components"},
 {"property": "C63", "status": "proved", "theorems": ["C63_solid81", "C63_plane41", "C63_measures"], "note": "C stored by update is F^T F (SOLID81, PLANE41); J_C, invC_C, IC_C are |det F|, inverse and invariants"},
 {"property": "C64", "status": "partial", "theorems": ["C64_solid81_strain", "C64_solid81_couchy_value", "C64_solid81_couchy_partial", "C64_solid81_couchy_refuted", "C64_solid81_pk2_refuted", "C64_plane41_strain_and_pk2", "C64_plane41_couchy_value", "C64_plane41_couchy_refuted", "C64_plane41_mean_refuted", "C64_plane41_mean_pk2", "C64_solid81_mean_strain"], "note": "REFUTED: SOLID81 adds the pressure twice to COUCHY and PK2 (exact value proved; right only for p = 0); PLANE41 COUCHY is F^T S F / J and ignores the scale, so GP_MEAN returns a sum. Right: C, E for both, PK2 for PLANE41, means of the correct queries"},
 {"property": "C65", "status": "proved", "theorems": ["C65_equations", "C65_pre", "C65_other_dofs", "C65_rotation", "C65_rotation_spec"], "note": "The model of pre()/update() over the reals, with node positions and the current solution as functions. C65_equations: update() on the equations made by pre() (C65_pre) or an earlier update() gives, for each slave and DoF in order, the equation whose coefficients are the partial derivatives (Coquelicot is_derive along curves) of the gap function and whose right-hand side makes it the Newton equation; between 0 and the threshold the same up to 2e-10/2e-7 relative bounds. C65_rotation/_spec: the matrix is the exponential rotation, orthogonal, determinant 1, fixes its axis, angles add. C65_other_dofs: Fatal for other DoFs."},
 {"property": "C66", "status": "proved", "theorems": ["C66_curves", "C66_chosen", "C66_equilibrium"], "note": "The model runs pre() and any list of process() calls on the DoF tables of the numbering layer (after any init sequence) with arbitrary vectors R; the file is a list of lines, its availability an input. C66_curves gives curves and file rows for every node set; C66_chosen the automatic choice; C66_equilibrium composes with the linear solution of C24. Number formatting is not modelled."},
 {"property": "C67", "status": "proved", "theorems": ["C67_ownership", "C67_new_nodes", "C67_new_elements"], "note": "Refinement of the storage's pointer tables and heap by a machine that only counts objects. Objects are allocated at fresh addresses; a use or deletion of a released address is UB in the model. Calls outside the stated contract are treated in C87 and C88. Contents of the objects are not part of this model."},
 {"property": "C68", "status": "proved", "theorems": ["C68_files", "C68_names", "C68_queries"], "note": "Round trip: the tokens written by the model of the writer are read back by an independent strict reader (SpecVtk.read_vtk) as exactly the expected contents (want_file), for pre's file and every process file; file names, overwriting and untouched files included; array names distinct; written queries characterised. A number is printed by an arbitrary function pr (operator<<, six digits). Tokens stand for the text (white space and line breaks are not modelled; the four header lines are single tokens). Hypotheses: known shapes, node numbers in range, fewer than 2^32 nodes and list entries, vectors at least as long as the number of equations, elements of one type answer the same queries. A file that cannot be opened is not modelled (the code writes nothing and reports nothing)."},
 {"property": "C69", "status": "partial", "theorems": ["C69_compare_accepts_nan_refuted"], "note": "REFUTED: a matrix with NaN compares equal to one with 1.0 (binary64 primitives, vm_compute)"},
 {"property": "C70", "status": "partial", "theorems": ["C70_doubles_miss_the_end_refuted"], "note": "refuted by computation with IEEE doubles: overshoot, undershoot and no movement"},
 {"property": "C71", "status": "partial", "theorems": ["C71_view_inside_partial", "C71_view_inside_refuted"], "note": "The assert is evaluated in uint32: start = 2^32-1, size = 2 passes. Proved when start+size < 2^32."},
 {"property": "C72", "status": "partial", "theorems": ["C72_own_part_refuted", "C72_own_part_through_temporary_partial"], "note": "operator= deletes the memory before copying from it when the sizes differ: undefined. Expressions, which go through a temporary, are proved to work."},
 {"property": "C73", "status": "proved", "theorems": ["C73_cdb_roundtrip"], "note": "proved for both element table formats and repeated component names; numbers up to nine digits, printed doubles abstract (20 characters, read back by stod)."},
 {"property": "C74", "status": "partial", "theorems": ["C74_ends_partial", "C74_blank_line_refuted", "C74_short_command_refuted"], "note": "partial: termination proved for every file (unless a format line declares 65536 or more columns); reading outside is refuted by witnesses (blank line in a table, records with too few tokens)."},
 {"property": "C75", "status": "proved", "theorems": ["C75_reported_increments_add_up", "C75_later_iterations_report_nothing"], "note": "proved in exact arithmetic for fewer than 65536 iterations in total (uint16 counter)."},
 {"property": "C76", "status": "partial", "theorems": ["C76_reported_stress_refuted", "C76_second_assembly", "C76_assembling_twice_refuted"], "note": "violated: the thermal strain is not subtracted before computing the reported stress, and buildK stores the thermal strain in the element so that a second buildK doubles the load. Both refuted by a witness; the doubling is proved for every element."},
 {"property": "C77", "status": "partial", "theorems": ["C77_GRADT_partial", "C77_GRADT_refuted", "C77_semidefinite_refuted"], "note": "violated: makeC uses -k so the matrix is negative semidefinite for positive volume; GRADT divides the flux by k without changing the sign. Both refuted; GRADT proved to be minus the gradient."},
 {"property": "C78", "status": "partial", "theorems": ["C78_plane_stress_partial", "C78_plane_stress_refuted", "C78_second_update", "C78_repeated_update_refuted"], "note": "violated: plane stress uses E*(1-my^2) instead of E/(1-my^2), and update does not clear strains and stresses. Both refuted; exact factors proved."},
 {"property": "C79", "status": "partial", "theorems": ["C79_every_normal_refuted", "C79_failing_normals_partial"], "note": "violated for normals along (0,1,1), where the auxiliary vector is parallel to the normal; proved that these are the only failing ones."},
 {"property": "C80", "status": "proved", "theorems": ["C80_nodal_forces", "C80_consistent_tangent"], "note": "residual = -integral of P grad N; stiffness = -derivative of the residual, for any curve of states with regular F"},
 {"property": "C81", "status": "proved", "theorems": ["C81_nodal_forces", "C81_consistent_tangent"], "note": "residual = -integral of P grad N; 9x9 stiffness = -derivative of the residual"},
 {"property": "C82", "status": "proved", "theorems": ["C82_solid81_balance", "C82_solid81_objective", "C82_solid81_rigid_motion", "C82_plane41_balance", "C82_plane41_objective", "C82_plane41_rigid_motion"], "note": "resultant, moment, superposed rotations and translations, rigid motions; hypothesis: shape functions reproduce constant and linear fields (C51/C53)"},
 {"property": "C83", "status": "partial", "theorems": ["C83_solid81_pressure_energy", "C83_solid81_invariants", "C83_solid81_energy_partial", "C83_solid81_energy_refuted", "C83_plane41_invariants_refuted"], "note": "REFUTED for WU (evaluates W at the invariants of the whole deformation: 9/2 instead of 0 for a dilatation; right if |det F| = 1) and for the IC query of PLANE41 (undefined behaviour: variadic constructor with one argument). SP, WP, IC of SOLID81 right"},
 {"property": "C84", "status": "partial", "theorems": ["C84_small_rotation_partial", "C84_small_rotation_refuted", "C84_small_equation_refuted"], "note": "C84_small_rotation_refuted and C84_small_equation_refuted give a witness rotation below the threshold for which the truncated series is not orthogonal and the equation is not the exact linearisation; C84_small_rotation_partial bounds the deviation by |th|^3/5."},
 {"property": "C85", "status": "partial", "theorems": ["C85_outcome", "C85_never_refused_refuted", "C85_inconsistent_accepted_refuted", "C85_inconsistent_undefined_refuted"], "note": "C85_outcome characterises pre() with automatic choice: Ok if every node has the chosen DoFs, undefined behaviour (null pointer) otherwise; C85_never_refused_refuted: it never ends with the error; two witnesses (accepted / undefined) for inconsistent node sets."},
 {"property": "C86", "status": "partial", "theorems": ["C86_kept_steps_partial", "C86_lost_step_refuted", "C86_late_file_refuted", "C86_no_nodes_refuted"], "note": "C86_kept_steps_partial: exactly the steps whose file could be opened are kept; C86_lost_step_refuted, C86_late_file_refuted (file created late: undefined behaviour), C86_no_nodes_refuted (DoFs but no nodes: undefined behaviour)."},
 {"property": "C87", "status": "partial", "theorems": ["C87_no_equations_partial", "C87_delete_mpcs_refuted", "C87_delete_mesh_refuted"], "note": "Proved without equations; refuted for every program with at least one equation: deleteMpcs does not clear the list, so numbering, a second deletion and the destructor use released objects."},
 {"property": "C88", "status": "partial", "theorems": ["C88_material_refuted", "C88_collection_refuted"], "note": "Refuted for every program: MpcCollection (abstract) and Material have no virtual destructor, so deleting a derived object through the base pointer is undefined ([expr.delete])."},
 {"property": "C89", "status": "partial", "theorems": ["C89_no_leak_partial", "C89_second_solution_refuted"], "note": "Proved for programs that set the material once and delete solution data before initialising them again; refuted for every program that initialises them twice (initSolutionData overwrites matK, matC, matM)."},
 {"property": "C90", "status": "partial", "theorems": ["C90_unknown_shape_refuted"], "note": "Refuted: PYRAMID and the quadratic shapes get no entry in CELL_TYPES (only a log message); the writer succeeds and the strict reader rejects the file, for every such mesh. No element class of the library has these shapes."},
 {"property": "C91", "status": "partial", "theorems": ["C91_overwritten_refuted", "C91_lost_step_refuted"], "note": "Refuted: process takes a uint16, so step k + 65536 replaces the file of step k."},
 {"property": "C92", "status": "proved", "theorems": ["C92_patch", "C92_dissipation", "C92_totals"], "note": "proved over the reals for all orders the tables allow; the integration tables are the decimal ones of the source (quad_unit is the sum of the weights over 4). pos is any placement with positive determinants at the integration points."},
 {"property": "C93", "status": "proved", "theorems": ["C93_matrix", "C93_integrals", "C93_balance", "C93_rest", "C93_coincident"], "note": "proved over the reals; the weights of the line tables sum to 2 exactly."},
 {"property": "C94", "status": "partial", "theorems": ["C94_zero_environment_refuted", "C94_wrong_heat_refuted", "C94_kept_partial"], "note": "refuted: pre() takes a second environment temperature of zero as \"not given\" and replaces it by the first one; all other pairs are kept."},
 {"property": "C95", "status": "partial", "theorems": ["C95_zigzag_refuted", "C95_every_shape_partial"], "note": "refuted at order 1: the alternating field (1,-1,1,-1) has no heat flow in any quadrangle; orders 2 and 3 are proved in C92_dissipation."},
 {"property": "C96", "status": "proved", "theorems": ["C96_matrix", "C96_table", "C96_forces", "C96_energy"], "note": "proved over the reals for every triangle of positive area (Fatal stands for results that are not finite). The decimal table is used as written; its integrals are within 1e-9 of the exact ones."},
 {"property": "C97", "status": "partial", "theorems": ["C97_integral_partial", "C97_average_refuted", "C97_without_buildK_partial"], "note": "refuted: update() integrates over the surface and does not divide by the area (C97_integral_partial states what is computed); before buildK the member det is zero and so are the results."},
 {"property": "C98", "status": "partial", "theorems": ["C98_other_queries_refuted", "C98_scale_refuted", "C98_deformations_refuted", "C98_answered_partial", "C98_added_partial"], "note": "refuted: queries other than C and E leave the function without a return value (undefined behaviour, reached by writeAllResults); scale is ignored; the query for deformations E adds the stress."},
 {"property": "C99", "status": "proved", "theorems": ["C99_roots", "C99_vectors", "C99_all_listed"], "note": "Roots, multiplicities, order and eigenvectors for every symmetric matrix that is not a multiple of the unit matrix; exact reals."},
 {"property": "C100", "status": "partial", "theorems": ["C100_spherical_refuted", "C100_lower_triangle_refuted", "C100_upper_partial"], "note": "Multiples of the unit matrix give 0/0; entries below the diagonal are not read, so non-symmetric matrices with real eigenvalues get wrong values. Partial: the result is a function of the upper triangle."},
 {"property": "C101", "status": "proved", "theorems": ["C101_any_order", "C101_values", "C101_refused"], "note": "Any permutation of the option groups of any settings; generic lookups also with foreign options in between."},
 {"property": "C102", "status": "partial", "theorems": ["C102_large_number_refuted", "C102_overflow_refuted", "C102_wrapped_partial", "C102_negative_fraction_refuted", "C102_missing_value_refuted"], "note": "65536 load steps are read as 0; numbers beyond int are undefined behaviour of atoi; \"-.5\" is taken for an option name and ends the constants; an option without a value takes the next option's name. Partial: numbers below 2^31 are read modulo 65536."},
 {"property": "C103", "status": "partial", "theorems": ["C103_unknown_material_refuted", "C103_few_constants_refuted", "C103_given_partial"], "note": "Unknown material: null pointer; too few constants: read beyond the vector. Partial: with enough constants exactly the first getNumC() are used."},
 {"property": "C104", "status": "partial", "theorems": ["C104_repeated_refuted", "C104_minus_one_refuted", "C104_read_partial", "C104_roundtrip_partial", "C104_header_only_refuted", "C104_malformed_refuted"], "note": "Equal neighbouring values are dropped, a first value -1 is dropped, an empty table reads an uninitialised variable, a malformed number makes the loop endless. Partial: what is read in general, and the round trip for tables whose neighbouring values differ."},
 {"property": "C105", "status": "proved", "theorems": ["C105_mean", "C105_status", "C105_zero", "C105_no_reference"], "note": "Exact reals; the mesh reader and the solver are arbitrary functions."},
 {"property": "C106", "status": "partial", "theorems": ["C106_not_a_number_refuted"], "note": "One NaN in the reactions gives status 0 for every threshold and reference."},
 {"property": "C107", "status": "proved", "theorems": ["C107_refused", "C107_refers", "C107_controls"], "note": "Cells, loads, constraints, reaction component and slaves under one injective renumbering that keeps positions; master node: see C108."},
 {"property": "C108", "status": "partial", "theorems": ["C108_master_refuted", "C108_other_node_refuted", "C108_numbered_partial", "C108_many_dofs_refuted"], "note": "The master number is used without renumbering: with gaps it is a missing node or another node; more than nine DoFs read past the table of labels. Partial: nodes numbered 1..n."},
 {"property": "C109", "status": "partial", "theorems": ["C109_extension_partial", "C109_none_partial", "C109_directory_refuted"], "note": "A dot in a directory name cuts the path there if the file has no extension. Partial: files with an extension, paths without dots."},
 {"property": "C110", "status": "proved", "theorems": ["C110_nodal_balance", "C110_no_work"], "note": "exact arithmetic over any ring; prescribed values below the 1e-20 threshold of the matrix-vector product must be zero (see C06); elements have distinct nodes and DoF types"},
 {"property": "C111", "status": "proved", "theorems": ["C111_forces", "C111_moments"], "note": "over the reals"},
 {"property": "C112", "status": "proved", "theorems": ["C112_joints", "C112_stresses"], "note": "over the reals; trusses only (all members bars)"},
 {"property": "C113", "status": "proved", "theorems": ["C113_refused", "C113_held", "C113_ends", "C113_rigid_motion", "C113_mechanism", "C113_truss_refused"], "note": "default (Gauss) solver over the reals / any ordered field, without MPC equations, fewer than 1000 DoFs for the converse"},
 {"property": "C114", "status": "proved", "theorems": ["C114_stress_free"], "note": "over the reals, default solver"},
 {"property": "C115", "status": "proved", "theorems": ["C115_reciprocity", "C115_structures", "C115_truss_work"], "note": "over any ring / the reals"},
 {"property": "C116", "status": "proved", "theorems": ["C116_truss", "C116_values", "C116_stresses"], "note": "over the reals (no rounding); VTK output of the program is covered by the VTK layer"},
 {"property": "C117", "status": "partial", "theorems": ["C117_checks_refuted"], "note": "refuted: the CHECKs have no absolute value, an equation solver answering -1 everywhere passes them"},
 {"property": "C118", "status": "proved", "theorems": ["C118_balance", "C118_ends"], "note": "exact arithmetic; balance proved for every exact equation solver; heat of the reactions included; convection is taken at the mean of the two end temperatures, which is what the element integrates"},
 {"property": "C119", "status": "proved", "theorems": ["C119_tetrahedra", "C119_quadrangles"], "note": "exact arithmetic, default equation solver; inner nodes: every face (edge) at the node belongs to two elements lying on its two sides (inner3, inner2); the hypothesis that the run succeeds is shown to hold for one mesh of each kind"},
 {"property": "C120", "status": "proved", "theorems": ["C120_solid"], "note": "exact arithmetic, default equation solver; alpha*T equal for all elements; success shown for a mesh of four tetrahedra around a node"},
 {"property": "C121", "status": "proved", "theorems": ["C121_refused", "C121_equilibrium"], "note": "exact arithmetic, default equation solver"},
 {"property": "C122", "status": "partial", "theorems": ["C122_quadrangles", "C122_tetrahedra_refuted", "C122_witness_refuted"], "note": "violated by TETRA1 (elements/TETRA1.cpp: D = -k, B and volume positive): proved for all meshes of positively oriented tetrahedra, with a concrete mesh; the conducting quadrangles have the right sign, so a mesh mixing both types is inconsistent"},
 {"property": "C123", "status": "proved", "theorems": ["C123_rate", "C123_insulated", "C123_ends"], "note": "whole transient runs of QUADTH/SurfaceLINETH models; exact numbers, any exact equation solver for the balance"},
 {"property": "C124", "status": "partial", "theorems": ["C124_lag", "C124_stored_refuted"], "note": "the lag of half a step is proved for all models; the expected property is refuted by a plate with a load"},
 {"property": "C125", "status": "proved", "theorems": ["C125_rest"], "note": "Gauss solver (its uniqueness is needed)"},
 {"property": "C126", "status": "proved", "theorems": ["C126_decay"], "note": "stability in the norm of the heat capacity"},
 {"property": "C127", "status": "partial", "theorems": ["C127_departs", "C127_held_refuted"], "note": "departure from the held temperature is proved for all meshes of quadrangles; the witness is a square plate"},
 {"property": "C128", "status": "proved", "theorems": ["C128_no_memory", "C128_factorised"], "note": "Every list of systems on one object, compared with new objects; exact arithmetic, sizes below 1000 (larger ones end fatally in both)."},
 {"property": "C129", "status": "partial", "theorems": ["C129_same_vectors_refuted", "C129_other_size_refuted", "C129_smaller_matrix_refuted", "C129_not_factorised_refuted"], "note": "Refuted by witnesses over the rationals (right-hand side, sizes) and for all matrices (no factorisation)."},
 {"property": "C130", "status": "proved", "theorems": ["C130_protocol"], "note": "Library given by its contract: solves what it does not report as an error. Value-initialised objects, or default-initialised ones that factorise."},
 {"property": "C131", "status": "partial", "theorems": ["C131_unused_object_refuted", "C131_other_size", "C131_other_pattern_refuted", "C131_late_settings_refuted", "C131_not_symmetric", "C131_not_factorised_refuted"], "note": "Four ways of wrong use end in UB or are ignored; a change of size is detected (C131_other_size)."},
 {"property": "C132", "status": "proved", "theorems": ["C132_calls", "C132_linear", "C132_exact"], "note": "Uniqueness of the solution found by the Gauss solver makes the two agree."},
 {"property": "C133", "status": "partial", "theorems": ["C133_accepted", "C133_solved", "C133_diagonal_refuted"], "note": "Proved for problems without MPCs with every free DoF in an element; for all others the run with PARDISO is UB."},
 {"property": "C134", "status": "proved", "theorems": ["C134_power", "C134_overflow", "C134_sign"], "note": "Full: exact value iff it fits into int32, otherwise UB."},
 {"property": "C135", "status": "partial", "theorems": ["C135_inside", "C135_texts", "C135_again", "C135_blank_refuted", "C135_endless_refuted", "C135_tail_refuted"], "note": "Proved for all texts of at most 65536 characters that are not blank; the other cases are proved to differ."},
 {"property": "C136", "status": "partial", "theorems": ["C136_tokens", "C136_inputs", "C136_long_refuted", "C136_cut_refuted"], "note": "Proved for words shorter than 32768 characters; longer words are proved to end the program or to be shortened."},
 {"property": "C137", "status": "proved", "theorems": ["C137_constants", "C137_unknown", "C137_name_or_number", "C137_same_names", "C137_text"], "note": "Full. The text of a number (toStr) is not modelled, only which values are listed."},
 {"property": "C138", "status": "proved", "theorems": ["C138_neo_hookean", "C138_biderman", "C138_mooney_rivlin", "C138_command_line", "C138_unset", "C138_factory"], "note": "Full, over the reals."},
 {"property": "C139", "status": "partial", "theorems": ["C139_name_partial", "C139_name_refuted"], "note": "Holds for two of three materials; the third one refuted."},
 {"property": "C140", "status": "proved", "theorems": ["C140_result_balanced", "C140_only_balance"], "note": "Full, in exact arithmetic; prescribed values must be zero or above the threshold 1e-20 of matBVprod (C06)."},
 {"property": "C141", "status": "proved", "theorems": ["C141_superposition", "C141_solvable"], "note": "Full, in exact arithmetic with the default equation solver."},
 {"property": "C142", "status": "partial", "theorems": ["C142_renumbered_partial"], "note": "Proved when both runs are solved (the order of elimination decides whether a pivot is below 1e-20, see C26) and for elements without DoFs of their own (not SOLID81, PLANE41)."},
 {"property": "C143", "status": "proved", "theorems": ["C143_minimum", "C143_only_minimum", "C143_stiffer", "C143_truss"], "note": "Full, over the reals. The comparison of two structures is for loads only (supports at zero, no element loads)."},
 {"property": "C144", "status": "proved", "theorems": ["C144_exchange"], "note": "Full, in exact arithmetic with the default equation solver."},
 {"property": "C145", "status": "proved", "theorems": ["C145_newton"], "note": "Full, over the reals with an exact equation solver; the internal force is the one derived from the energy of the material (C80, C81), wherever no integration point is flattened. Compressive Mooney-Rivlin and neo-Hookean materials."},
 {"property": "C146", "status": "proved", "theorems": ["C146_stationary"], "note": "Full. The program stops earlier, when the mean increment is below its criterion (C32); this says what the iteration is after."},
 {"property": "C147", "status": "proved", "theorems": ["C147_resultants"], "note": "Full, over the reals; increments of prescribed DoFs must be zero or above the threshold of matBVprod (C06)."},
 {"property": "C148", "status": "proved", "theorems": ["C148_ends"], "note": "Full, over the reals; numberOfLoadsteps must not be zero (numberOfIterations has 16 bits in the program)."},
 {"property": "C149", "status": "partial", "theorems": ["C149_times_added", "C149_same_displacements_partial", "C149_loads_added_refuted", "C149_never_converges_refuted", "C149_reactions_of_last_increment_refuted"], "note": "Violated. Elements without load vector (TRUSS3 and the other linear elements) hand over no internal force, so every iteration adds the displacements for the whole load at its time: NonlinearFESolver ends with the linear solution for the loads times the sum of the times of all iterations (3/2 of it in two load steps), never converges if the criterion is small, and keeps the reactions of the last increment only. Proved: this sum is exact, and without loads (prescribed displacements only) the displacements agree. Over the rationals with the default equation solver; MPC equations with right hand side 0."},
 {"property": "C150", "status": "proved", "theorems": ["C150_status", "C150_not_solved", "C150_no_reactions", "C150_ends"], "note": "Real numbers instead of doubles. The mesh file is taken as read (readCdbFile gives a mesh, see C73 for which), the body as well-formed (body_ok: nodes in range, prescribed DoFs exist, room in the sparse matrix), without -rigidbody. C150_ends uses elimination as equation solver; the other theorems hold for every exact one. The output of VtkProcessor is not part of this model."},
 {"property": "C151", "status": "partial", "theorems": ["C151_any_numbers_refuted", "C151_problem_partial", "C151_status_partial", "C151_numbers_are_positions_partial"], "note": "Violated if the numbers are 1..n in another order than that of the table: compressNumbers returns early and the numbers are then used as positions (C151_any_numbers_refuted, witness with two nodes exchanged). Proved for all other numberings (different numbers; 1..n only in order; every node that is mentioned has a line in the table): the problem and the exit status are the same, and every reference becomes the position in the table. The master node of -rigidbody is a position, not a number of the file, see C108."},
 {"property": "C152", "status": "proved", "theorems": ["C152_body", "C152_status", "C152_structure", "C152_heat", "C152_heat_in_time"], "note": "Real numbers instead of doubles (rounding depends on the place). For the program the two mesh files are taken as read: the second gives the first mesh with moved coordinates; not for -rigidbody."},
 {"property": "C153", "status": "proved", "theorems": ["C153_any_commands", "C153_order"], "note": "Generalises C73 (one fixed order, no ignored lines). The order within one kind does matter: it is the order of the result, and of two components with the same name the first one is kept."},
 {"property": "C154", "status": "proved", "theorems": ["C154_truss", "C154_heat", "C154_heat_in_time"], "note": "Trusses: both runs solved by the default equation solver. A support that is held after turning must have been held along all axes that take part in it, so nodes that are held in all directions may be turned in any way. In the reals."},
 {"property": "C155", "status": "proved", "theorems": ["C155_structure"], "note": "Both runs solved by the default equation solver. Tetrahedra without initial strains and stresses; thermal strains are allowed. A support that is held after turning must have been held along all axes that take part in it. In the reals."},
 {"property": "C156", "status": "proved", "theorems": ["C156_structure"], "note": "Both runs solved by the default equation solver: its limit of 1e-20 for pivots is a fixed number (C26), so a run may be refused in one system of units only, which this property does not rule out. Tetrahedra without initial strains and stresses; thermal strains are allowed. In the reals."}
]}
