# Formal model of nla3d: design

Source: SchetininVitaliy/nla3d, pinned commit, in /repo (read as text only, never built or run).
Proof assistant: Coq 8.16.1. All files are in rocq/theories, logical root `Verif`.

## Conventions

* `XxxModel.v`: executable Gallina model; each definition cites file and lines. No proofs.
* `SpecXxx.v`: the specification (what a reader has to believe besides the model). `XxxProofs.v`, `XxxMore.v`, ...: lemmas.
* `Prop_Xxx.v`: property theorems `Cnn_...`, closed by `exact`, with `Print Assumptions` and `Example`s that meet the hypotheses.
* Outcomes (`Base.v`): `Ok v`; `Fatal` (LOG(FATAL), CHECK, uncaught exception: the program stops with a message);
  `UB` (undefined behaviour, including a violated `assert`); `Loop` (fuel exhausted: the modelled loop does not end within its bound).
* Numbers: matrix, block, assembly and solver code is modelled over an arbitrary commutative ring or field (records `Num`, `Rng`, `Fld`, `GNum`
  with the laws), so these theorems speak about exact arithmetic. Where the property is about rounding (time stepping, transient loop, NaN in
  `compare`), the same model is instantiated at binary64 (Coq's PrimFloat). Elements and materials use sqrt/cos/pow and are modelled over
  Coq's reals.
* Unsigned indices are nat/Z without wrap-around unless the property is about wrap-around (packed 16 bit index, `dVec::reinit`).
* A property the code violates gets a theorem `..._refuted` with a witness, plus the strongest positive statement that is true
  (`..._partial` or an exact characterisation). Its manifest status is `partial`.
* Three kinds of theorems: round trips (writer/reader, number/denumber), invariants over arbitrary sequences of calls, and
  refinement of concrete data structures to mathematical objects (functions, sums, derivatives).

## Layers: what is modelled

| Layer | Source | Files |
|---|---|---|
| Sparse patterns and matrices | math/SparseMatrix.{h,cpp} | Sparse* |
| Block matrices | math/BlockSparseMatrix.h | Block* |
| DoF tables, equation numbering | Dof.{h,cpp}, FEStorage.cpp | Dof*, NumberingProofs |
| Topology, registration, assembly, MPC rows | FEStorage.{h,cpp}, elements/element.h (assemble) | Asm* |
| Boundary conditions, linear static solution | FESolver.cpp | Solve* |
| Gauss solver | math/EquationSolver.cpp | Gauss* |
| Time control | FESolver.{h,cpp} | Time*, Floats |
| Newton iteration | FESolver.cpp (NonlinearFESolver) | Nonlin* |
| Newmark / transient | FESolver.cpp (LinearTransientFESolver) | Trans* |
| dVec ownership and views | math/Vec.{h,cpp} | Vec* |
| Dump and compare of matrices | FESolver.cpp, SparseMatrix.cpp | Dump* |
| Small dense matrices | math/Mat.{h,cpp} | Mat* |
| ANSYS cdb reader, tokens, labels, renumbering | FEReaders.cpp | Reader*, SpecCdb |
| Isoparametric LINE, QUAD, HEXAHEDRON | elements/isoparametric.{h,cpp} | Iso* |
| Linear elements TRUSS3, TETRA0, TETRA1, TRIANGLE4, INTER0 | elements/*.cpp | Elem*, LinearProofs |
| Hyperelastic materials, SOLID81, PLANE41 | materials/materials_hyperelastic.cpp, solidmech.cpp, elements/{SOLID81,PLANE41}.cpp | Hyper* |
| Rigid body MPC | Mpc.cpp (RigidBodyMpc, LeviCivita) | Mpc* |
| Reaction curves | ReactionProcessor.cpp, FEStorage.cpp (getReaction) | React* |
| Ownership of objects | FEStorage.cpp/.h (create/add/delete/destructor), ElementFactory.cpp, Mpc.h, material.h | Heap* |
| VTK files | VtkProcessor.cpp, query.h, element.h (shapes), PostProcessor.h | Vtk* |
| Thermal elements | QUADTH.{h,cpp} (QUADTH, SurfaceLINETH) | Therm* |
| Interface of triangles | INTER3.{h,cpp} | Inter* |
| Eigenvalues of 3x3 matrices | math/Mat.h (eigenvalues) | Eig* |
| The program nla3d: command line, reference curve, problem setup, verdict | main.cpp, sys.cpp (command line, job name) | Prog* |
| Balance of forces, whole structures, the program nla3d_truss | FESolver.cpp + elements/{TRUSS3,TETRA0}.cpp together, main_truss.cpp | SpecBal, Bal*, Struct*, Truss* |
| Heat conduction, patch tests | FESolver.cpp + elements/{TETRA1,QUADTH,TETRA0}.cpp together | HeatModel, SpecHeat, Part*, Heat*, PatchProofs |
| Heat conduction in time | FESolver.cpp (LinearTransientFESolver) + elements/QUADTH.cpp (buildC, buildK) together | SpecTransKeys, TransKeys, HeatTrans*, SpecHeatTrans |
| Equation solver objects | math/EquationSolver.{h,cpp} (Gauss and PARDISO objects, sequences of calls), math/Mat.h (dMat) | EqsModel, SpecEqs, EqsProofs, EqsFinal, EqsCases |
| Small tools, material constants | sys.cpp (npow, del_spaces, read_tokens), materials/material.{h,cpp}, materials_hyperelastic.h (names), MaterialFactory.cpp | ToolsModel, SpecTools, ToolsProofs, ToolsMore |
| Laws of linear structures | FESolver.cpp (LinearFESolver) with any elements and MPC equations | SpecLaws, SpecEnergy, Laws* |
| Hyperelastic bodies | FESolver.cpp (NonlinearFESolver) with SOLID81, PLANE41, isoparametric elements | BodyModel, SpecNewton, SpecBody, Newton*, Body* |
| Linear structures in the nonlinear solver | FESolver.cpp (NonlinearFESolver, LinearFESolver) | SpecStill, StillProofs |
| Whole program on bodies | main.cpp with FEReaders.cpp, FESolver.cpp, ReactionProcessor.cpp | WholeModel, SpecWhole, WholeProofs, WholeFinal |
| Renumbering of the mesh | FEReaders.cpp (compressNumbers), main.cpp | SpecRenum, RenumProofs |
| Bodies at another place | isoparametric.cpp, TRUSS3.cpp, TETRA0.cpp, TETRA1.cpp, QUADTH.cpp, main.cpp | SpecMoved, MovedProofs, MovedLinear |
| Order of commands in the mesh file | FEReaders.cpp (readCdbFile) | SpecPieces, PiecesProofs |
| Turned trusses and heat conducting bodies | TRUSS3.cpp, TETRA1.cpp, QUADTH.cpp, FESolver.cpp | SpecTurned, TurnedProofs, TurnedHeat |
| Turned structures of bars and tetrahedra | TETRA0.cpp, TRUSS3.cpp, FESolver.cpp | SpecTurnedSolid, TurnedSolid |
| Structures in other units | TETRA0.cpp, TRUSS3.cpp, FESolver.cpp | SpecUnits, UnitsProofs |

## What is not modelled

* The inside of MKL PARDISO and BLAS. The equation solver of the solution classes is a parameter that may return any vector; the theorems say what holds if it
  satisfies the block system. Objects of PARDISO_equationSolver are modelled with the calls they make (C130-C133): what the manual of the library does not allow
  (pattern changed, diagonal not stored, phases out of order, uninitialised handle) is UB, error codes are an oracle, solutions are those of a given library. Also not modelled: Eigen internals, the logging library, timers, memory exhaustion.
* Rounding, except in the layers named above. In particular the element and material theorems are about exact real arithmetic; library functions
  (`sqrt`, `pow`, `acos`) are the mathematical functions.
* iostream beyond what is stated in the reader and dump layers (bytes in, tokens out; printing with a given number of digits).
* Eigenvalues: exact reals, `M_PI` is the number pi; `acos` of an argument outside [-1, 1] and 0/0 are `Fatal` (NaN).
* Program: the mesh file and the solution are functions of the outside world (any mesh, any reaction curves); the text of log messages is not
  modelled; comparisons of curves are over the extended reals with NaN (no rounding).
* Compiler specific behaviour: wherever the C++ standard leaves the behaviour undefined the model returns `UB` and says nothing more.

## Trusted base

Coq's kernel (with vm_compute), the axioms listed below (all from Coq's standard library), and the faithfulness of the `...Model.v` files to the cited
source lines. Statements are in terms of the `Spec...v` definitions. Every model is exercised by mutations: see seeded/LOG.jsonl (edit, claim broken,
theorems that fail, theorems strengthened because a mutation survived).

## Properties: plan, theorems, assumptions

For each theorem the result of `Print Assumptions` is given in brackets: *closed* = no axioms; *reals* = axioms behind the standard
library's real numbers (`ClassicalDedekindReals.sig_forall_dec`, possibly `sig_not_dec`, `functional_extensionality_dep`); *reals+classic* = the
same and `Classical_Prop.classic` (through Coquelicot/Ranalysis); *float primitives* = the primitive types `float`/`int` and their specification axioms
(`FloatAxioms`, `Uint63`) of the standard library.

### C01 Sparsity pattern is exactly the set of registered positions (proved)

all shapes, capacities and registration histories; lookup is exact, slots are a bijection onto 0..nValues-1, abort iff a row exceeds its capacity

* `C01_pattern_is_registered_set` [closed]
* `C01_overflow_aborts` [closed]
* `C01_registering_twice_changes_nothing` [closed]

### C02 Entry lookup always terminates inside the arrays (proved)

out-of-range accesses (UB) and non-termination (Loop) are explicit outcomes of the model and are excluded for every reachable pattern

* `C02_lookup_total` [closed]

### C03 A sparse matrix behaves like a map from positions to numbers (proved)

refinement of every operation history to a function from positions to numbers, over any commutative ring; unregistered writes abort

* `C03_matrix_is_a_map` [closed]
* `C03_unregistered_write_aborts` [closed]

### C04 Symmetric matrices are symmetric (proved)

refinement to a function on unordered positions, plus symmetry of that specification

* `C04_symmetric_semantics` [closed]
* `C04_spec_symmetric` [closed]

### C05 Sparse matrix-vector products are the mathematical products (proved)

products equal the dense products, over any commutative ring

* `C05_product` [closed]
* `C05_transposed_product` [closed]

### C06 Symmetric product uses both triangles (partial)

REFUTED as stated: components with |V[j]| <= 1e-20 are skipped (witness over exact rationals). C06_symmetric_product_exact says precisely what is computed; _partial is the claim for vectors whose skipped components are zero

* `C06_symmetric_product_refuted` [closed]
* `C06_symmetric_product_exact` [closed]
* `C06_symmetric_product_partial` [closed]

### C07 Construction from a coordinate list and text round trip (proved)

last listed value wins, exact registered set, round trip relative to an abstract print/parse function g accepted by compare's tolerance

* `C07_entries_last_wins` [closed]
* `C07_text_round_trip` [closed]

### C08 compare() is sound (proved)

exact characterisation of compare over the rationals (same shape, same pattern, all elements within th) and reflexivity

* `C08_compare_iff` [closed]
* `C08_compare_refl` [closed]

### C09 Writing a matrix leaves the stream's formatting as it was (partial)

REFUTED: setf(old_flags) cannot clear the scientific flag. _partial: precision is restored; flags are restored iff the stream was already scientific

* `C09_stream_flags_refuted` [closed]
* `C09_stream_flags_partial` [closed]

### C10 Every symmetric matrix carries its diagonal entries (partial)

REFUTED for reinit (used for the blocks of a block matrix): no diagonals are registered. _partial: the constructor registers all of them

* `C10_diagonal_partial` [closed]
* `C10_diagonal_reinit_refuted` [closed]

### C11 Sharing a sparsity pattern is memory safe (partial)

REFUTED: setSparsityInfo with a compressed larger pattern keeps the old value array. _partial + _unsafe: safe iff the matrix held no values or the old array is large enough; always safe for patterns handed over before compression

* `C11_shared_pattern_partial` [closed]
* `C11_shared_pattern_unsafe` [closed]
* `C11_uncompressed_pattern_safe` [closed]
* `C11_shared_pattern_refuted` [closed]

### C12 Off-diagonal blocks are addressed bijectively (proved)

bijection for every nb <= 362 plus the dimensions of every off-diagonal block; C12_bound_is_sharp shows that 363 blocks already alias

* `C12_number_of_offdiagonal_blocks` [closed]
* `C12_blocks_bijection` [closed]
* `C12_block_dimensions` [closed]
* `C12_bound_is_sharp` [closed]

### C13 A block matrix behaves as one global symmetric matrix (proved)

refinement of every history of registrations and additions to one global symmetric matrix; unregistered additions abort

* `C13_block_matrix_is_global_symmetric_matrix` [closed]
* `C13_capacity_condition` [closed]

### C14 A copied block matrix has the dimensions of the original (partial)

REFUTED: the copying constructor adds the block sizes to the copied total, so nRows() is doubled. _partial: everything else is the same (blocks, patterns, zero values) and nRows is exactly twice the original

* `C14_copy_partial` [closed]
* `C14_copy_total_rows_refuted` [closed]

### C15 The DoF table is a map from entities to sets of DoF types (proved)

DofCollection model (Dof.cpp): any registration sequence for entities in 1..N; entity number 0 or > N is undefined behaviour in the model. 32 bit counters are modelled as unbounded.

* `C15_dof_table` [closed]

### C16 Equation numbers are a bijection with constrained DoFs first (proved)

Full initDofs / setConstrained / assignEquationNumbers sequence on a fresh storage; the pre() calls of the elements are an arbitrary list of registrations (types 0..7). Counters unbounded.

* `C16_numbering` [closed]

### C17 Fixing DoFs is idempotent and counted once (proved)

Counter equals the number of distinct fixed DoFs.

* `C17_fix_count` [closed]

### C18 A second solve starts from a clean state (partial)

Refuted: _nConstrainedDofs is never reset by initDofs, so a second run stops at an assert (or CHECK); MPC collections register their equations again. Proved: with deleteSolutionData in between and no MPC collections, or without fixed DoFs, the second run reproduces the state.

* `C18_second_run_refuted` [closed]
* `C18_second_run_after_delete_partial` [closed]
* `C18_second_run_unconstrained_partial` [closed]
* `C18_mpc_doubled_refuted` [closed]

### C19 Assembly never hits an unregistered matrix position (proved)

Any sequence of assemblies of well-formed element matrices and MPC equations succeeds after initSolutionData; registered positions characterised exactly; the row capacity of 100 is a hypothesis (discharged for up to 100 equations, and shown to be needed). Element routines modelled: element.h/.cpp assembleK/C/M, SOLID81 assemble, PLANE41 assembleK, MPC loop.

* `C19_assembly_never_aborts` [closed]
* `C19_registered_positions` [closed]
* `C19_capacity_of_small_problems` [closed]
* `C19_capacity_limit` [closed]

### C20 The assembled matrix is the sum of the element matrices (proved)

Holds for any number of preceding assemblies; meshes without repeated nodes.

* `C20_assembled_is_sum` [closed]

### C21 Degenerated elements are assembled correctly (partial)

Violated: off-diagonal numbers of rows belonging to the same DoF are added once instead of twice. The exact assembled matrix is proved.

* `C21_repeated_nodes_partial` [closed]
* `C21_repeated_nodes_refuted` [closed]

### C22 Element mass matrices end up in the global mass matrix (partial)

Violated: assembleM adds to the damping matrix. Proved: C is the sum of both, M stays zero.

* `C22_damping_and_mass_partial` [closed]
* `C22_mass_refuted` [closed]

### C23 Every solved equation has a diagonal entry (partial)

Violated for MPC multiplier rows and DoFs of nodes without elements; exact characterisation proved.

* `C23_diagonal_partial` [closed]
* `C23_diagonal_refuted` [closed]

### C24 The linear solution satisfies the complete system (proved)

over any commutative ring and any exact solver: K*U=F+R in every row, prescribed values, free loads, MPC equations; with the Gauss solver every good problem ends in Ok or a reported error. Prescribed values with 0<|v|<=1e-20 are excluded (they are dropped in the product, C06)

* `C24_linear_solution` [closed]
* `C24_never_undefined` [closed]

### C25 Gaussian elimination returns a solution (proved)

any ordered field with absolute value; out-of-range access, use of the uninitialised pivot index and division by zero are explicit outcomes and excluded; the solution is also unique

* `C25_gauss_solution` [closed]
* `C25_too_many_equations` [closed]
* `C25_dense_routine` [closed]
* `C25_rationals` [closed]

### C26 The Gauss solver fails only for singular systems (partial)

refuted for entries below 1e-20; what failure does imply (a vector with component 1 that A maps below 1e-20 in every row) and rejection of all singular systems are proved

* `C26_regular_rejected_refuted` [closed]
* `C26_nearly_singular_partial` [closed]
* `C26_singular_rejected` [closed]

### C27 Boundary conditions: loads add up, the last fix wins, both scale with time (proved)

all load and fix lists, any time factor, any previous contents; MPC rows untouched

* `C27_boundary_conditions` [closed]

### C28 Time stepping moves forward and stops exactly at the end time (proved)

exact rationals; all step requests, equilibrium calls anywhere in between, calls after the end included; number of equal steps given exactly

* `C28_time_moves_to_the_end` [closed]
* `C28_number_of_equal_steps` [closed]

### C29 The requested number of load steps is performed (partial)

holds for start time 0 in exact arithmetic; refuted in doubles with the default 10 steps (11 performed) and for start time <> 0 (current time starts at 0, not at the start time)

* `C29_exact_number_of_steps_partial` [closed]
* `C29_ten_become_eleven_refuted` [float primitives]
* `C29_start_time_ignored_refuted` [closed]

### C30 Normalised time runs from 0 to 1 (partial)

holds for start <= 0 < end; refuted for start > 0 (negative normalised time) and end <= 0 (no step)

* `C30_normalised_time_partial` [closed]
* `C30_negative_time_refuted` [closed]
* `C30_no_step_refuted` [closed]

### C31 Step bookkeeping is consistent (partial)

holds while nextStep returns true and for the first call that returns false, fewer than 65535 iterations (uint16); refuted for a further call after the end

* `C31_bookkeeping_partial` [closed]
* `C31_bookkeeping_at_the_end_partial` [closed]
* `C31_counted_twice_refuted` [closed]

### C32 Newton iterations stop at the requested accuracy (partial)

refuted: the mean increment is divided by the criterion and compared with the criterion again; proved instead: a load step is left in its first iteration with mean increment below the square of the criterion

* `C32_criterion_squared_partial` [closed]
* `C32_wrong_accuracy_refuted` [closed]

### C33 The nonlinear solution ends with the full boundary conditions (proved)

exact rationals, any elements (abstract internal state), any exact equation solver, end time > 0, end > start; every iteration is described by good_iter (assembled equations, increments, loads, fixes, MPC); loads at the end included

* `C33_full_boundary_conditions` [closed]

### C34 Linear MPC equations hold after a nonlinear solution (partial)

refuted for b <> 0 with more than one iteration; the exact value (number of iterations times b) is proved, hence the property for b = 0

* `C34_mpc_after_all_iterations_partial` [closed]
* `C34_equation_violated_refuted` [closed]

### C35 Each transient step satisfies the equation of motion (partial)

Exact arithmetic, exact equation solver. With delta = 1/2 (the default) and zero prescribed values every step satisfies M u''+C u'+K u = F+R in all unknown rows and both Newmark formulas. For all other parameters: proved what is solved instead (K12^T Uc of prescribed values is missing; velocity uses delta and 1-delta exchanged); both refuted by runs of the model.

* `C35_equation_of_motion_partial` [closed]
* `C35_any_parameters_partial` [closed]
* `C35_wrong_velocity_refuted` [closed]
* `C35_prescribed_value_refuted` [closed]

### C36 The requested number of time steps is performed (partial)

Exact arithmetic: exactly numberOfTimesteps steps, last at time1 (needs time0 < time1, at least one step). Refuted for doubles: the default settings (100 steps, 0..1) give 99 steps.

* `C36_number_of_steps_exact_partial` [closed]
* `C36_default_settings_refuted` [float primitives]

### C37 Vector views alias, copies do not (proved)

All histories of dVec operations on a heap with explicit new/delete; bounds of views within 32 bits (see C71). Partly overlapping += sees its own results (Example vdemo_3).

* `C37_every_array_has_one_owner` [closed]
* `C37_no_leak_no_double_free` [closed]
* `C37_allowed_calls_are_defined` [closed]
* `C37_result` [closed]
* `C37_others_unchanged` [closed]
* `C37_cause_of_dangling` [closed]
* `C37_view_shows_its_part` [closed]
* `C37_writing_to_a_view` [closed]
* `C37_copy_is_independent` [closed]
* `C37_separate_views` [closed]

### C38 A view stays a view (partial)

Holds for assignments of the same size; an assignment of another size re-allocates and silently detaches the view (refuted).

* `C38_same_size_partial` [closed]
* `C38_other_size_refuted` [closed]

### C39 Dump and compare agree (partial)

Holds when matrix numbers are below 1e6 and vector numbers are below 1e-3 or have at most 7 digits; refuted otherwise: vectors are printed with 7 digits but compared with 1e-10. Numbers are rationals, reading rounds to a nearest representable number.

* `C39_dump_compare_partial` [closed]
* `C39_printed_digits_partial` [closed]
* `C39_dump_compare_refuted` [closed]
* `C39_small_load_refuted` [closed]

### C40 Small dense matrices: determinant and inverse (proved)

For every mathcomp fieldType and every size (determinant = mathcomp's Leibniz determinant; two-sided inverse); for sizes 1-3 also for every field. Exact arithmetic; the size 0 is excluded.

* `C40_det` [closed]
* `C40_inverse` [closed]
* `C40_special_cases` [closed]
* `C40_inverse_small` [closed]

### C41 Packed symmetric storage is consistent (proved)

With the uint16 arithmetic of comp/getLength/toMat; the bound is sharp (Example comp16_wraps: 362 rows).

* `C41_packed` [closed]
* `C41_toMat` [closed]
* `C41_add` [closed]

### C42 B^T*D*B products (proved)

Every commutative ring, every size, on flat arrays with the pointer walk of the code.

* `C42_BTDB` [closed]
* `C42_BTV` [closed]
* `C42_BV` [closed]
* `C42_symBV` [closed]
* `C42_AB` [closed]
* `C42_ATB` [closed]

### C43 BLAS and non-BLAS builds compute the same (partial)

Equal when the result is zero before the call; refuted otherwise: cblas_dgemv/dgemm are called with beta = 0 (overwrite) where the loops add.

* `C43_same_when_zero_partial` [closed]
* `C43_accumulation_refuted` [closed]

### C44 Lines are read independent of the line-ending convention (proved)

proved: read_lines of any mixture of terminators gives the lines; every byte string has this form (C44_every_file). The only condition, CR not followed by an empty line that ends with LF, is inherent (that is CR LF).

* `C44_lines` [closed]
* `C44_every_file` [closed]

### C45 Tokenizer splits at delimiters and loses nothing (proved)

proved in both directions, with trimming characterised uniquely.

* `C45_tokens_of_line` [closed]
* `C45_tokens_of_join` [closed]
* `C45_trim` [closed]
* `C45_trim_unique` [closed]

### C46 Fixed-width fields (proved)

proved: fields for long enough lines, exact behaviour for short ones in both modes.

* `C46_long_enough` [closed]
* `C46_too_short` [closed]

### C47 Component ranges are expanded completely (partial)

partial: complete expansion for every list of fewer than 65536 numbers in rows of any width; with 65536 or more numbers the uint16 counter makes the read impossible (refuted for every such block, whatever follows).

* `C47_component` [closed]
* `C47_long_list_refuted` [closed]

### C48 Constraint equations are read with all their terms (partial)

partial: read exactly for 0, 2 and 4 terms; for every other number of terms the loop `i < max(n_terms, 2)` with decreasing n_terms reads tokens outside the line (refuted for all of them, not just a witness).

* `C48_equation_partial` [closed]
* `C48_other_numbers_refuted` [closed]

### C49 Renumbering keeps the model (partial)

partial: proved for duplicate-free numberings where the largest number is not the number of nodes, and for 1..n in order; refuted for permutations of 1..n, which are returned unchanged while main.cpp stores positions in file order.

* `C49_renumbering_partial` [closed]
* `C49_permuted_refuted` [closed]

### C50 Names and codes correspond (proved)

proved for DoF types, elements, materials, components and query labels.

* `C50_dof_label_of_code` [closed]
* `C50_dof_code_of_label` [closed]
* `C50_dof_unknown` [closed]
* `C50_dof_enumerators` [closed]
* `C50_element_class` [closed]
* `C50_element_unknown` [closed]
* `C50_material` [closed]
* `C50_material_unknown` [closed]
* `C50_component` [closed]
* `C50_query_labels` [closed]
* `C50_dof_symbols` [closed]

### C51 Shape functions interpolate (proved)

proved for all local points; derivatives are Coquelicot's is_derive.

* `C51_partition_of_unity` [reals]
* `C51_nodal_values` [reals]
* `C51_derivatives` [reals+classic]

### C52 Gauss tables integrate polynomials (proved)

proved: for every polynomial with exponents below 2k in each variable the table sum differs from the iterated Riemann integral by at most 1e-15 times the sum of the absolute coefficients.

* `C52_line` [reals+classic]
* `C52_quad` [reals+classic]
* `C52_hexahedron` [reals+classic]
* `C52_integral_unique` [reals]

### C53 Isoparametric gradients are exact for linear fields (proved)

proved for every element and every local point with nonzero Jacobian; plus the chain rule.

* `C53_quad` [reals]
* `C53_hexahedron` [reals]
* `C53_chain_rule` [reals]

### C54 Element volumes (proved)

proved: LINE and QUAD exactly (QUAD up to the printed weight sum), parallelepipeds for every order, any hexahedron from order 2 with an explicit error bound.

* `C54_line` [reals]
* `C54_quad` [reals]
* `C54_parallelepiped` [reals]
* `C54_any_hexahedron` [reals+classic]
* `C54_units` [reals]

### C55 TRUSS3 is a correct bar element (proved)

proved over the reals for every bar of nonzero length; forces, stress, rigid motions.

* `C55_force` [reals]
* `C55_stress` [reals]
* `C55_rigid_motion` [reals]

### C56 TETRA0 strains are exact for linear displacement fields (proved)

proved over the reals for every tetrahedron of nonzero volume: strains, stresses, the stiffness matrix as virtual work, rigid motions, positivity, and that every vector of nodal values is covered.

* `C56_volume` [reals]
* `C56_strains_and_stresses` [reals]
* `C56_virtual_work` [reals]
* `C56_all_nodal_values` [reals]
* `C56_rigid_motion` [reals]
* `C56_positive` [reals]

### C57 Free thermal expansion solves the element equations (proved)

proved for elements without initial strains and stresses.

* `C57_equilibrium` [reals]

### C58 TETRA1 conduction obeys Fourier's law (proved)

proved; the matrix has the opposite sign of the usual conduction matrix (see C77).

* `C58_flux` [reals]
* `C58_matrix` [reals]
* `C58_all_nodal_values` [reals]

### C59 TRIANGLE4 is a correct constant strain triangle (proved)

proved for plane strain (rigid motions for both states).

* `C59_area` [reals]
* `C59_strains_and_stresses` [reals]
* `C59_virtual_work` [reals]
* `C59_rigid_motion` [reals]
* `C59_all_nodal_values` [reals]

### C60 INTER0 interface stiffness (proved)

proved for all normals except those along (0,1,1) (see C79).

* `C60_stiffness` [reals]

### C61 Hyperelastic stresses are the derivative of the energy (proved)

all three material laws, any differentiable curve of strains with positive determinant: d(W_iso + p(J-1)) = 1/2 S:dC; S = p*I at rest; S:C = 3pJ (the pressure unknown is the mean true stress)

* `C61_stress_is_energy_gradient` [reals+classic]
* `C61_reference_state` [reals+classic]
* `C61_pressure_is_mean_stress` [reals+classic]

### C62 Material tangent is consistent (proved)

getDdDp_UP is the derivative of getS_UP along every curve of strains and pressures, for all six components and for every selection of components

* `C62_material_tangent` [reals+classic]
* `C62_tangent_of_components` [reals+classic]

### C63 Deformation measures (proved)

C stored by update is F^T F (SOLID81, PLANE41); J_C, invC_C, IC_C are |det F|, inverse and invariants

* `C63_solid81` [reals+classic]
* `C63_plane41` [reals]
* `C63_measures` [reals]

### C64 Cauchy stress results are correct (partial)

REFUTED: SOLID81 adds the pressure twice to COUCHY and PK2 (exact value proved; right only for p = 0); PLANE41 COUCHY is F^T S F / J and ignores the scale, so GP_MEAN returns a sum. Right: C, E for both, PK2 for PLANE41, means of the correct queries

* `C64_solid81_strain` [reals+classic]
* `C64_solid81_couchy_value` [reals+classic]
* `C64_solid81_couchy_partial` [reals+classic]
* `C64_solid81_couchy_refuted` [reals+classic]
* `C64_solid81_pk2_refuted` [reals+classic]
* `C64_plane41_strain_and_pk2` [reals+classic]
* `C64_plane41_couchy_value` [reals+classic]
* `C64_plane41_couchy_refuted` [reals+classic]
* `C64_plane41_mean_refuted` [reals+classic]
* `C64_plane41_mean_pk2` [reals+classic]
* `C64_solid81_mean_strain` [reals+classic]

### C65 Rigid body MPC (proved)

The model of pre()/update() over the reals, with node positions and the current solution as functions. C65_equations: update() on the equations made by pre() (C65_pre) or an earlier update() gives, for each slave and DoF in order, the equation whose coefficients are the partial derivatives (Coquelicot is_derive along curves) of the gap function and whose right-hand side makes it the Newton equation; between 0 and the threshold the same up to 2e-10/2e-7 relative bounds. C65_rotation/_spec: the matrix is the exponential rotation, orthogonal, determinant 1, fixes its axis, angles add. C65_other_dofs: Fatal for other DoFs.

* `C65_equations` [reals]
* `C65_pre` [reals]
* `C65_other_dofs` [reals]
* `C65_rotation` [reals]
* `C65_rotation_spec` [reals]

### C66 Reaction curves (proved)

The model runs pre() and any list of process() calls on the DoF tables of the numbering layer (after any init sequence) with arbitrary vectors R; the file is a list of lines, its availability an input. C66_curves gives curves and file rows for every node set; C66_chosen the automatic choice; C66_equilibrium composes with the linear solution of C24. Number formatting is not modelled.

* `C66_curves` [closed]
* `C66_chosen` [closed]
* `C66_equilibrium` [closed]

### C67 Ownership of model objects (proved)

Refinement of the storage's pointer tables and heap by a machine that only counts objects. Objects are allocated at fresh addresses; a use or deletion of a released address is UB in the model. Calls outside the stated contract are treated in C87 and C88. Contents of the objects are not part of this model.

* `C67_ownership` [closed]
* `C67_new_nodes` [closed]
* `C67_new_elements` [closed]

### C68 VTK files hold the mesh and the solution (proved)

Round trip: the tokens written by the model of the writer are read back by an independent strict reader (SpecVtk.read_vtk) as exactly the expected contents (want_file), for pre's file and every process file; file names, overwriting and untouched files included; array names distinct; written queries characterised. A number is printed by an arbitrary function pr (operator<<, six digits). Tokens stand for the text (white space and line breaks are not modelled; the four header lines are single tokens). Hypotheses: known shapes, node numbers in range, fewer than 2^32 nodes and list entries, vectors at least as long as the number of equations, elements of one type answer the same queries. A file that cannot be opened is not modelled (the code writes nothing and reports nothing).

* `C68_files` [closed]
* `C68_names` [closed]
* `C68_queries` [closed]

### C69 compare() rejects undefined numbers (partial)

REFUTED: a matrix with NaN compares equal to one with 1.0 (binary64 primitives, vm_compute)

* `C69_compare_accepts_nan_refuted` [float primitives]

### C70 Time stepping in double arithmetic reaches the end time exactly (partial)

refuted by computation with IEEE doubles: overshoot, undershoot and no movement

* `C70_doubles_miss_the_end_refuted` [float primitives]

### C71 A view never reaches outside its vector (partial)

The assert is evaluated in uint32: start = 2^32-1, size = 2 passes. Proved when start+size < 2^32.

* `C71_view_inside_partial` [closed]
* `C71_view_inside_refuted` [closed]

### C72 A vector can be assigned a part of itself (partial)

operator= deletes the memory before copying from it when the sizes differ: undefined. Expressions, which go through a temporary, are proved to work.

* `C72_own_part_refuted` [closed]
* `C72_own_part_through_temporary_partial` [closed]

### C73 A mesh file is read as it was written (proved)

proved for both element table formats and repeated component names; numbers up to nine digits, printed doubles abstract (20 characters, read back by stod).

* `C73_cdb_roundtrip` [closed]

### C74 The reader is safe for every file (partial)

partial: termination proved for every file (unless a format line declares 65536 or more columns); reading outside is refuted by witnesses (blank line in a table, records with too few tokens).

* `C74_ends_partial` [closed]
* `C74_blank_line_refuted` [closed]
* `C74_short_command_refuted` [closed]

### C75 Reported time increments add up (proved)

proved in exact arithmetic for fewer than 65536 iterations in total (uint16 counter).

* `C75_reported_increments_add_up` [closed]
* `C75_later_iterations_report_nothing` [closed]

### C76 TETRA0 results and loads are consistent with thermal strain (partial)

violated: the thermal strain is not subtracted before computing the reported stress, and buildK stores the thermal strain in the element so that a second buildK doubles the load. Both refuted by a witness; the doubling is proved for every element.

* `C76_reported_stress_refuted` [reals]
* `C76_second_assembly` [reals]
* `C76_assembling_twice_refuted` [reals]

### C77 TETRA1 conduction matrix is positive semidefinite and GRADT is the gradient (partial)

violated: makeC uses -k so the matrix is negative semidefinite for positive volume; GRADT divides the flux by k without changing the sign. Both refuted; GRADT proved to be minus the gradient.

* `C77_GRADT_partial` [reals]
* `C77_GRADT_refuted` [reals]
* `C77_semidefinite_refuted` [reals]

### C78 TRIANGLE4 plane stress and repeated updates (partial)

violated: plane stress uses E*(1-my^2) instead of E/(1-my^2), and update does not clear strains and stresses. Both refuted; exact factors proved.

* `C78_plane_stress_partial` [reals]
* `C78_plane_stress_refuted` [reals]
* `C78_second_update` [reals]
* `C78_repeated_update_refuted` [reals]

### C79 INTER0 accepts every nonzero normal (partial)

violated for normals along (0,1,1), where the auxiliary vector is parallel to the normal; proved that these are the only failing ones.

* `C79_every_normal_refuted` [reals]
* `C79_failing_normals_partial` [reals]

### C80 SOLID81: nodal forces and consistent tangent (proved)

residual = -integral of P grad N; stiffness = -derivative of the residual, for any curve of states with regular F

* `C80_nodal_forces` [reals+classic]
* `C80_consistent_tangent` [reals+classic]

### C81 PLANE41: nodal forces and consistent tangent (proved)

residual = -integral of P grad N; 9x9 stiffness = -derivative of the residual

* `C81_nodal_forces` [reals+classic]
* `C81_consistent_tangent` [reals+classic]

### C82 Finite strain elements: balance and objectivity (proved)

resultant, moment, superposed rotations and translations, rigid motions; hypothesis: shape functions reproduce constant and linear fields (C51/C53)

* `C82_solid81_balance` [reals+classic]
* `C82_solid81_objective` [reals+classic]
* `C82_solid81_rigid_motion` [reals+classic]
* `C82_plane41_balance` [reals+classic]
* `C82_plane41_objective` [reals+classic]
* `C82_plane41_rigid_motion` [reals+classic]

### C83 Scalar and vector results of the finite strain elements (partial)

REFUTED for WU (evaluates W at the invariants of the whole deformation: 9/2 instead of 0 for a dilatation; right if |det F| = 1) and for the IC query of PLANE41 (undefined behaviour: variadic constructor with one argument). SP, WP, IC of SOLID81 right

* `C83_solid81_pressure_energy` [reals+classic]
* `C83_solid81_invariants` [reals+classic]
* `C83_solid81_energy_partial` [reals+classic]
* `C83_solid81_energy_refuted` [reals+classic]
* `C83_plane41_invariants_refuted` [closed]

### C84 Rigid body MPC: small rotations (partial)

C84_small_rotation_refuted and C84_small_equation_refuted give a witness rotation below the threshold for which the truncated series is not orthogonal and the equation is not the exact linearisation; C84_small_rotation_partial bounds the deviation by |th|^3/5.

* `C84_small_rotation_partial` [reals]
* `C84_small_rotation_refuted` [reals+classic]
* `C84_small_equation_refuted` [reals+classic]

### C85 Reaction curves: inconsistent node sets are refused (partial)

C85_outcome characterises pre() with automatic choice: Ok if every node has the chosen DoFs, undefined behaviour (null pointer) otherwise; C85_never_refused_refuted: it never ends with the error; two witnesses (accepted / undefined) for inconsistent node sets.

* `C85_outcome` [closed]
* `C85_never_refused_refuted` [closed]
* `C85_inconsistent_accepted_refuted` [closed]
* `C85_inconsistent_undefined_refuted` [closed]

### C86 Reaction curves do not depend on the result file (partial)

C86_kept_steps_partial: exactly the steps whose file could be opened are kept; C86_lost_step_refuted, C86_late_file_refuted (file created late: undefined behaviour), C86_no_nodes_refuted (DoFs but no nodes: undefined behaviour).

* `C86_kept_steps_partial` [closed]
* `C86_lost_step_refuted` [closed]
* `C86_late_file_refuted` [closed]
* `C86_no_nodes_refuted` [closed]

### C87 Deleting equations and the mesh leaves a usable storage (partial)

Proved without equations; refuted for every program with at least one equation: deleteMpcs does not clear the list, so numbering, a second deletion and the destructor use released objects.

* `C87_no_equations_partial` [closed]
* `C87_delete_mpcs_refuted` [closed]
* `C87_delete_mesh_refuted` [closed]

### C88 Destruction of materials and MPC collections (partial)

Refuted for every program: MpcCollection (abstract) and Material have no virtual destructor, so deleting a derived object through the base pointer is undefined ([expr.delete]).

* `C88_material_refuted` [closed]
* `C88_collection_refuted` [closed]

### C89 No objects are lost (partial)

Proved for programs that set the material once and delete solution data before initialising them again; refuted for every program that initialises them twice (initSolutionData overwrites matK, matC, matM).

* `C89_no_leak_partial` [closed]
* `C89_second_solution_refuted` [closed]

### C90 Every shape of ElementShape can be written (partial)

Refuted: PYRAMID and the quadratic shapes get no entry in CELL_TYPES (only a log message); the writer succeeds and the strict reader rejects the file, for every such mesh. No element class of the library has these shapes.

* `C90_unknown_shape_refuted` [closed]

### C91 Every step has its own VTK file (partial)

Refuted: process takes a uint16, so step k + 65536 replaces the file of step k.

* `C91_overwritten_refuted` [closed]
* `C91_lost_step_refuted` [closed]

### C92 QUADTH: heat conduction and capacity (proved)

proved over the reals for all orders the tables allow; the integration tables are the decimal ones of the source (quad_unit is the sum of the weights over 4). pos is any placement with positive determinants at the integration points.

* `C92_patch` [reals]
* `C92_dissipation` [reals]
* `C92_totals` [reals]

### C93 SurfaceLINETH: flux and convection (proved)

proved over the reals; the weights of the line tables sum to 2 exactly.

* `C93_matrix` [reals]
* `C93_integrals` [reals]
* `C93_balance` [reals]
* `C93_rest` [reals]
* `C93_coincident` [reals]

### C94 The environment temperatures given are those used (partial)

refuted: pre() takes a second environment temperature of zero as "not given" and replaces it by the first one; all other pairs are kept.

* `C94_zero_environment_refuted` [reals]
* `C94_wrong_heat_refuted` [reals]
* `C94_kept_partial` [reals]

### C95 QUADTH: only constant fields conduct nothing, for every integration order (partial)

refuted at order 1: the alternating field (1,-1,1,-1) has no heat flow in any quadrangle; orders 2 and 3 are proved in C92_dissipation.

* `C95_zigzag_refuted` [reals]
* `C95_every_shape_partial` [reals]

### C96 INTER3: stiffness of an interface between two triangles (proved)

proved over the reals for every triangle of positive area (Fatal stands for results that are not finite). The decimal table is used as written; its integrals are within 1e-9 of the exact ones.

* `C96_matrix` [reals+classic]
* `C96_table` [reals]
* `C96_forces` [reals+classic]
* `C96_energy` [reals+classic]

### C97 INTER3: strains and stress are averages over the surface (partial)

refuted: update() integrates over the surface and does not divide by the area (C97_integral_partial states what is computed); before buildK the member det is zero and so are the results.

* `C97_integral_partial` [reals+classic]
* `C97_average_refuted` [reals+classic]
* `C97_without_buildK_partial` [reals]

### C98 INTER3: answers to tensor queries (partial)

refuted: queries other than C and E leave the function without a return value (undefined behaviour, reached by writeAllResults); scale is ignored; the query for deformations E adds the stress.

* `C98_other_queries_refuted` [reals]
* `C98_scale_refuted` [reals]
* `C98_deformations_refuted` [reals]
* `C98_answered_partial` [reals]
* `C98_added_partial` [reals]

### C99 Eigenvalues of a symmetric 3x3 matrix (proved)

Roots, multiplicities, order and eigenvectors for every symmetric matrix that is not a multiple of the unit matrix; exact reals.

* `C99_roots` [reals+classic]
* `C99_vectors` [reals+classic]
* `C99_all_listed` [reals+classic]

### C100 Eigenvalues: the remaining matrices (partial)

Multiples of the unit matrix give 0/0; entries below the diagonal are not read, so non-symmetric matrices with real eigenvalues get wrong values. Partial: the result is a function of the upper triangle.

* `C100_spherical_refuted` [reals+classic]
* `C100_lower_triangle_refuted` [reals+classic]
* `C100_upper_partial` [reals+classic]

### C101 Command line: order of the options (proved)

Any permutation of the option groups of any settings; generic lookups also with foreign options in between.

* `C101_any_order` [closed]
* `C101_values` [closed]
* `C101_refused` [closed]

### C102 Command line: every value is read as given (partial)

65536 load steps are read as 0; numbers beyond int are undefined behaviour of atoi; "-.5" is taken for an option name and ends the constants; an option without a value takes the next option's name. Partial: numbers below 2^31 are read modulo 65536.

* `C102_large_number_refuted` [closed]
* `C102_overflow_refuted` [closed]
* `C102_wrapped_partial` [closed]
* `C102_negative_fraction_refuted` [closed]
* `C102_missing_value_refuted` [closed]

### C103 Command line: wrong material input is refused (partial)

Unknown material: null pointer; too few constants: read beyond the vector. Partial: with enough constants exactly the first getNumC() are used.

* `C103_unknown_material_refuted` [closed]
* `C103_few_constants_refuted` [closed]
* `C103_given_partial` [closed]

### C104 Reference curve file: one value per row (partial)

Equal neighbouring values are dropped, a first value -1 is dropped, an empty table reads an uninitialised variable, a malformed number makes the loop endless. Partial: what is read in general, and the round trip for tables whose neighbouring values differ.

* `C104_repeated_refuted` [closed]
* `C104_minus_one_refuted` [closed]
* `C104_read_partial` [closed]
* `C104_roundtrip_partial` [closed]
* `C104_header_only_refuted` [closed]
* `C104_malformed_refuted` [closed]

### C105 Comparison with the reference curve and status of the process (proved)

Exact reals; the mesh reader and the solver are arbitrary functions.

* `C105_mean` [reals]
* `C105_status` [reals]
* `C105_zero` [reals]
* `C105_no_reference` [closed]

### C106 A run passes only if the curves agree (partial)

One NaN in the reactions gives status 0 for every threshold and reference.

* `C106_not_a_number_refuted` [reals]

### C107 The problem given to the solver is the one of the files (proved)

Cells, loads, constraints, reaction component and slaves under one injective renumbering that keeps positions; master node: see C108.

* `C107_refused` [closed]
* `C107_refers` [closed]
* `C107_controls` [closed]

### C108 Master node of -rigidbody (partial)

The master number is used without renumbering: with gaps it is a missing node or another node; more than nine DoFs read past the table of labels. Partial: nodes numbered 1..n.

* `C108_master_refuted` [closed]
* `C108_other_node_refuted` [closed]
* `C108_numbered_partial` [closed]
* `C108_many_dofs_refuted` [closed]

### C109 Job name from the model path (partial)

A dot in a directory name cuts the path there if the file has no extension. Partial: files with an extension, paths without dots.

* `C109_extension_partial` [closed]
* `C109_none_partial` [closed]
* `C109_directory_refuted` [closed]

### C110 Balance of forces at every degree of freedom (proved)

exact arithmetic over any ring; prescribed values below the 1e-20 threshold of the matrix-vector product must be zero (see C06); elements have distinct nodes and DoF types

* `C110_nodal_balance` [closed]
* `C110_no_work` [closed]

### C111 Loads and reactions of a structure are in balance (proved)

over the reals

* `C111_forces` [reals]
* `C111_moments` [reals]

### C112 Method of joints (proved)

over the reals; trusses only (all members bars)

* `C112_joints` [reals]
* `C112_stresses` [reals]

### C113 Insufficient supports are refused, sufficient ones are not (proved)

default (Gauss) solver over the reals / any ordered field, without MPC equations, fewer than 1000 DoFs for the converse

* `C113_refused` [closed]
* `C113_held` [closed]
* `C113_ends` [reals]
* `C113_rigid_motion` [reals]
* `C113_mechanism` [reals]
* `C113_truss_refused` [reals]

### C114 Rigid motion and free thermal expansion cause no forces (proved)

over the reals, default solver

* `C114_stress_free` [reals]

### C115 Reciprocity and work of the external forces (proved)

over any ring / the reals

* `C115_reciprocity` [closed]
* `C115_structures` [reals]
* `C115_truss_work` [reals]

### C116 nla3d_truss finds the reference solution (proved)

over the reals (no rounding); VTK output of the program is covered by the VTK layer

* `C116_truss` [reals]
* `C116_values` [reals]
* `C116_stresses` [reals]

### C117 nla3d_truss rejects wrong results (partial)

refuted: the CHECKs have no absolute value, an equation solver answering -1 everywhere passes them

* `C117_checks_refuted` [reals]

### C118 Balance of heat (proved)

exact arithmetic; balance proved for every exact equation solver; heat of the reactions included; convection is taken at the mean of the two end temperatures, which is what the element integrates

* `C118_balance` [reals]
* `C118_ends` [reals]

### C119 Linear temperature fields are reproduced (patch test) (proved)

exact arithmetic, default equation solver; inner nodes: every face (edge) at the node belongs to two elements lying on its two sides (inner3, inner2); the hypothesis that the run succeeds is shown to hold for one mesh of each kind

* `C119_tetrahedra` [reals]
* `C119_quadrangles` [reals]

### C120 Linear displacement fields are reproduced (patch test) (proved)

exact arithmetic, default equation solver; alpha*T equal for all elements; success shown for a mesh of four tetrahedra around a node

* `C120_solid` [reals]

### C121 Insulated bodies are refused, bodies in equilibrium stay at the temperature around (proved)

exact arithmetic, default equation solver

* `C121_refused` [reals]
* `C121_equilibrium` [reals]

### C122 Heat supplied at a node does not make it colder (partial)

violated by TETRA1 (elements/TETRA1.cpp: D = -k, B and volume positive): proved for all meshes of positively oriented tetrahedra, with a concrete mesh; the conducting quadrangles have the right sign, so a mesh mixing both types is inconsistent

* `C122_quadrangles` [reals]
* `C122_tetrahedra_refuted` [reals]
* `C122_witness_refuted` [reals]

### C123 Balance of heat in time (proved)

whole transient runs of QUADTH/SurfaceLINETH models; exact numbers, any exact equation solver for the balance

* `C123_rate` [reals]
* `C123_insulated` [reals]
* `C123_ends` [reals]

### C124 Heat given in a time is stored in that time (partial)

the lag of half a step is proved for all models; the expected property is refuted by a plate with a load

* `C124_lag` [reals]
* `C124_stored_refuted` [reals]

### C125 A body at the temperature of its surroundings stays there (proved)

Gauss solver (its uniqueness is needed)

* `C125_rest` [reals]

### C126 Unconditional stability of heat conduction in time (proved)

stability in the norm of the heat capacity

* `C126_decay` [reals]

### C127 Prescribed temperatures are felt in a transient run (partial)

departure from the held temperature is proved for all meshes of quadrangles; the witness is a square plate

* `C127_departs` [reals]
* `C127_held_refuted` [reals]

### C128 Gauss solver objects have no memory (proved)

Every list of systems on one object, compared with new objects; exact arithmetic, sizes below 1000 (larger ones end fatally in both).

* `C128_no_memory` [closed]
* `C128_factorised` [closed]

### C129 A Gauss solver call leaves its input alone and notices wrong use (partial)

Refuted by witnesses over the rationals (right-hand side, sizes) and for all matrices (no factorisation).

* `C129_same_vectors_refuted` [closed]
* `C129_other_size_refuted` [closed]
* `C129_smaller_matrix_refuted` [closed]
* `C129_not_factorised_refuted` [closed]

### C130 Calls of the PARDISO library keep its protocol (proved)

Library given by its contract: solves what it does not report as an error. Value-initialised objects, or default-initialised ones that factorise.

* `C130_protocol` [closed]

### C131 PARDISO objects can be reused and destroyed at any time (partial)

Four ways of wrong use end in UB or are ignored; a change of size is detected (C131_other_size).

* `C131_unused_object_refuted` [closed]
* `C131_other_size` [closed]
* `C131_other_pattern_refuted` [closed]
* `C131_late_settings_refuted` [closed]
* `C131_not_symmetric` [closed]
* `C131_not_factorised_refuted` [closed]

### C132 Both equation solvers give the same results (proved)

Uniqueness of the solution found by the Gauss solver makes the two agree.

* `C132_calls` [closed]
* `C132_linear` [closed]
* `C132_exact` [closed]

### C133 Systems of linear problems have the storage that PARDISO asks for (partial)

Proved for problems without MPCs with every free DoF in an element; for all others the run with PARDISO is UB.

* `C133_accepted` [closed]
* `C133_solved` [closed]
* `C133_diagonal_refuted` [closed]

### C134 npow is the power or undefined (proved)

Full: exact value iff it fits into int32, otherwise UB.

* `C134_power` [closed]
* `C134_overflow` [closed]
* `C134_sign` [closed]

### C135 del_spaces removes the blanks at both ends (partial)

Proved for all texts of at most 65536 characters that are not blank; the other cases are proved to differ.

* `C135_inside` [closed]
* `C135_texts` [closed]
* `C135_again` [closed]
* `C135_blank_refuted` [closed]
* `C135_endless_refuted` [closed]
* `C135_tail_refuted` [closed]

### C136 read_tokens splits a command at delimiters and drops the comment (partial)

Proved for words shorter than 32768 characters; longer words are proved to end the program or to be shortened.

* `C136_tokens` [closed]
* `C136_inputs` [closed]
* `C136_long_refuted` [closed]
* `C136_cut_refuted` [closed]

### C137 Material constants by name and by number (proved)

Full. The text of a number (toStr) is not modelled, only which values are listed.

* `C137_constants` [closed]
* `C137_unknown` [closed]
* `C137_name_or_number` [closed]
* `C137_same_names` [closed]
* `C137_text` [closed]

### C138 Materials follow the law of their name with the constants of their names (proved)

Full, over the reals.

* `C138_neo_hookean` [reals]
* `C138_biderman` [reals]
* `C138_mooney_rivlin` [reals]
* `C138_command_line` [closed]
* `C138_unset` [reals]
* `C138_factory` [closed]

### C139 A material reports the name it was created by (partial)

Holds for two of three materials; the third one refuted.

* `C139_name_partial` [closed]
* `C139_name_refuted` [closed]

### C140 The result of the linear solver is the only state of balance (proved)

Full, in exact arithmetic; prescribed values must be zero or above the threshold 1e-20 of matBVprod (C06).

* `C140_result_balanced` [closed]
* `C140_only_balance` [closed]

### C141 Load cases can be superposed (proved)

Full, in exact arithmetic with the default equation solver.

* `C141_superposition` [closed]
* `C141_solvable` [closed]

### C142 The result does not depend on numbering and order (partial)

Proved when both runs are solved (the order of elimination decides whether a pivot is below 1e-20, see C26) and for elements without DoFs of their own (not SOLID81, PLANE41).

* `C142_renumbered_partial` [closed]

### C143 The result has the smallest potential energy; stiffer structures yield less (proved)

Full, over the reals. The comparison of two structures is for loads only (supports at zero, no element loads).

* `C143_minimum` [reals]
* `C143_only_minimum` [reals]
* `C143_stiffer` [reals]
* `C143_truss` [reals]

### C144 Supports and loads can be exchanged (proved)

Full, in exact arithmetic with the default equation solver.

* `C144_exchange` [closed]

### C145 Equilibrium iterations are Newton steps of the equilibrium equations (proved)

Full, over the reals with an exact equation solver; the internal force is the one derived from the energy of the material (C80, C81), wherever no integration point is flattened. Compressive Mooney-Rivlin and neo-Hookean materials.

* `C145_newton` [reals+classic]

### C146 An iteration without change has found exact equilibrium (proved)

Full. The program stops earlier, when the mean increment is below its criterion (C32); this says what the iteration is after.

* `C146_stationary` [reals+classic]

### C147 Loads and reactions of a deformed body have no resultant (proved)

Full, over the reals; increments of prescribed DoFs must be zero or above the threshold of matBVprod (C06).

* `C147_resultants` [reals+classic]

### C148 NonlinearFESolver ends without undefined behaviour on every body (proved)

Full, over the reals; numberOfLoadsteps must not be zero (numberOfIterations has 16 bits in the program).

* `C148_ends` [reals+classic]

### C149 A linear structure gives the same result in NonlinearFESolver and LinearFESolver (partial)

Violated. Elements without load vector (TRUSS3 and the other linear elements) hand over no internal force, so every iteration adds the displacements for the whole load at its time: NonlinearFESolver ends with the linear solution for the loads times the sum of the times of all iterations (3/2 of it in two load steps), never converges if the criterion is small, and keeps the reactions of the last increment only. Proved: this sum is exact, and without loads (prescribed displacements only) the displacements agree. Over the rationals with the default equation solver; MPC equations with right hand side 0.

* `C149_times_added` [closed]
* `C149_same_displacements_partial` [closed]
* `C149_loads_added_refuted` [closed]
* `C149_never_converges_refuted` [closed]
* `C149_reactions_of_last_increment_refuted` [closed]

### C150 The program on hyperelastic bodies: from mesh file and arguments to the status (proved)

Real numbers instead of doubles. The mesh file is taken as read (readCdbFile gives a mesh, see C73 for which), the body as well-formed (body_ok: nodes in range, prescribed DoFs exist, room in the sparse matrix), without -rigidbody. C150_ends uses elimination as equation solver; the other theorems hold for every exact one. The output of VtkProcessor is not part of this model.

* `C150_status` [reals+classic]
* `C150_not_solved` [reals+classic]
* `C150_no_reactions` [reals+classic]
* `C150_ends` [reals+classic]

### C151 The numbers of the nodes in the mesh file do not matter (partial)

Violated if the numbers are 1..n in another order than that of the table: compressNumbers returns early and the numbers are then used as positions (C151_any_numbers_refuted, witness with two nodes exchanged). Proved for all other numberings (different numbers; 1..n only in order; every node that is mentioned has a line in the table): the problem and the exit status are the same, and every reference becomes the position in the table. The master node of -rigidbody is a position, not a number of the file, see C108.

* `C151_any_numbers_refuted` [closed]
* `C151_problem_partial` [closed]
* `C151_status_partial` [closed]
* `C151_numbers_are_positions_partial` [closed]

### C152 The place of a body or structure does not matter (proved)

Real numbers instead of doubles (rounding depends on the place). For the program the two mesh files are taken as read: the second gives the first mesh with moved coordinates; not for -rigidbody.

* `C152_body` [reals+classic]
* `C152_status` [reals+classic]
* `C152_structure` [reals]
* `C152_heat` [reals]
* `C152_heat_in_time` [reals]

### C153 The order of the commands in the mesh file does not matter (proved)

Generalises C73 (one fixed order, no ignored lines). The order within one kind does matter: it is the order of the result, and of two components with the same name the first one is kept.

* `C153_any_commands` [closed]
* `C153_order` [closed]

### C154 The direction of trusses and heat conducting bodies does not matter (proved)

Trusses: both runs solved by the default equation solver. A support that is held after turning must have been held along all axes that take part in it, so nodes that are held in all directions may be turned in any way. In the reals.

* `C154_truss` [reals]
* `C154_heat` [reals]
* `C154_heat_in_time` [reals]

### C155 The direction of a structure of bars and tetrahedra does not matter (proved)

Both runs solved by the default equation solver. Tetrahedra without initial strains and stresses; thermal strains are allowed. A support that is held after turning must have been held along all axes that take part in it. In the reals.

* `C155_structure` [reals]

### C156 The units of length and force do not matter (proved)

Both runs solved by the default equation solver: its limit of 1e-20 for pivots is a fixed number (C26), so a run may be refused in one system of units only, which this property does not rule out. Tetrahedra without initial strains and stresses; thermal strains are allowed. In the reals.

* `C156_structure` [reals]


## All axioms that occur

* `ClassicalDedekindReals.sig_forall_dec`
* `ClassicalDedekindReals.sig_not_dec`
* `Classical_Prop.classic`
* `FunctionalExtensionality.functional_extensionality_dep`
* `PrimFloat.leb`
* `abs`
* `add`
* `div`
* `float`
* `ltb`
* `mul`
* `opp`
* `sub`
